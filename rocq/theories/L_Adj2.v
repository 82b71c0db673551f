(** Error propagation along a grid for the adjoint solve: growth bounds, speed bounds, comparison with the perturbed solve. *)
From Coq Require Import ZArith QArith Qreals Reals Lra Lia List Bool.
From Verif Require Import Num Py Tensor M_SolversOde M_Utils M_Odeint M_Root M_Sens Spec_Ode Spec_Trees Spec_RK Spec_Root Spec_Sens Spec_Conv Spec_Grad.
From Verif Require Import L_Base L_Fixed L_Vec L_Steps L_Steps2 L_Fixed2 L_Root L_Sens L_SensP L_Conv L_Models L_Tangent Pf_Fixed Pf_Sens Pf_SensP L_Adj.
Import ListNotations.
Local Open Scope R_scope.
Local Notation length := List.length.
Local Notation rvl := (list R).

(** ** Discrete growth *)
Definition gr (a b c s : R) : R := exp (a * s) * (c + b * s).
Lemma exp_mono x y : x <= y -> exp x <= exp y.
Proof. intros [H | ->]; [left; now apply exp_increasing|right; reflexivity]. Qed.
Lemma gr_step a b c s h : 0 <= a -> 0 <= b -> 0 <= c -> 0 <= s -> 0 <= h -> (1 + h * a) * gr a b c s + h * b <= gr a b c (s + h).
Proof.
  intros Ha Hb Hc Hs Hh. unfold gr. replace (a * (s + h)) with (a * s + a * h) by ring. rewrite exp_plus.
  pose proof (exp_ge1 (a * h)) as E1. pose proof (exp_ge1 (a * s)) as E2.
  assert (0 <= a * s) by (now apply Rmult_le_pos). assert (0 <= a * h) by (now apply Rmult_le_pos). assert (0 <= b * s) by (now apply Rmult_le_pos).
  assert (0 <= h * b) by (now apply Rmult_le_pos).
  set (X := exp (a * s)) in *. set (Y := exp (a * h)) in *. set (Z := c + b * s) in *.
  replace (c + b * (s + h)) with (Z + h * b) by (unfold Z; ring).
  assert (0 <= X * Z) by (apply Rmult_le_pos; unfold Z; lra).
  assert (0 <= X * Z * (Y - (1 + a * h))) by (apply Rmult_le_pos; lra).
  assert (1 <= X * Y) by (assert (0 <= (X - 1) * (Y - 1)) by (apply Rmult_le_pos; lra); nra).
  assert (0 <= (X * Y - 1) * (h * b)) by (apply Rmult_le_pos; lra). nra.
Qed.
Lemma gr_mono a b c s T : 0 <= a -> 0 <= b -> 0 <= c -> 0 <= s <= T -> gr a b c s <= gr a b c T.
Proof.
  intros Ha Hb Hc Hs. unfold gr. apply Rmult_le_compat.
  - left. apply exp_pos.
  - assert (0 <= b * s) by (apply Rmult_le_pos; lra). lra.
  - apply exp_mono. apply Rmult_le_compat_l; lra.
  - apply Rplus_le_compat_l. apply Rmult_le_compat_l; lra.
Qed.
Lemma gr_ge a b c s : 0 <= a -> 0 <= b -> 0 <= c -> 0 <= s -> c <= gr a b c s.
Proof. intros. apply Rle_trans with (gr a b c 0); [right; unfold gr; rewrite !Rmult_0_r, exp_0; ring|apply gr_mono; auto; lra]. Qed.
Lemma gr_0 a b c : gr a b c 0 = c.
Proof. unfold gr. rewrite !Rmult_0_r, exp_0. ring. Qed.

(** ** Adjacent entries *)
Fixpoint links {A} (Q : A -> A -> Prop) (l : list A) : Prop :=
  match l with a :: r => match r with b :: _ => Q a b | [] => True end /\ links Q r | [] => True end.
Lemma links_app {A} (Q : A -> A -> Prop) l a b r : links Q (l ++ a :: b :: r) -> Q a b.
Proof. induction l as [|c l IH]; cbn; [tauto|]. intros (_ & H). auto. Qed.
Lemma links_impl {A} (Q Q' : A -> A -> Prop) : (forall a b, Q a b -> Q' a b) -> forall l, links Q l -> links Q' l.
Proof. intros H. induction l as [|a l IH]; cbn; auto. intros (H1 & H2). split; auto. destruct l; auto. Qed.

Lemma grid_links H : forall l, increasing l -> steps_at_most H l -> links (fun a b => 0 < b - a <= H) l.
Proof.
  induction l as [|a l IH]; intros Hi Hs; cbn; auto. split.
  - destruct l as [|c l]; auto. split; [pose proof (Hi 0%nat 1%nat a c ltac:(lia) eq_refl eq_refl); lra|apply (Hs 0%nat a c); reflexivity].
  - apply IH.
    + intros i j x y Hij. apply (Hi (S i) (S j) x y). lia.
    + intros i x y. apply (Hs (S i) x y).
Qed.

Section Grid.
Context (n m : nat) (L : R) (f : rvl -> R -> rvl -> rvl) (p : rvl) (D : R -> rvl -> rvl -> rvl -> rvl).
Hypothesis Hsm : smooth_family n m L f p D.
Hypothesis HL : 0 <= L.

(** one link of the forward trajectory *)
Definition fwd (rows : list (R * rvl)) (b : rvl) (H F : R) (a c : R * rvl) : Prop :=
  0 < fst c - fst a <= H /\ length (snd a) = n /\ length (snd c) = n /\ snd c = erk_step rows b (f p) (fst a) (fst c - fst a) (snd a) /\
  within n F (f p (fst a) (snd a)) /\ within n F (f p (fst c) (snd c)).

Lemma near_axpy h k x B : 0 <= h -> length k = n -> length x = n -> within n B k -> near n (h * B) (axpy h k x) x.
Proof.
  intros Hh Hk Hx HB i Hi. rewrite (nth_axpy n) by auto. replace (nth i x 0 + h * nth i k 0 - nth i x 0) with (h * nth i k 0) by ring.
  rewrite Rabs_mult, (Rabs_right h) by lra. apply Rmult_le_compat_l; auto.
Qed.

Lemma f_len t x : length x = n -> length (f p t x) = n.
Proof. destruct Hsm as (Hp & H & _). now apply H. Qed.
Lemma f_lip s t y x E : length y = n -> length x = n -> 0 <= E -> near n E y x -> near n (L * (Rabs (s - t) + E)) (f p s y) (f p t x).
Proof. destruct Hsm as (Hp & _ & _ & H & _). intros. apply H; auto. now apply near_refl. Qed.

(** speed bound *)
Section Speed.
Context (rows : list (R * rvl)) (b : rvl) (T K : R).
Hypothesis HT : 0 <= T.
Hypothesis HK : 0 <= K.
Hypothesis Heu : forall t h x F, length x = n -> Rabs h <= T -> 0 <= F -> within n F (f p t x) ->
  near n (Rabs h * (K * (1 + F) * Rabs h)) (erk_step rows b (f p) t h x) (axpy h (f p t x) x).

Lemma step_moves t h x F : length x = n -> 0 <= h <= T -> 0 <= F -> within n F (f p t x) ->
  near n (h * ((1 + K * T) * (1 + F))) (erk_step rows b (f p) t h x) x.
Proof.
  intros Hx Hh HF Hw. assert (Eh : Rabs h = h) by (apply Rabs_right; lra).
  pose proof (Heu t h x F Hx ltac:(lra) HF Hw) as N1. rewrite Eh in N1.
  pose proof (near_axpy h (f p t x) x F ltac:(lra) (f_len t x Hx) Hx Hw) as N2.
  eapply near_le; [|exact (near_trans n _ _ _ _ _ N1 N2)].
  assert (0 <= K * (1 + F)) by (apply Rmult_le_pos; lra). assert (K * (1 + F) * h <= K * (1 + F) * T) by (apply Rmult_le_compat_l; lra).
  assert (h * (K * (1 + F) * h) <= h * (K * (1 + F) * T)) by (apply Rmult_le_compat_l; lra). nra.
Qed.

Lemma forward_links H M t0 (al := L * (2 + K * T)) : 0 <= M -> forall ts t x, 0 <= t - t0 -> length x = n ->
  within n ((1 + M) * exp (al * (t - t0)) - 1) (f p t x) -> links (fun a c => 0 < c - a <= H) (t :: ts) -> (forall s, In s (t :: ts) -> s - t0 <= T) ->
  links (fwd rows b H ((1 + M) * exp (al * T))) (combine (t :: ts) (one_step_traj (erk_step rows b (f p)) x (t :: ts))).
Proof.
  intros HM. assert (Pal : 0 <= al) by (apply Rmult_le_pos; [exact HL|]; assert (0 <= K * T) by (now apply Rmult_le_pos); lra).
  induction ts as [|t' ts IH]; intros t x Ht Hx Hw Hli Hend; [cbn; auto|].
  destruct Hli as (Hh & Hli). cbv beta in Hh. cbn [one_step_traj combine].
  set (x' := erk_step rows b (f p) t (t' - t) x). set (h := t' - t) in *.
  assert (Lx' : length x' = n) by (apply erk_step_len; auto; destruct Hsm as (Hp & H0 & _); now apply H0).
  pose proof (Hend t' (or_intror (or_introl eq_refl))) as He'.
  set (Fi := (1 + M) * exp (al * (t - t0)) - 1) in *.
  assert (E1 : 1 <= exp (al * (t - t0))) by (pose proof (exp_ge1 (al * (t - t0))); assert (0 <= al * (t - t0)) by (now apply Rmult_le_pos); lra).
  assert (PF : 0 <= Fi) by (unfold Fi; nra).
  pose proof (step_moves t h x Fi Hx ltac:(unfold h in *; lra) PF Hw) as N1. fold x' in N1.
  assert (PKT : 0 <= K * T) by (now apply Rmult_le_pos).
  assert (P1 : 0 <= h * ((1 + K * T) * (1 + Fi))) by (apply Rmult_le_pos; [lra|apply Rmult_le_pos; lra]).
  pose proof (f_lip t' t x' x _ Lx' Hx P1 N1) as N2. fold h in N2. rewrite (Rabs_right h) in N2 by lra.
  pose proof (within_near n _ _ _ _ Hw N2) as W2.
  assert (B2 : Fi + L * (h + h * ((1 + K * T) * (1 + Fi))) <= (1 + M) * exp (al * (t' - t0)) - 1).
  { replace (al * (t' - t0)) with (al * (t - t0) + al * h) by (unfold h; ring). rewrite exp_plus.
    pose proof (exp_ge1 (al * h)) as E2. replace ((1 + M) * (exp (al * (t - t0)) * exp (al * h))) with ((1 + Fi) * exp (al * h)) by (unfold Fi; ring).
    assert ((1 + Fi) * (1 + al * h) <= (1 + Fi) * exp (al * h)) by (apply Rmult_le_compat_l; lra).
    assert (0 <= L * h) by (apply Rmult_le_pos; lra). assert (0 <= L * h * Fi) by (apply Rmult_le_pos; lra). unfold al in *. nra. }
  pose proof (within_le n _ _ _ B2 W2) as W3.
  assert (Ebd : forall s, 0 <= s <= T -> (1 + M) * exp (al * s) - 1 <= (1 + M) * exp (al * T)).
  { intros s Hs. assert (exp (al * s) <= exp (al * T)) by (apply exp_mono, Rmult_le_compat_l; lra). nra. }
  pose proof (IH t' x' ltac:(unfold h in *; lra) Lx' W3 Hli (fun s Hs => Hend s (or_intror Hs))) as IH'.
  cbn [one_step_traj combine] in IH'. destruct ts as [|t'' ts]; cbn [links].
  - split; [|split; [exact I|exact I]]. repeat split; cbn [fst snd]; auto; try (fold h; lra).
    + eapply within_le; [|exact Hw]. apply Ebd. unfold h in *; lra.
    + eapply within_le; [|exact W3]. apply Ebd. unfold h in *; lra.
  - split; [|exact IH']. repeat split; cbn [fst snd]; auto; try (fold h; lra).
    + eapply within_le; [|exact Hw]. apply Ebd. unfold h in *; lra.
    + eapply within_le; [|exact W3]. apply Ebd. unfold h in *; lra.
Qed.
End Speed.

(** ** the operators of the backward pass are Euler steps of the linearised equation, up to first order *)
Definition ok (C H : R) (a c : R * rvl) (P : rvl -> rvl -> rvl) : Prop :=
  forall u q E, length u = n -> length q = m -> 0 <= E -> within n E u -> within m E q ->
    length (P u q) = n /\ near n ((fst c - fst a) * (C * H * E)) (P u q) (axpy (fst c - fst a) (D (fst a) (snd a) u q) u).
Fixpoint good (C H : R) (l : list (R * rvl)) (Ps : list (rvl -> rvl -> rvl)) : Prop :=
  match l with
  | [] => False
  | a :: r => match r with
              | [] => Ps = []
              | c :: _ => match Ps with [] => False | P :: Ps' => ok C H a c P /\ good C H r Ps' end
              end
  end.

Section Backward.
Context (rows rows' : list (R * rvl)) (b b' : rvl) (T K K' K2 F H : R).
Hypothesis HT : 0 <= T.
Hypothesis HK : 0 <= K.
Hypothesis HK' : 0 <= K'.
Hypothesis HK2 : 0 <= K2.
Hypothesis HF : 0 <= F.
Hypothesis HH : 0 <= H <= T.
Hypothesis Heu : forall t h x F, length x = n -> Rabs h <= T -> 0 <= F -> within n F (f p t x) ->
  near n (Rabs h * (K * (1 + F) * Rabs h)) (erk_step rows b (f p) t h x) (axpy h (f p t x) x).
Hypothesis Heu' : forall t h x F, length x = n -> Rabs h <= T -> 0 <= F -> within n F (f p t x) ->
  near n (Rabs h * (K' * (1 + F) * Rabs h)) (erk_step rows' b' (f p) t h x) (axpy h (f p t x) x).
Let S := (1 + K * T) * (1 + F).
Let al := L + K' * L * T.
Let be := L + L * S + (K + K') * (1 + F).
Let B := exp (al * T) * (be * T).
Let F1 := F + L * (B * T).
Hypothesis Htr : forall t h x, length x = n -> Rabs h <= T -> within n F1 (f p t x) ->
  forall u q E, length u = n -> length q = m -> 0 <= E -> within n E u -> within m E q ->
    length (transposed_step m f p D rows' b' t h x u q) = n /\
    near n (Rabs h * (K2 * Rabs h * E)) (transposed_step m f p D rows' b' t h x u q) (axpy (- h) (D t x u q) u).
Let C := K2 + L * (1 + B + S).

Lemma PS : 0 <= S. Proof. apply Rmult_le_pos; [assert (0 <= K * T) by (now apply Rmult_le_pos)|]; lra. Qed.
Lemma Pal : 0 <= al. Proof. unfold al. assert (0 <= K' * L * T) by (apply Rmult_le_pos; auto; now apply Rmult_le_pos). lra. Qed.
Lemma Pbe : 0 <= be. Proof. unfold be. pose proof PS. assert (0 <= L * S) by (now apply Rmult_le_pos). assert (0 <= (K + K') * (1 + F)) by (apply Rmult_le_pos; lra). lra. Qed.
Lemma PB : 0 <= B. Proof. apply Rmult_le_pos; [left; apply exp_pos|apply Rmult_le_pos; auto; apply Pbe]. Qed.

Definition err (s : R) := gr al (be * H) 0 s.
Lemma err_le s : 0 <= s <= T -> 0 <= err s <= B * H.
Proof.
  intros Hs. pose proof Pal. pose proof Pbe. assert (0 <= be * H) by (apply Rmult_le_pos; lra). split.
  - apply (gr_ge al (be * H) 0 s); auto; lra.
  - apply Rle_trans with (err T); [apply gr_mono; auto; lra|]. unfold err, gr, B. right. ring.
Qed.

Lemma back_state tN t1 x1 t x xh : fwd rows b H F (t1, x1) (t, x) -> length xh = n -> 0 <= tN - t -> tN - t1 <= T -> near n (err (tN - t)) xh x ->
  near n (err (tN - t1)) (erk_step rows' b' (f p) t (t1 - t) xh) x1.
Proof.
  intros (Hh & Lx1 & Lx & Ex & W1 & W) Lxh Ht Ht1 Ne. cbn [fst snd] in *. set (h := t - t1) in *.
  pose proof PS. pose proof Pal. pose proof Pbe. pose proof PB.
  destruct (err_le (tN - t)) as (Pe & Be); [unfold h in *; lra|]. set (e := err (tN - t)) in *.
  assert (Ph : Rabs (t1 - t) = h) by (rewrite Rabs_left by (unfold h in *; lra); unfold h; ring).
  (* speed at xh *)
  pose proof (f_lip t t xh x e Lxh Lx Pe Ne) as Nf. rewrite Rminus_diag_eq, Rabs_R0, Rplus_0_l in Nf by reflexivity.
  pose proof (within_near n _ _ _ _ W Nf) as Wh.
  assert (PLe : 0 <= L * e) by (now apply Rmult_le_pos).
  pose proof (Heu' t (t1 - t) xh (F + L * e) Lxh ltac:(rewrite Ph; lra) ltac:(lra) Wh) as N1. rewrite Ph in N1.
  pose proof (Heu t1 h x1 F Lx1 ltac:(rewrite Rabs_right; lra) HF W1) as N2. rewrite (Rabs_right h) in N2 by lra. rewrite <- Ex in N2.
  pose proof (step_moves rows b T K HK Heu t1 h x1 F Lx1 ltac:(lra) HF W1) as N3. rewrite <- Ex in N3. fold S in N3.
  assert (PhS : 0 <= h * S) by (apply Rmult_le_pos; lra).
  pose proof (near_trans n _ _ _ _ _ Ne N3) as N4.
  pose proof (f_lip t t1 xh x1 (e + h * S) Lxh Lx1 ltac:(lra) N4) as N5. fold h in N5. rewrite (Rabs_right h) in N5 by lra.
  assert (Lfh := f_len t xh Lxh). assert (Lf1 := f_len t1 x1 Lx1).
  intros i Hi. specialize (N1 i Hi). specialize (N2 i Hi). specialize (N5 i Hi). specialize (Ne i Hi).
  rewrite (nth_axpy n) in N1, N2 by auto.
  set (y := nth i (erk_step rows' b' (f p) t (t1 - t) xh) 0) in *. set (xi := nth i x 0) in *. set (hi := nth i xh 0) in *. set (x1i := nth i x1 0) in *.
  set (a := nth i (f p t xh) 0) in *. set (c := nth i (f p t1 x1) 0) in *.
  replace (y - x1i) with ((y - (hi + (t1 - t) * a)) + (hi - xi) + (xi - (x1i + h * c)) - h * (a - c)) by (unfold h; ring).
  eapply Rle_trans; [unfold Rminus at 1; eapply Rle_trans; [apply Rabs_triang|]; apply Rplus_le_compat; [eapply Rle_trans; [apply Rabs_triang|]; apply Rplus_le_compat; [apply Rabs_triang|apply Rle_refl]|apply Rle_refl]|].
  rewrite Rabs_Ropp, Rabs_mult, (Rabs_right h) by lra.
  assert (h * Rabs (a - c) <= h * (L * (h + (e + h * S)))) by (apply Rmult_le_compat_l; lra).
  replace (tN - t1) with ((tN - t) + h) by (unfold h; ring).
  eapply Rle_trans; [|apply gr_step; auto; try lra; apply Rmult_le_pos; lra]. fold e. change (gr al (be * H) 0 (tN - t)) with e.
  assert (G : h * (K' * (1 + (F + L * e)) * h) + e + h * (K * (1 + F) * h) + h * (L * (h + (e + h * S))) <= (1 + h * al) * e + h * (be * H)).
  { assert (A1 : h * (K' * (L * e) * h) <= h * (K' * (L * e) * T)).
    { apply Rmult_le_compat_l; [lra|]. apply Rmult_le_compat_l; [|lra]. now apply Rmult_le_pos. }
    assert (A2 : h * ((K + K') * (1 + F) + L + L * S) * h <= h * ((K + K') * (1 + F) + L + L * S) * H).
    { apply Rmult_le_compat_l; [|lra]. apply Rmult_le_pos; [lra|]. unfold be in *. lra. }
    unfold al, be. nra. }
  lra.
Qed.

Lemma back_ok tN t1 x1 t x xh : fwd rows b H F (t1, x1) (t, x) -> length xh = n -> 0 <= tN - t -> tN - t1 <= T -> near n (err (tN - t)) xh x ->
  ok C H (t1, x1) (t, x) (transposed_step m f p D rows' b' t (t1 - t) xh).
Proof.
  intros (Hh & Lx1 & Lx & Ex & W1 & W) Lxh Ht Ht1 Ne u q E Hu Hq HE Wu Wq. cbn [fst snd] in *. set (h := t - t1) in *.
  pose proof PS. pose proof Pal. pose proof Pbe. pose proof PB.
  destruct (err_le (tN - t)) as (Pe & Be); [unfold h in *; lra|]. set (e := err (tN - t)) in *.
  assert (Ph : Rabs (t1 - t) = h) by (rewrite Rabs_left by (unfold h in *; lra); unfold h; ring).
  pose proof (f_lip t t xh x e Lxh Lx Pe Ne) as Nf. rewrite Rminus_diag_eq, Rabs_R0, Rplus_0_l in Nf by reflexivity.
  assert (WF : within n F1 (f p t xh)).
  { eapply within_le; [|exact (within_near n _ _ _ _ W Nf)]. unfold F1. apply Rplus_le_compat_l, Rmult_le_compat_l; auto.
    apply Rle_trans with (B * H); auto. apply Rmult_le_compat_l; lra. }
  destruct (Htr t (t1 - t) xh Lxh ltac:(rewrite Ph; lra) WF u q E Hu Hq HE Wu Wq) as (LP & N1). split; [exact LP|].
  rewrite Ph in N1. replace (- (t1 - t)) with h in N1 by (unfold h; ring).
  pose proof (step_moves rows b T K HK Heu t1 h x1 F Lx1 ltac:(lra) HF W1) as N3. rewrite <- Ex in N3. fold S in N3.
  assert (PhS : 0 <= h * S) by (apply Rmult_le_pos; lra).
  pose proof (near_trans n _ _ _ _ _ Ne N3) as N4.
  destruct Hsm as (Hp & Hf & HD & _ & _ & _ & _ & HDl).
  pose proof (HDl t t1 xh x1 u q (e + h * S) E Lxh Lx1 Hu Hq ltac:(lra) HE N4 Wu Wq) as N5. fold h in N5. rewrite (Rabs_right h) in N5 by lra.
  assert (LD1 : length (D t xh u q) = n) by now apply HD. assert (LD2 : length (D t1 x1 u q) = n) by now apply HD.
  intros i Hi. specialize (N1 i Hi). specialize (N5 i Hi). rewrite (nth_axpy n) in N1 by auto. rewrite (nth_axpy n) by auto.
  set (y := nth i (transposed_step m f p D rows' b' t (t1 - t) xh u q) 0) in *. set (a := nth i (D t xh u q) 0) in *. set (c := nth i (D t1 x1 u q) 0) in *. set (ui := nth i u 0) in *.
  replace (y - (ui + h * c)) with ((y - (ui + h * a)) + h * (a - c)) by ring.
  eapply Rle_trans; [apply Rabs_triang|]. rewrite (Rabs_mult h), (Rabs_right h) by lra.
  assert (h * Rabs (a - c) <= h * (L * (h + (e + h * S)) * E)) by (apply Rmult_le_compat_l; lra).
  assert (A1 : h * (K2 * h * E) <= h * (K2 * H * E)).
  { apply Rmult_le_compat_l; [lra|]. apply Rmult_le_compat_r; auto. apply Rmult_le_compat_l; lra. }
  assert (A2 : h * (L * (h + (e + h * S)) * E) <= h * (L * ((1 + B + S) * H) * E)).
  { apply Rmult_le_compat_l; [lra|]. apply Rmult_le_compat_r; auto. apply Rmult_le_compat_l; auto.
    assert (h * S <= H * S) by (apply Rmult_le_compat_r; lra). lra. }
  unfold C. nra.
Qed.

Lemma back_good tN : forall rpre t x suf xh Ps, links (fwd rows b H F) (rev rpre ++ (t, x) :: suf) -> length xh = n -> 0 <= tN - t ->
  (forall a, In a rpre -> tN - fst a <= T) -> near n (err (tN - t)) xh x -> good C H ((t, x) :: suf) Ps ->
  good C H (rev rpre ++ (t, x) :: suf) (back_ops m f p D rows' b' (map fst rpre) t xh Ps).
Proof.
  induction rpre as [|[t1 x1] rpre IH]; intros t x suf xh Ps Hli Lxh Ht Hend Ne HG; [exact HG|].
  cbn [rev] in *. rewrite <- app_assoc in *. cbn [app] in *. cbn [map back_ops fst].
  pose proof (links_app _ _ _ _ _ Hli) as Hf. pose proof (Hend (t1, x1) (or_introl eq_refl)) as He1. cbn [fst] in He1.
  pose proof Hf as (Hh & _). cbn [fst] in Hh.
  apply IH; auto.
  - apply erk_step_len; auto. destruct Hsm as (Hp & H0 & _). now apply H0.
  - lra.
  - intros a Ha. apply Hend. now right.
  - now apply (back_state tN t1 x1 t x xh).
  - cbn [good]. split; [now apply (back_ok tN)|exact HG].
Qed.
End Backward.

(** ** comparison with the perturbed solve *)
Section Compare.
Context (rows : list (R * rvl)) (b : rvl) (T F K3 C H t0 E : R) (q : rvl).
Hypothesis HT : 0 <= T.
Hypothesis HK3 : 0 <= K3.
Hypothesis HC : 0 <= C.
Hypothesis HH : 0 <= H <= T.
Hypothesis HE : 0 <= E.
Hypothesis Hq : length q = m.
Hypothesis Nq : near m E q p.
Hypothesis Hps : forall t h x x' E, length x = n -> length x' = n -> Rabs h <= T -> within n F (f p t x) -> 0 <= E -> near n E x' x -> near m E q p ->
  near n ((1 + K3 * Rabs h) * E) (erk_step rows b (f q) t h x') (erk_step rows b (f p) t h x) /\
  near n (Rabs h * (K3 * (E * (Rabs h + E)))) (minus_vec (erk_step rows b (f q) t h x') (erk_step rows b (f p) t h x))
    (axpy h (D t x (minus_vec x' x) (minus_vec q p)) (minus_vec x' x)).
Let W := exp (K3 * T).
Let al := L + C * T.
Let U := exp (al * T).
Let ga := (K3 * W * (1 + W) + C * U) * (E * (H + E)).
Let De := exp (L * T) * (ga * T).

Lemma dot_bound : forall (g v : rvl) d, 0 <= d -> (forall i, (i < length g)%nat -> Rabs (nth i v 0) <= d) -> Rabs (dot g v) <= fold_right Rplus 0 (map Rabs g) * d.
Proof.
  unfold dot. induction g as [|a g IH]; intros [|c v] d Hd Hb; cbn [combine map fold_right].
  - rewrite Rabs_R0. lra.
  - rewrite Rabs_R0. lra.
  - rewrite Rabs_R0. apply Rmult_le_pos; auto. pose proof (Rabs_pos a). pose proof (asum_pos g) as P. unfold asum in P. lra.
  - eapply Rle_trans; [apply Rabs_triang|]. cbn [fst snd]. rewrite Rabs_mult.
    assert (H1 : Rabs c <= d) by (apply (Hb 0%nat); cbn; lia).
    assert (H2 : Rabs a * Rabs c <= Rabs a * d) by (apply Rmult_le_compat_l; [apply Rabs_pos|auto]).
    assert (H3 : forall i, (i < length g)%nat -> Rabs (nth i v 0) <= d) by (intros i Hi; apply (Hb (S i)); cbn; lia).
    specialize (IH v d Hd H3). lra.
Qed.

Lemma compare : forall l t x x' u Ps gx, links (fwd rows b H F) ((t, x) :: l) -> good C H ((t, x) :: l) Ps ->
  0 <= t - t0 -> (forall a, In a ((t, x) :: l) -> fst a - t0 <= T) -> length x = n -> length x' = n -> length u = n ->
  near n (gr K3 0 E (t - t0)) x' x -> within n (gr al 0 E (t - t0)) u -> near n (gr L ga 0 (t - t0)) (minus_vec x' x) u ->
  Forall (fun g => length g = n) gx ->
  Rabs (pairing gx (one_step_traj (erk_step rows b (f q)) x' (map fst ((t, x) :: l))) - pairing gx (map snd ((t, x) :: l)) - pairing gx (utraj Ps u (minus_vec q p))) <= total gx * De.
Proof.
  assert (Pal : 0 <= al) by (unfold al; assert (0 <= C * T) by (now apply Rmult_le_pos); lra).
  assert (PW : 1 <= W) by (unfold W; pose proof (exp_ge1 (K3 * T)); assert (0 <= K3 * T) by (now apply Rmult_le_pos); lra).
  assert (PU : 0 <= U) by (left; apply exp_pos).
  assert (PHE : 0 <= E * (H + E)) by (apply Rmult_le_pos; lra).
  assert (PKW : 0 <= K3 * W) by (apply Rmult_le_pos; lra).
  assert (PKWW : 0 <= K3 * W * (1 + W)) by (apply Rmult_le_pos; lra).
  assert (PCU : 0 <= C * U) by (apply Rmult_le_pos; lra).
  assert (Pga : 0 <= ga) by (apply Rmult_le_pos; lra).
  assert (PDe : forall s, 0 <= s <= T -> 0 <= gr L ga 0 s <= De).
  { intros s Hs. split; [apply gr_ge; auto; lra|]. eapply Rle_trans; [apply gr_mono; eauto; lra|]. unfold De, gr. right. ring. }
  induction l as [|[t' y] l IH]; intros t x x' u Ps gx Hli HG Ht Hend Lx Lx' Lu Nx Wu Nu Hgx.
  all: destruct gx as [|g gx]; [cbn [pairing total map fold_right]; unfold total; cbn [map fold_right]; replace (0 - 0 - 0) with 0 by ring; rewrite Rabs_R0; lra|].
  all: pose proof (Hend (t, x) (or_introl eq_refl)) as Hte; cbn [fst] in Hte.
  all: destruct (PDe (t - t0) ltac:(lra)) as (D0 & D1).
  all: apply Forall_cons_iff in Hgx; destruct Hgx as (Hg & Hgx).
  all: assert (Hd : Rabs (dot g x' - dot g x - dot g u) <= fold_right Rplus 0 (map Rabs g) * De).
  1,3: rewrite <- !dot_minus_r by (rewrite ?(minus_len n); auto; congruence); apply dot_bound; [lra|]; intros i Hi;
       rewrite nth_minus by (rewrite (minus_len n); auto; lia); eapply Rle_trans; [apply (Nu i); lia|lra].
  - cbn [good] in HG. subst Ps. cbn [map fst snd one_step_traj utraj pairing].
    assert (EP : pairing gx [] = 0) by now destruct gx. rewrite EP. unfold total. cbn [map fold_right].
    replace (dot g x' + 0 - (dot g x + 0) - (dot g u + 0)) with (dot g x' - dot g x - dot g u) by ring.
    pose proof (asum_pos g) as P1. assert (P2 : 0 <= fold_right Rplus 0 (map (fun v : list R => fold_right Rplus 0 (map Rabs v)) gx)).
    { clear. induction gx as [|v gx IH]; cbn; [lra|]. pose proof (asum_pos v) as P. unfold asum in P. lra. }
    assert (0 <= fold_right Rplus 0 (map (fun v : list R => fold_right Rplus 0 (map Rabs v)) gx) * De) by (apply Rmult_le_pos; lra). lra.
  - destruct Hli as (Hf & Hli). pose proof Hf as (Hh & _ & Ly & Ey & W1 & W2). cbn [fst snd] in *.
    cbn [good] in HG. destruct Ps as [|P Ps]; [contradiction|]. destruct HG as (Hok & HG).
    set (h := t' - t) in *. assert (Eh : Rabs h = h) by (apply Rabs_right; lra).
    pose proof (Hend (t', y) (or_intror (or_introl eq_refl))) as Hte'. cbn [fst] in Hte'.
    set (y' := erk_step rows b (f q) t h x').
    set (Wi := gr K3 0 E (t - t0)) in *. set (Ui := gr al 0 E (t - t0)) in *. set (di := gr L ga 0 (t - t0)) in *.
    assert (BW : E <= Wi <= W * E).
    { split; [apply gr_ge; auto; lra|]. eapply Rle_trans; [apply (gr_mono K3 0 E _ T); auto; lra|]. unfold gr, W. right. ring. }
    assert (BU : E <= Ui <= U * E).
    { split; [apply gr_ge; auto; lra|]. eapply Rle_trans; [apply (gr_mono al 0 E _ T); auto; lra|]. unfold gr, U. right. ring. }
    assert (NqW : near m Wi q p) by (eapply near_le; [|exact Nq]; lra).
    destruct (Hps t h x x' Wi Lx Lx' ltac:(lra) W1 ltac:(lra) Nx NqW) as (N1 & N2). rewrite Eh in N1, N2. fold y' in N1, N2. rewrite <- Ey in N1, N2.
    destruct Hsm as (Hp & Hfo & HD & _ & _ & HDa & HDb & _).
    assert (Ldq : length (minus_vec q p) = m) by (apply minus_len; auto).
    assert (Wdq : within m Ui (minus_vec q p)) by (apply within_minus; auto; eapply near_le; [|exact Nq]; lra).
    destruct (Hok u (minus_vec q p) Ui Lu Ldq ltac:(lra) Wu Wdq) as (LP & NP). cbn [fst snd] in NP. fold h in NP.
    assert (Ly' : length y' = n) by (apply erk_step_len; auto).
    assert (LDu : length (D t x u (minus_vec q p)) = n) by now apply HD.
    assert (Lw : length (minus_vec x' x) = n) by now apply minus_len.
    assert (LDw : length (D t x (minus_vec x' x) (minus_vec q p)) = n) by now apply HD.
    pose proof (HDb t x u (minus_vec q p) Ui Lx Lu Ldq ltac:(lra) Wu Wdq) as WD.
    (* difference of the derivative at the two tangents *)
    assert (ND : near n (L * di) (D t x (minus_vec x' x) (minus_vec q p)) (D t x u (minus_vec q p))).
    { intros i Hi. assert (Lz : length (minus_vec (minus_vec q p) (minus_vec q p)) = m) by (apply minus_len; auto).
      pose proof (HDb t x (minus_vec (minus_vec x' x) u) (minus_vec (minus_vec q p) (minus_vec q p)) di Lx ltac:(now apply minus_len) Lz ltac:(lra)
        ltac:(now apply within_minus) ltac:(apply within_minus; auto; apply near_refl; lra) i Hi) as Q.
      rewrite HDa in Q by auto. rewrite nth_minus in Q by lia. exact Q. }
    assert (Ts : t' - t0 = (t - t0) + h) by (unfold h; ring).
    assert (IHR := IH t' y y' (P u (minus_vec q p)) Ps gx Hli HG ltac:(lra) ltac:(intros a Ha; apply Hend; now right) Ly Ly' LP).
    assert (R1 : near n (gr K3 0 E (t' - t0)) y' y).
    { eapply near_le; [|exact N1]. rewrite Ts. eapply Rle_trans; [|apply gr_step; auto; lra]. fold Wi. right. ring. }
    assert (PUC : 0 <= C * H * Ui) by (apply Rmult_le_pos; [apply Rmult_le_pos; lra|lra]).
    assert (R2 : within n (gr al 0 E (t' - t0)) (P u (minus_vec q p))).
    { pose proof (within_near n _ _ _ _ Wu (near_axpy h _ u (L * Ui) ltac:(lra) LDu Lu WD)) as A1.
      pose proof (within_near n _ _ _ _ A1 NP) as A2. eapply within_le; [|exact A2]. rewrite Ts. eapply Rle_trans; [|apply gr_step; auto; lra]. fold Ui.
      assert (h * (C * H * Ui) <= h * (C * T * Ui)) by (apply Rmult_le_compat_l; [lra|]; apply Rmult_le_compat_r; [lra|]; apply Rmult_le_compat_l; lra).
      unfold al. lra. }
    assert (R3 : near n (gr L ga 0 (t' - t0)) (minus_vec y' y) (P u (minus_vec q p))).
    { intros i Hi. specialize (N2 i Hi). specialize (NP i Hi). specialize (ND i Hi). specialize (Nu i Hi).
      rewrite (nth_axpy n) in N2, NP by auto. rewrite Ts. eapply Rle_trans; [|apply gr_step; auto; lra]. fold di.
      set (z := nth i (minus_vec y' y) 0) in *. set (v := nth i (P u (minus_vec q p)) 0) in *. set (w := nth i (minus_vec x' x) 0) in *. set (ui := nth i u 0) in *.
      set (a := nth i (D t x (minus_vec x' x) (minus_vec q p)) 0) in *. set (c := nth i (D t x u (minus_vec q p)) 0) in *.
      replace (z - v) with ((z - (w + h * a)) + ((w - ui) + h * (a - c)) + - (v - (ui + h * c))) by ring.
      eapply Rle_trans; [apply Rabs_triang|]. rewrite Rabs_Ropp.
      eapply Rle_trans; [apply Rplus_le_compat_r, Rabs_triang|].
      eapply Rle_trans; [apply Rplus_le_compat_r, Rplus_le_compat_l, Rabs_triang|]. rewrite (Rabs_mult h), Eh.
      assert (h * Rabs (a - c) <= h * (L * di)) by (apply Rmult_le_compat_l; lra).
      assert (A1 : h * (K3 * (Wi * (h + Wi))) + h * (C * H * Ui) <= h * ga).
      { rewrite <- Rmult_plus_distr_l. apply Rmult_le_compat_l; [lra|]. unfold ga.
        assert (B1 : Wi * (h + Wi) <= W * E * (H + W * E)) by (apply Rmult_le_compat; lra).
        assert (B2 : W * E * (H + W * E) <= W * (1 + W) * (E * (H + E))).
        { replace (W * (1 + W) * (E * (H + E)) - 0) with (W * (1 + W) * (E * (H + E))) by ring.
          assert (0 <= W * E) by (apply Rmult_le_pos; lra). assert (0 <= W * E * W * H) by (repeat apply Rmult_le_pos; lra). assert (0 <= W * E * E) by (apply Rmult_le_pos; lra). nra. }
        assert (B3 : K3 * (Wi * (h + Wi)) <= K3 * (W * (1 + W) * (E * (H + E)))) by (apply Rmult_le_compat_l; lra).
        assert (B4 : C * H * Ui <= C * H * (U * E)) by (apply Rmult_le_compat_l; [apply Rmult_le_pos|]; lra).
        assert (B5 : C * H * (U * E) <= C * U * (E * (H + E))).
        { assert (0 <= C * U * (E * E)) by (apply Rmult_le_pos; auto; apply Rmult_le_pos; lra). nra. }
        lra. }
      lra. }
    specialize (IHR R1 R2 R3 Hgx).
    cbn [map fst snd] in *. cbn [pairing utraj]. cbn [one_step_traj] in *. cbn [pairing]. fold y'.
    set (P1 := pairing gx (match map fst l with _ => _ end)) in *.
    unfold total in *. cbn [map fold_right].
    match goal with |- Rabs (dot g x' + ?a - (dot g x + ?c) - (dot g u + ?d)) <= _ => replace (dot g x' + a - (dot g x + c) - (dot g u + d)) with ((dot g x' - dot g x - dot g u) + (a - c - d)) by ring end.
    eapply Rle_trans; [apply Rabs_triang|]. lra.
Qed.
End Compare.
End Grid.
