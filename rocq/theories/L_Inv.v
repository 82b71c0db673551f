(** Scalar products along Runge-Kutta steps; maps that commute with steps. *)
From Coq Require Import ZArith QArith Qreals Reals Lra Lia List Bool Sorted.
From Verif Require Import Num Py Tensor M_Constants M_SolversOde M_Utils M_Interp M_Odeint.
From Verif Require Import Spec_Ode Spec_Trees Spec_RK Spec_Norm Spec_Adaptive Spec_Inv.
From Verif Require Import L_Base L_Fixed L_Vec L_Steps L_Tables L_Steps2 L_Interp L_Utils L_Fixed2 L_Adaptive L_Run.
From Verif Require Import L_Adaptive2 L_Adaptive3 L_Adaptive4 Pf_Fixed Pf_Adaptive L_Reach.
Import ListNotations.
Local Open Scope R_scope.

Lemma inner_axpy c a : forall k x, length k = length x -> inner c (axpy a k x) = inner c x + a * inner c k.
Proof.
  induction c as [|u c IH]; intros k x H; simpl; [ring|].
  destruct x as [|y x], k as [|z k]; simpl in *; try discriminate; [ring|].
  change (map (fun p => fst p + a * snd p) (combine x k)) with (axpy a k x). rewrite IH by lia. ring.
Qed.

Lemma inner_comb c a n h : forall ks w x, length x = n ->
  (forall k, In k ks -> length k = n /\ inner c k = a) -> (length w <= length ks)%nat ->
  inner c (comb x h w ks) = inner c x + h * a * fold_right Rplus 0 w.
Proof.
  unfold comb. induction ks as [|k ks IH]; intros w x Hx Hk Hw; destruct w as [|w0 w]; cbn [combine fold_left fold_right];
    [ring|simpl in Hw; lia|ring|].
  cbn [fst snd]. destruct (Hk k (or_introl eq_refl)) as [Hl Hc]. rewrite IH.
  - rewrite inner_axpy by congruence. rewrite Hc. ring.
  - apply axpy_len; auto.
  - intros k' Hk'; apply Hk; now right.
  - simpl in Hw; lia.
Qed.

Lemma inner_comb0 c n h : forall ks w x, length x = n ->
  (forall k, In k ks -> length k = n /\ inner c k = 0) -> inner c (comb x h w ks) = inner c x.
Proof.
  unfold comb. induction ks as [|k ks IH]; intros w x Hx Hk; destruct w as [|w0 w]; cbn [combine fold_left]; auto.
  cbn [fst snd]. destruct (Hk k (or_introl eq_refl)) as [Hl Hc]. rewrite IH.
  - rewrite inner_axpy by congruence. rewrite Hc. ring.
  - apply axpy_len; auto.
  - intros k' Hk'; apply Hk; now right.
Qed.

(** every stage is a value of the field on R^n *)
Lemma stages_values (P : list R -> Prop) n rows f t h x : field_on n f -> length x = n ->
  (forall u y, length y = n -> P (f u y)) -> forall k, In k (erk_stages rows f t h x) -> length k = n /\ P k.
Proof.
  intros Hf Hx HPf. unfold erk_stages.
  assert (G : forall rows acc, (forall k, In k acc -> length k = n /\ P k) ->
     forall k, In k (fold_left (fun ks r => ks ++ [f (t + fst r * h) (comb x h (snd r) ks)]) rows acc) -> length k = n /\ P k).
  { clear rows. induction rows as [|r rows IH]; intros acc Ha k Hk; simpl in Hk; auto.
    revert k Hk. apply IH. intros k Hk. apply in_app_or in Hk. destruct Hk as [Hk|[<-|[]]]; auto.
    assert (length (comb x h (snd r) acc) = n) by (apply comb_len; auto; intros k' Hk'; apply Ha; auto).
    split; [now apply Hf|now apply HPf]. }
  apply G. intros k [].
Qed.

Lemma inner_step c a n rows b f t h x : field_on n f -> length x = n ->
  (forall u y, length y = n -> inner c (f u y) = a) -> (length b <= length rows)%nat ->
  inner c (erk_step rows b f t h x) = inner c x + h * a * fold_right Rplus 0 b.
Proof.
  intros Hf Hx Ha Hb. apply (inner_comb c a n); auto.
  - now apply (stages_values (fun k => inner c k = a)).
  - now rewrite erk_stages_count.
Qed.
Lemma inner_step0 c n rows b f t h x : field_on n f -> length x = n ->
  (forall u y, length y = n -> inner c (f u y) = 0) -> inner c (erk_step rows b f t h x) = inner c x.
Proof.
  intros Hf Hx Ha. apply (inner_comb0 c n); auto. now apply (stages_values (fun k => inner c k = 0)).
Qed.

Lemma inner_quartic h th (f0 f1 x0 x1 xm : nat -> R) : forall l c,
  inner c (map (fun i => quartic_interp h (f0 i) (f1 i) (x0 i) (x1 i) (xm i) th) l) =
  quartic_interp h (inner c (map f0 l)) (inner c (map f1 l)) (inner c (map x0 l)) (inner c (map x1 l)) (inner c (map xm l)) th.
Proof.
  induction l as [|i l IH]; intros [|u c]; cbn [map inner]; try (unfold quartic_interp; ring).
  rewrite IH. unfold quartic_interp. ring.
Qed.

Lemma nth_seq_self (y : list R) n : length y = n -> map (fun i => nth i y 0) (seq 0 n) = y.
Proof.
  intros <-. induction y as [|a y IH]; simpl; auto. f_equal. rewrite <- seq_shift, map_map. exact IH.
Qed.

Lemma inner_dense c n rows b bm f t h y s : field_on n f -> length y = n ->
  inner c (pair_dense rows b bm f t h y s) =
  quartic_interp h (inner c (f t y)) (inner c (f (t + h) (erk_step rows b f t h y))) (inner c y)
    (inner c (erk_step rows b f t h y)) (inner c (erk_step rows bm f t h y)) ((s - t) / h).
Proof.
  intros Hf Hy. unfold pair_dense. rewrite inner_quartic. rewrite Hy.
  rewrite !nth_seq_self; auto; try apply Hf; auto; now apply erk_step_len.
Qed.

(** ** Maps commuting with steps *)
Section Map.
Variables (n m : nat) (phi lin : list R -> list R) (f g : R -> list R -> list R) (sh : R).
Hypothesis Hf : field_on n f.
Hypothesis Hphi : forall a k x, length k = n -> length x = n -> phi (axpy a k x) = axpy a (lin k) (phi x).
Hypothesis Hfg : forall t y, length y = n -> g (t + sh) (phi y) = lin (f t y).

Lemma comb_map h : forall ks w x, length x = n -> (forall k, In k ks -> length k = n) ->
  phi (comb x h w ks) = comb (phi x) h w (map lin ks).
Proof.
  unfold comb. induction ks as [|k ks IH]; intros [|w0 w] x Hx Hk; cbn [map combine fold_left]; auto.
  cbn [fst snd]. rewrite IH.
  - now rewrite Hphi by (auto; apply Hk; now left).
  - apply axpy_len; auto. apply Hk; now left.
  - intros k' Hk'; apply Hk; now right.
Qed.

Lemma stages_map rows t h x : length x = n ->
  erk_stages rows g (t + sh) h (phi x) = map lin (erk_stages rows f t h x).
Proof.
  intros Hx. unfold erk_stages.
  assert (G : forall rows acc, (forall k, In k acc -> length k = n) ->
    fold_left (fun ks r => ks ++ [g (t + sh + fst r * h) (comb (phi x) h (snd r) ks)]) rows (map lin acc) =
    map lin (fold_left (fun ks r => ks ++ [f (t + fst r * h) (comb x h (snd r) ks)]) rows acc)).
  { clear rows. induction rows as [|r rows IH]; intros acc Ha; cbn [fold_left]; auto.
    rewrite <- IH.
    - f_equal. rewrite map_app. f_equal. cbn [map]. rewrite <- comb_map by auto.
      replace (t + sh + fst r * h) with (t + fst r * h + sh) by ring. now rewrite Hfg by (apply comb_len; auto).
    - intros k Hk. apply in_app_or in Hk. destruct Hk as [Hk|[<-|[]]]; auto. apply Hf, comb_len; auto. }
  apply (G rows []). intros k [].
Qed.

Lemma step_map rows b t h x : length x = n ->
  erk_step rows b g (t + sh) h (phi x) = phi (erk_step rows b f t h x).
Proof.
  intros Hx. unfold erk_step. rewrite stages_map by auto. symmetry. apply comb_map; auto. now apply erk_stages_len.
Qed.
End Map.

Lemma traj_map {X Y} (one : R -> R -> X -> X) (one' : R -> R -> Y -> Y) (phi : X -> Y) (P : X -> Prop) :
  (forall t h x, P x -> one' t h (phi x) = phi (one t h x)) -> (forall t h x, P x -> P (one t h x)) ->
  forall ts x, P x -> one_step_traj one' (phi x) ts = map phi (one_step_traj one x ts).
Proof.
  intros H HP. induction ts as [|t [|t1 ts] IH]; intros x Hx; auto.
  rewrite (traj_hd one x t (t1 :: ts)), (traj_hd one' (phi x) t (t1 :: ts)). cbn [map]. f_equal.
  rewrite H by auto. apply IH. auto.
Qed.

Lemma select_map {X Y} (phi : X -> Y) sv : forall ts xs, select sv ts (map phi xs) = map phi (select sv ts xs).
Proof.
  induction ts as [|t ts IH]; intros [|x xs]; simpl; auto.
  destruct (Nat.eqb (@isclose_count ROps t sv) 0); simpl; now rewrite IH.
Qed.

(** The result of a fixed-step solve is determined by the trajectory. *)
Definition fixed_result {X} (sv ts : list R) (xs : list X) : res (list R * list X) :=
  match select sv ts xs with [] => Err IndexError | _ => Ok (sv, select sv ts xs) end.

Lemma fixed_result_map {X Y} (phi : X -> Y) sv l xs :
  fixed_result sv l (map phi xs) = rmap (fun r => (fst r, map phi (snd r))) (fixed_result sv l xs).
Proof. unfold fixed_result. rewrite select_map. destruct (select sv l xs); reflexivity. Qed.

Lemma odeint_fixed_result fuel s rows b n f x t0 t1 ts atol rtol interp all save_at semi :
  erk_solver s rows b -> field_on n f -> length x = n ->
  let l := if Rlt_dec t1 t0 then map Ropp (t0 :: t1 :: ts) else t0 :: t1 :: ts in
  let sv := match save_at with [] => l | _ => save_at end in
  (~ separated sv -> snd (@odeint ROps fuel f x (@TTensor ROps (t0 :: t1 :: ts)) s atol rtol interp all save_at semi) = Err AssertionError) /\
  (separated sv -> snd (@odeint ROps fuel f x (@TTensor ROps (t0 :: t1 :: ts)) s atol rtol interp all save_at semi)
    = fixed_result sv l (one_step_traj (erk_step rows b f) x (t0 :: t1 :: ts))).
Proof.
  intros [Hfix Hs] Hf Hx l sv.
  assert (G : forall g, field_on n g ->
     one_step_traj (erk_step rows b g) x l = one_step_traj (erk_step rows b f) x (t0 :: t1 :: ts) ->
     snd (@odeint ROps fuel f x (@TTensor ROps (t0 :: t1 :: ts)) s atol rtol interp all save_at semi) =
     snd (@fixed_odeint ROps (vec ROps) g x l (s_step s) save_at) ->
     (~ separated sv -> snd (@odeint ROps fuel f x (@TTensor ROps (t0 :: t1 :: ts)) s atol rtol interp all save_at semi) = Err AssertionError) /\
     (separated sv -> snd (@odeint ROps fuel f x (@TTensor ROps (t0 :: t1 :: ts)) s atol rtol interp all save_at semi)
       = fixed_result sv l (one_step_traj (erk_step rows b f) x (t0 :: t1 :: ts)))).
  { intros g Hg E Eo. destruct (Hs n g Hg) as (one & lg & Hst & Hone).
    assert (Hl : (2 <= length l)%nat) by (unfold l; destruct (Rlt_dec t1 t0); simpl; lia).
    destruct (fixed_odeint_full g (s_step s) one lg Hst x l save_at) as (Ha & _ & Hc).
    change (match save_at with [] => l | _ => save_at end) with sv in Ha, Hc.
    split; intros Hsep.
    - refine (eq_trans Eo _). exact (f_equal snd (Ha Hsep)).
    - refine (eq_trans Eo _). refine (eq_trans (f_equal snd (Hc Hsep Hl)) _). cbn [snd].
      rewrite <- E. unfold fixed_result.
      assert (Et : one_step_traj one x l = one_step_traj (erk_step rows b g) x l).
      { apply (one_step_traj_ext (erk_step rows b g) one (fun y => length y = n)); auto.
        intros t h y Hy. now apply erk_step_len. }
      rewrite <- Et. reflexivity. }
  unfold l in G. destruct (Rlt_dec t1 t0) as [Hlt|Hge].
  - apply (G (@neg_field ROps f)).
    + now apply neg_field_on.
    + apply (traj_neg (erk_step rows b f) _ (fun y => length y = n)); auto.
      * intros t h y _. apply erk_step_neg.
      * intros t h y Hy. now apply erk_step_len.
    + exact (f_equal snd (odeint_fixed_dec fuel s atol rtol interp all semi Hfix f x t0 t1 ts save_at Hlt)).
  - apply (G f); auto.
    exact (f_equal snd (odeint_fixed_inc fuel s atol rtol interp all semi Hfix f x t0 t1 ts save_at ltac:(lra))).
Qed.

Lemma odeint_fixed_map fuel s rows b n m f g phi lin x t0 t1 ts atol rtol interp all save_at semi :
  erk_solver s rows b -> field_on n f -> field_on m g -> length x = n -> length (phi x) = m ->
  (forall a k y, length k = n -> length y = n -> phi (axpy a k y) = axpy a (lin k) (phi y)) ->
  (forall t y, length y = n -> g t (phi y) = lin (f t y)) ->
  snd (@odeint ROps fuel g (phi x) (@TTensor ROps (t0 :: t1 :: ts)) s atol rtol interp all save_at semi) =
  rmap (fun r => (fst r, map phi (snd r)))
    (snd (@odeint ROps fuel f x (@TTensor ROps (t0 :: t1 :: ts)) s atol rtol interp all save_at semi)).
Proof.
  intros Hs Hf Hg Hx Hpx Hphi Hfg.
  destruct (odeint_fixed_result fuel s rows b n f x t0 t1 ts atol rtol interp all save_at semi Hs Hf Hx) as [A1 B1].
  destruct (odeint_fixed_result fuel s rows b m g (phi x) t0 t1 ts atol rtol interp all save_at semi Hs Hg Hpx) as [A2 B2].
  set (l := if Rlt_dec t1 t0 then map Ropp (t0 :: t1 :: ts) else t0 :: t1 :: ts) in *.
  set (sv := match save_at with [] => l | _ => save_at end) in *.
  destruct (Classical_Prop.classic (separated sv)) as [H|H].
  - refine (eq_trans (B2 H) (eq_trans _ (eq_sym (f_equal (rmap (fun r => (fst r, map phi (snd r)))) (B1 H))))).
    assert (Et : one_step_traj (erk_step rows b g) (phi x) (t0 :: t1 :: ts) = map phi (one_step_traj (erk_step rows b f) x (t0 :: t1 :: ts))).
    { apply (traj_map (erk_step rows b f) (erk_step rows b g) phi (fun y => length y = n)); auto.
      - intros t h y Hy. replace t with (t + 0) at 1 by ring.
        apply (step_map n phi lin f g 0); auto. intros u z Hz. rewrite Rplus_0_r. auto.
      - intros t h y Hy. now apply erk_step_len. }
    exact (eq_trans (f_equal (fixed_result sv l) Et) (fixed_result_map phi sv l _)).
  - exact (eq_trans (A2 H) (eq_sym (f_equal (rmap (fun r => (fst r, map phi (snd r)))) (A1 H)))).
Qed.
