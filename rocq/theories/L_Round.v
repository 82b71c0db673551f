(** Fixed-step solves in rounded arithmetic. *)
From Coq Require Import ZArith QArith Qreals Reals Lra Lia List Bool Arith.
From Verif Require Import Num Py Tensor M_Constants M_SolversOde M_Utils M_Interp M_Odeint.
From Verif Require Import Spec_Ode Spec_Conv Spec_Round L_Base L_Fixed L_Conv.
Import ListNotations.
Local Open Scope R_scope.
Local Notation length := List.length.

(** ** The loop, in any arithmetic, when every time reached is recognised *)
Section Loop.
Context {K : NumOps} {X : Type} (f : K -> X -> X) (step : @step_fun K X) (one : K -> K -> X -> X).
Hypothesis Hstep : forall t h x, exists a c, snd (step f x t h None) = Ok (Ret3 a (one t h x) c).

Fixpoint kclock (t : K) (x : X) (targets : list K) : list (K * X) :=
  match targets with
  | [] => []
  | s :: rest => let h := (s - t)%N in let t' := (t + h)%N in (t', one t h x) :: kclock t' (one t h x) rest
  end.

Lemma snd_bind {L A B} (m : M L A) (k : A -> M L B) : snd (mbind m k) = rbind (snd m) (fun a => snd (k a)).
Proof. unfold mbind. destruct (snd m); reflexivity. Qed.

Lemma kclock_loop save_at : forall rest pre a t x sol,
  Forall (fun p => (isclose_count (fst p) save_at =? 0)%nat = false) (kclock t x (a :: rest)) ->
  snd (fixed_loop f step (pre ++ a :: rest) save_at (S (length rest)) (length pre) x t (a - t)%N sol)
  = Ok (sol ++ map snd (kclock t x (a :: rest))).
Proof.
  induction rest as [|b rest IH]; intros pre a t x sol Hc; cbn [kclock map fst snd] in *.
  - cbn [fixed_loop length]. rewrite snd_bind. destruct (Hstep t (a - t)%N x) as (e1 & e2 & ->). cbn [rbind].
    inversion_clear Hc as [|? ? H1 H2]. cbn [fst] in H1. rewrite H1. rewrite snd_bind.
    replace (length pre <? length (pre ++ [a]) - 1)%nat with false by (symmetry; apply Nat.ltb_ge; rewrite app_length; simpl; lia).
    reflexivity.
  - cbn [length]. cbn [fixed_loop]. rewrite snd_bind. destruct (Hstep t (a - t)%N x) as (e1 & e2 & ->). cbn [rbind].
    inversion_clear Hc as [|? ? H1 H2]. cbn [fst] in H1. rewrite H1. rewrite snd_bind.
    replace (length pre <? length (pre ++ a :: b :: rest) - 1)%nat with true by (symmetry; apply Nat.ltb_lt; rewrite app_length; simpl; lia).
    rewrite snd_bind. unfold mlift at 1. cbn [snd].
    unfold pyget. rewrite nth_error_app2 by lia. replace (length pre + 1 - length pre)%nat with 1%nat by lia. cbn [nth_error rbind mret snd].
    specialize (IH (pre ++ [a]) b (t + (a - t))%N (one t (a - t)%N x) (sol ++ [one t (a - t)%N x]) H2).
    rewrite app_length in IH. cbn [length] in IH. rewrite <- !app_assoc in IH. cbn [app] in IH.
    refine (eq_trans IH _). reflexivity.
Qed.

Lemma kclock_fixed x t0 t1 ts :
  let l := t0 :: t1 :: ts in
  forallb (fun t => (isclose_count t l =? 1)%nat) l = true ->
  Forall (fun p => (isclose_count (fst p) l =? 0)%nat = false) (kclock t0 x (t1 :: ts)) ->
  snd (fixed_odeint f x l step []) = Ok (l, x :: map snd (kclock t0 x (t1 :: ts))).
Proof.
  intros l Hs Hc. unfold fixed_odeint. cbv zeta. fold l. change (match l with [] => l | _ => l end) with l.
  rewrite Hs. cbn [negb]. rewrite snd_bind. unfold l at 1. cbn [pyget nth_error mlift snd rbind].
  rewrite snd_bind. assert (El : exists z, @pylast K l = Ok z).
  { unfold pylast. destruct (rev l) as [|z r] eqn:Er; [|eexists; reflexivity].
    apply (f_equal (@rev K)) in Er. rewrite rev_involutive in Er. discriminate. }
  destruct El as [z Ez]. rewrite Ez. cbn [mlift snd rbind].
  rewrite snd_bind. unfold l at 1. cbn [pyget nth_error mlift snd rbind]. rewrite snd_bind.
  assert (H0 : (isclose_count t0 l =? 0)%nat = false).
  { rewrite forallb_forall in Hs. specialize (Hs t0 (or_introl eq_refl)). apply Nat.eqb_eq in Hs. apply Nat.eqb_neq. lia. }
  rewrite H0. replace (length l - 1)%nat with (S (length ts)) by (unfold l; simpl; lia).
  pose proof (kclock_loop l ts [t0] t1 t0 x [x] Hc) as E. cbn [app length] in E. fold l in E.
  rewrite E. reflexivity.
Qed.
End Loop.

(** ** Rounded identification of times *)
Section Rnd.
Variables (rnd : R -> R) (u eta : R).
Hypotheses (Hr : rounding u eta rnd) (Hu : 0 <= u <= 1 / 1000000) (Heta : 0 <= eta <= 1 / 1000000000000).

Lemma rnd_le x a : Rabs x <= a -> Rabs (rnd x) <= (1 + u) * a + eta.
Proof.
  intros H. pose proof (Hr x) as E. replace (rnd x) with ((rnd x - x) + x) by ring.
  eapply Rle_trans; [apply Rabs_triang|]. assert (u * Rabs x <= u * a) by (apply Rmult_le_compat_l; lra). lra.
Qed.
Lemma rnd_ge x a : a <= Rabs x -> (1 - u) * a - eta <= Rabs (rnd x).
Proof.
  intros H. pose proof (Hr x) as E. assert (Rabs x <= Rabs (rnd x - x) + Rabs (rnd x)).
  { replace x with (- (rnd x - x) + rnd x) at 1 by ring. eapply Rle_trans; [apply Rabs_triang|]. rewrite Rabs_Ropp. lra. }
  assert (u * Rabs x >= 0) by (apply Rle_ge, Rmult_le_pos; [lra|apply Rabs_pos]).
  assert ((1 - u) * a <= (1 - u) * Rabs x) by (apply Rmult_le_compat_l; lra). lra.
Qed.
Lemma rnd_pos x : Rabs (rnd x - x) <= u * Rabs x + eta.
Proof. apply Hr. Qed.

(** the rounded tolerance *)
Definition tol (s : R) : R := rnd (rnd (Q2R (1 # 100000000)) + rnd (rnd (Q2R (1 # 100000)) * Rabs s)).
Lemma tol_bounds s : 0.999 * (1 / 100000000 + 1 / 100000 * Rabs s) <= tol s <= 1.001 * (1 / 100000000 + 1 / 100000 * Rabs s).
Proof.
  unfold tol. qlit. pose proof (Rabs_pos s) as Hs. set (z := Rabs s) in *.
  assert (Hu' : forall x, Rabs (rnd x - x) <= 1 / 1000000 * Rabs x + 1 / 1000000000000).
  { intros x. pose proof (Hr x). assert (u * Rabs x <= 1 / 1000000 * Rabs x) by (apply Rmult_le_compat_r; [apply Rabs_pos|lra]). lra. }
  pose proof (Hu' (1 / 100000000)) as E1. rewrite (Rabs_right (1 / 100000000)) in E1 by lra. apply Rabs_le_inv in E1.
  pose proof (Hu' (1 / 100000)) as E2. rewrite (Rabs_right (1 / 100000)) in E2 by lra. apply Rabs_le_inv in E2.
  set (p := rnd (1 / 100000000)) in *. set (q := rnd (1 / 100000)) in *.
  assert (Hq : 9.99998e-6 * z <= q * z <= 1.000002e-5 * z) by (split; apply Rmult_le_compat_r; lra).
  pose proof (Hu' (q * z)) as E3. rewrite (Rabs_right (q * z)) in E3 by lra. apply Rabs_le_inv in E3.
  set (m := rnd (q * z)) in *.
  pose proof (Hu' (p + m)) as E4. rewrite (Rabs_right (p + m)) in E4 by lra. apply Rabs_le_inv in E4. lra.
Qed.

Lemma isclose_rnd a s : @isclose (RndOps rnd) a s = true <-> a = s \/ Rabs (rnd (a - s)) <= tol s.
Proof.
  unfold isclose. cbn [nabs nsub nadd nmul nQ nleb neqb RndOps]. rewrite orb_true_iff, Reqb_true, Rleb_true. reflexivity.
Qed.
Lemma isclose_near a s : Rabs (a - s) <= 0.9 * (1 / 100000000 + 1 / 100000 * Rabs s) -> @isclose (RndOps rnd) a s = true.
Proof.
  intros H. apply isclose_rnd. right. pose proof (tol_bounds s) as T. pose proof (Rabs_pos s).
  eapply Rle_trans; [apply rnd_le; exact H|].
  set (w := 1 / 100000000 + 1 / 100000 * Rabs s) in *. assert (1 / 100000000 <= w) by (unfold w; lra).
  assert (u * (0.9 * w) <= 1 / 1000000 * (0.9 * w)) by (apply Rmult_le_compat_r; lra). lra.
Qed.
Lemma isclose_far a s : 1.1 * (1 / 100000000 + 1 / 100000 * Rabs s) <= Rabs (a - s) -> @isclose (RndOps rnd) a s = false.
Proof.
  intros H. apply not_true_is_false. intros C. apply isclose_rnd in C. pose proof (Rabs_pos s).
  set (w := 1 / 100000000 + 1 / 100000 * Rabs s) in *. assert (1 / 100000000 <= w) by (unfold w; lra).
  destruct C as [->|C]; [rewrite Rminus_diag_eq, Rabs_R0 in H by reflexivity; lra|].
  pose proof (tol_bounds s) as T. fold w in T.
  pose proof (rnd_ge _ _ H) as G.
  assert (u * (1.1 * w) <= 1 / 1000000 * (1.1 * w)) by (apply Rmult_le_compat_r; lra). lra.
Qed.

(** ** Drift of the clock: one step *)
Lemma clock_step a b t e : Rabs (t - a) <= e -> 0 <= e -> 
  Rabs (rnd (t + rnd (b - t)) - b) <= (1 + u) * (u * (Rabs (b - a) + e) + eta) + u * Rabs b + eta.
Proof.
  intros H He. set (d := rnd (b - t) - (b - t)).
  assert (Hd : Rabs d <= u * (Rabs (b - a) + e) + eta).
  { unfold d. eapply Rle_trans; [apply Hr|]. apply Rplus_le_compat_r. apply Rmult_le_compat_l; [lra|].
    replace (b - t) with ((b - a) - (t - a)) by ring. unfold Rminus at 1. eapply Rle_trans; [apply Rabs_triang|]. rewrite Rabs_Ropp. lra. }
  replace (t + rnd (b - t)) with (b + d) by (unfold d; ring).
  replace (rnd (b + d) - b) with ((rnd (b + d) - (b + d)) + d) by ring.
  eapply Rle_trans; [apply Rabs_triang|]. pose proof (Hr (b + d)) as E.
  assert (u * Rabs (b + d) <= u * (Rabs b + Rabs d)) by (apply Rmult_le_compat_l; [lra|apply Rabs_triang]).
  assert ((1 + u) * Rabs d <= (1 + u) * (u * (Rabs (b - a) + e) + eta)) by (apply Rmult_le_compat_l; lra). lra.
Qed.

(** the clock stays within the tolerance of the requested times *)
Definition drift (a b : R) : R := 3 * u * (Rabs a + Rabs b) + 3 * eta + 1 / 100000000000.
Lemma clock_near {X} (one : R -> R -> X -> X) : forall targets a t x,
  Rabs (t - a) <= 0.9 * (1 / 100000000 + 1 / 100000 * Rabs a) -> spaced u eta (a :: targets) ->
  forall i b p, nth_error targets i = Some b -> nth_error (clock_traj rnd one t x targets) i = Some p ->
  exists a', nth_error (a :: targets) i = Some a' /\ Rabs (fst p - b) <= drift a' b /\
    Rabs (fst p - b) <= 0.9 * (1 / 100000000 + 1 / 100000 * Rabs b).
Proof.
  induction targets as [|c targets IH]; intros a t x Ha Hsp i b p Hb Hp; [destruct i; discriminate|].
  cbn [clock_traj] in Hp. cbv zeta in Hp.
  assert (Hc : Rabs (rnd (t + rnd (c - t)) - c) <= drift a c /\
    Rabs (rnd (t + rnd (c - t)) - c) <= 0.9 * (1 / 100000000 + 1 / 100000 * Rabs c)).
  { destruct (Hsp 0%nat a c eq_refl eq_refl) as [_ Hs].
    pose proof (Rabs_pos a) as Pa. pose proof (Rabs_pos c) as Pc. pose proof (Rabs_pos t).
    pose proof (clock_step a c t _ Ha ltac:(lra)) as B.
    assert (Hca : Rabs (c - a) <= Rabs a + Rabs c) by (unfold Rminus; eapply Rle_trans; [apply Rabs_triang|]; rewrite Rabs_Ropp; lra).
    set (e := 0.9 * (1 / 100000000 + 1 / 100000 * Rabs a)) in *.
    assert (He : 0 <= e) by (unfold e; lra).
    assert (H1 : u * (Rabs (c - a) + e) <= u * (Rabs a + Rabs c) + u * e) by (rewrite <- Rmult_plus_distr_l; apply Rmult_le_compat_l; lra).
    assert (H2 : u * e <= 1 / 100000 * (u * Rabs a) + 1 / 100000000000000).
    { unfold e. assert (u * (1 / 100000000) <= 1 / 1000000 * (1 / 100000000)) by (apply Rmult_le_compat_r; lra).
      assert (0 <= u * Rabs a) by (apply Rmult_le_pos; lra). lra. }
    set (v := u * (Rabs (c - a) + e) + eta) in *.
    assert (H3 : u * v <= 1 / 1000000 * v).
    { apply Rmult_le_compat_r; [|lra]. unfold v. assert (0 <= u * (Rabs (c - a) + e)) by (apply Rmult_le_pos; [lra|pose proof (Rabs_pos (c - a)); lra]). lra. }
    assert (Pua : 0 <= u * Rabs a) by (apply Rmult_le_pos; lra). assert (Puc : 0 <= u * Rabs c) by (apply Rmult_le_pos; lra).
    assert (HD : Rabs (rnd (t + rnd (c - t)) - c) <= drift a c) by (unfold drift, v in *; lra).
    split; auto. unfold drift in HD. lra. }
  destruct i as [|i].
  - injection Hb as <-. injection Hp as <-. exists a. cbn [fst]. split; [reflexivity|exact Hc].
  - cbn [nth_error] in *. apply (IH c (rnd (t + rnd (c - t))) (one t (rnd (c - t)) x)) with (i := i); auto; [apply Hc|].
    intros j y z H1 H2. apply (Hsp (S j)); auto.
Qed.
End Rnd.

(** ** Spaced grids *)
Lemma spaced_mono u eta l : spaced u eta l -> forall k i a b, nth_error l i = Some a -> nth_error l (k + i) = Some b -> a <= b.
Proof.
  intros H. induction k as [|k IH]; intros i a b Ha Hb.
  - cbn [Nat.add] in Hb. assert (a = b) by congruence. lra.
  - destruct (nth_error l (k + i)) as [c|] eqn:Ec.
    + specialize (IH i a c Ha Ec). destruct (H (k + i)%nat c b Ec Hb) as [Hg _].
      pose proof (Rabs_pos c). pose proof (Rmax_l (Rabs c) (Rabs b)). lra.
    + apply nth_error_None in Ec. assert (nth_error l (S k + i) <> None) by congruence. apply nth_error_Some in H0. lia.
Qed.
Lemma spaced_gap u eta l : spaced u eta l -> forall i j a b, (i < j)%nat -> nth_error l i = Some a -> nth_error l j = Some b ->
  3 * (1 / 100000000 + 1 / 100000 * Rabs a) <= b - a /\ 3 * (1 / 100000000 + 1 / 100000 * Rabs b) <= b - a.
Proof.
  intros H i j a b Hij Ha Hb.
  assert (Hj : (j < length l)%nat) by (apply nth_error_Some; congruence).
  destruct (nth_error l (S i)) as [c|] eqn:Ec; [|apply nth_error_None in Ec; lia].
  destruct (nth_error l (j - 1)) as [d|] eqn:Ed; [|apply nth_error_None in Ed; lia].
  destruct (H i a c Ha Ec) as [G1 _].
  assert (Hb' : nth_error l (S (j - 1)) = Some b) by (replace (S (j - 1)) with j by lia; auto).
  destruct (H (j - 1)%nat d b Ed Hb') as [G2 _].
  assert (c <= b) by (apply (spaced_mono u eta l H (j - S i) (S i) c b); auto; replace (j - S i + S i)%nat with j by lia; auto).
  assert (a <= d) by (apply (spaced_mono u eta l H (j - 1 - i) i a d); auto; replace (j - 1 - i + i)%nat with (j - 1)%nat by lia; auto).
  pose proof (Rmax_l (Rabs a) (Rabs c)). pose proof (Rmax_r (Rabs d) (Rabs b)). lra.
Qed.

Lemma count_one {A} (p : A -> bool) : forall l i a, nth_error l i = Some a -> p a = true ->
  (forall j b, j <> i -> nth_error l j = Some b -> p b = false) -> count_true (map p l) = 1%nat.
Proof.
  induction l as [|c l IH]; intros i a Ha Hp Hn; [destruct i; discriminate|]. cbn [map]. rewrite count_true_cons.
  destruct i as [|i].
  - injection Ha as ->. rewrite Hp. assert (E : count_true (map p l) = 0%nat).
    { apply count_true_0. intros b Hb. apply in_map_iff in Hb. destruct Hb as [y [<- Hy]]. apply In_nth_error in Hy. destruct Hy as [k Hk].
      apply (Hn (S k)); auto. }
    rewrite E. reflexivity.
  - rewrite (Hn 0%nat c ltac:(lia) eq_refl). rewrite (IH i a); auto. intros j b Hj Hb. apply (Hn (S j)); auto.
Qed.

Section Grid.
Variables (rnd : R -> R) (u eta : R).
Hypotheses (Hr : rounding u eta rnd) (Hu : 0 <= u <= 1 / 1000000) (Heta : 0 <= eta <= 1 / 1000000000000).

Lemma count_grid l i a t : spaced u eta l -> nth_error l i = Some a ->
  Rabs (t - a) <= 0.9 * (1 / 100000000 + 1 / 100000 * Rabs a) -> @isclose_count (RndOps rnd) t l = 1%nat.
Proof.
  intros Hs Ha Ht. unfold isclose_count. apply (count_one (@isclose (RndOps rnd) t) l i a Ha).
  - apply (isclose_near rnd u eta); auto.
  - intros j b Hj Hb. apply (isclose_far rnd u eta); auto.
    assert (Hab : 3 * (1 / 100000000 + 1 / 100000 * Rabs a) <= Rabs (a - b) /\ 3 * (1 / 100000000 + 1 / 100000 * Rabs b) <= Rabs (a - b)).
    { destruct (Nat.lt_trichotomy i j) as [L|[L|L]]; [|congruence|].
      - rewrite Rabs_minus_sym. destruct (spaced_gap u eta l Hs i j a b L Ha Hb) as [G1 G2].
        pose proof (Rle_abs (b - a)). lra.
      - destruct (spaced_gap u eta l Hs j i b a L Hb Ha) as [G1 G2]. pose proof (Rle_abs (a - b)). lra. }
    assert (Rabs (a - b) <= Rabs (t - b) + Rabs (t - a)).
    { replace (a - b) with ((t - b) - (t - a)) by ring. unfold Rminus at 1. eapply Rle_trans; [apply Rabs_triang|]. rewrite Rabs_Ropp. lra. }
    pose proof (Rabs_pos a). pose proof (Rabs_pos b). lra.
Qed.

Lemma kclock_clock {X} (one : R -> R -> X -> X) : forall l t x, @kclock (RndOps rnd) X one t x l = clock_traj rnd one t x l.
Proof. induction l as [|a l IH]; intros t x; cbn [kclock clock_traj]; auto. cbv zeta. rewrite IH. reflexivity. Qed.
Lemma clock_length {X} (one : R -> R -> X -> X) : forall l t x, length (clock_traj rnd one t x l) = length l.
Proof. induction l as [|a l IH]; intros t x; cbn [clock_traj length]; auto. Qed.

Lemma rounded_fixed {X} (f : R -> X -> X) (step : @step_fun (RndOps rnd) X) (one : R -> R -> X -> X) x t0 t1 ts :
  (forall t h x, exists a c, snd (step f x t h None) = Ok (Ret3 a (one t h x) c)) ->
  spaced u eta (t0 :: t1 :: ts) ->
  snd (@fixed_odeint (RndOps rnd) X f x (t0 :: t1 :: ts) step []) =
    Ok (t0 :: t1 :: ts, x :: map snd (clock_traj rnd one t0 x (t1 :: ts))).
Proof.
  intros Hstep Hs. rewrite <- kclock_clock. apply (kclock_fixed (K := RndOps rnd)).
  - exact Hstep.
  - apply forallb_forall. intros t Ht. apply In_nth_error in Ht. destruct Ht as [i Hi]. apply Nat.eqb_eq.
    apply (count_grid _ i t); auto. rewrite Rminus_diag_eq, Rabs_R0 by reflexivity. pose proof (Rabs_pos t). lra.
  - apply Forall_forall. intros p Hp. apply In_nth_error in Hp. destruct Hp as [i Hi]. rewrite kclock_clock in Hi.
    assert (Hlt : (i < length (t1 :: ts))%nat) by (rewrite <- (clock_length one (t1 :: ts) t0 x); apply nth_error_Some; intros E; pose proof (eq_trans (eq_sym Hi) E); discriminate).
    destruct (nth_error (t1 :: ts) i) as [b|] eqn:Eb; [|apply nth_error_None in Eb; lia].
    destruct (clock_near rnd u eta Hr Hu Heta one (t1 :: ts) t0 t0 x) with (i := i) (b := b) (p := p) as (a' & _ & _ & Hb'); auto.
    { rewrite Rminus_diag_eq, Rabs_R0 by reflexivity. pose proof (Rabs_pos t0). lra. }
    apply Nat.eqb_neq. intros E. pose proof (eq_trans (eq_sym E) (count_grid (t0 :: t1 :: ts) (S i) b (fst p) Hs Eb Hb')). discriminate.
Qed.
End Grid.
