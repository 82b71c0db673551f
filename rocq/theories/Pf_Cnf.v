(** Continuous normalizing flows solved by odeint. *)
From Coq Require Import ZArith QArith Qreals Reals Lra Lia List Bool Psatz.
From Verif Require Import Num Py Tensor M_Constants M_SolversOde M_Utils M_Interp M_Odeint M_Models.
From Verif Require Import Spec_Ode Spec_Trees Spec_RK Spec_Norm Spec_Adaptive Spec_Inv Spec_Models Spec_Cnf.
From Verif Require Import L_Base L_Fixed L_Vec L_Steps L_Tables L_Steps2 L_Interp L_Utils L_Fixed2 L_Adaptive L_Run.
From Verif Require Import L_Adaptive2 L_Adaptive3 L_Adaptive4 Pf_Fixed Pf_Adaptive L_Reach L_Inv Pf_Inv L_Models Pf_Models.
Import ListNotations.
Local Open Scope R_scope.

Lemma cnf_row d g J jac order noise (f : R -> list R -> list R) : (1 <= d)%nat -> (order <= 1)%nat -> jacobian_of d g J -> batch_jacobian_of d (map g) jac ->
  (forall t y, length y = (d + 1)%nat -> @cnf ROps (map g) (@autograd_trace ROps jac noise) order [y] = Ok [f t y]) ->
  forall t y, length y = (d + 1)%nat -> f t y = - trace_of d (J (tl y)) :: g (tl y).
Proof.
  intros Hd Ho HJ HN Hf t y Hy. specialize (Hf t y Hy).
  assert (A : is_batch 1 (d + 1) [y]) by (split; auto).
  assert (E := eq_trans (eq_sym (C54_autograd_pf 1 d g J jac [y] order noise (le_n 1) Hd Ho HJ HN A)) Hf).
  cbn [seq map nth] in E. exact (f_equal (fun r => match r with Ok [a] => a | _ => y end) (eq_sym E)).
Qed.

Lemma tl_len d (y : list R) : length y = (d + 1)%nat -> length (tl y) = d.
Proof. destruct y; simpl; lia. Qed.

(** C130, fields of constant divergence.  f is the right-hand side a CNF with the exact trace gives for one
    sample.  If the divergence of g is tau everywhere (an affine field, or tau = 0: a volume-preserving
    field), the log-density entry of every state returned by a built-in solver is l - tau (t - t_0), the
    exact value for the flow of g, whatever the steps (for tsit5 with tau replaced by beta tau, beta
    within 1e-80 of 1). *)
Lemma C130_constant_divergence_pf :
  forall s rows b, builtin_method s rows b ->
  exists beta, Rabs (beta - 1) <= 1 / 10 ^ 80 /\ (s <> Tsitouras45 ROps -> beta = 1) /\
  forall fuel d g J jac order noise f tau l x t0 ts atol rtol all semi times sol,
  (1 <= d)%nat -> (order <= 1)%nat -> jacobian_of d g J -> batch_jacobian_of d (map g) jac ->
  (forall t y, List.length y = (d + 1)%nat -> @cnf ROps (map g) (@autograd_trace ROps jac noise) order [y] = Ok [f t y]) ->
  (forall r, List.length r = d -> trace_of d (J r) = tau) ->
  List.length x = d -> increasing (t0 :: ts) -> (1 <= List.length ts)%nat ->
  snd (@odeint ROps fuel f (l :: x) (@TTensor ROps (t0 :: ts)) s atol rtol false all [] semi) = Ok (times, sol) ->
  List.length sol = List.length times /\
  forall i t y, nth_error times i = Some t -> nth_error sol i = Some y ->
  nth 0 y 0 = l - beta * tau * (t - t0).
Proof.
  intros s rows b Hb. destruct (C83_constant_rate_pf s rows b Hb) as (beta & B1 & B2 & H).
  exists beta. split; [exact B1|]. split; [exact B2|].
  intros fuel d g J jac order noise f tau l x t0 ts atol rtol all semi times sol Hd Ho HJ HN Hf Htau Hx Hinc Hlen E.
  assert (Hrow := cnf_row d g J jac order noise f Hd Ho HJ HN Hf).
  destruct (H fuel (d + 1)%nat f [1] (- tau) (l :: x) t0 ts atol rtol all semi times sol) as (L & K); auto.
  - intros t y Hy. rewrite Hrow by exact Hy. simpl. rewrite (proj1 HJ) by (now apply tl_len). lia.
  - exact (eq_trans (f_equal S Hx) (eq_sym (Nat.add_1_r d))).
  - intros t y Hy. rewrite Hrow by exact Hy. cbn [inner]. rewrite Htau by (now apply tl_len). ring.
  - split; [exact L|]. intros i t y Ht Hy. specialize (K i t y Ht Hy). destruct y as [|a y]; cbn [inner nth] in *; lra.
Qed.

Lemma Rabs_le_inv a b : Rabs a <= b -> - b <= a <= b.
Proof. unfold Rabs. destruct (Rcase_abs a); lra. Qed.

(** *** logarithms *)
Lemma ln_upper u : -1 < u -> ln (1 + u) <= u.
Proof.
  intros H. rewrite <- (ln_exp u) at 2. destruct (Req_dec u 0) as [->|N].
  - rewrite exp_0, Rplus_0_r. lra.
  - left. apply ln_increasing; [lra|]. now apply exp_ineq1.
Qed.

Lemma ln_lower u : Rabs u <= 1 / 2 -> u - 2 * u ^ 2 <= ln (1 + u).
Proof.
  intros H. apply Rabs_le_inv in H.
  assert (K : ln (/ (1 + u)) <= - u / (1 + u)).
  { replace (/ (1 + u)) with (1 + - u / (1 + u)) by (field; lra). apply ln_upper.
    apply (Rmult_lt_reg_r (1 + u)); [lra|]. unfold Rdiv. rewrite Rmult_assoc, Rinv_l by lra. lra. }
  rewrite ln_Rinv in K by lra.
  assert (G : u - 2 * u ^ 2 <= u / (1 + u)).
  { apply (Rmult_le_reg_r (1 + u)); [lra|]. unfold Rdiv. rewrite Rmult_assoc, Rinv_l by lra.
    assert (0 <= u ^ 2 * (1 + 2 * u)) by (apply Rmult_le_pos; [apply pow2_ge_0|lra]). nra. }
  unfold Rdiv in *. lra.
Qed.

(** *** the Euler map of a scalar field *)
Section Scalar.
Variables (g g' : R -> R).

Fixpoint emap (ts : list R) (i : nat) (x : R) : R :=
  match i, ts with
  | S i', t0 :: ((t1 :: _) as ts') => emap ts' i' (x + (t1 - t0) * g x)
  | _, _ => x
  end.
Fixpoint eslope (ts : list R) (i : nat) (x : R) : R :=
  match i, ts with
  | S i', t0 :: ((t1 :: _) as ts') => eslope ts' i' (x + (t1 - t0) * g x) * (1 + (t1 - t0) * g' x)
  | _, _ => 1
  end.
Fixpoint elog (ts : list R) (i : nat) (x : R) : R :=
  match i, ts with
  | S i', t0 :: ((t1 :: _) as ts') => (t1 - t0) * g' x + elog ts' i' (x + (t1 - t0) * g x)
  | _, _ => 0
  end.

Hypothesis Hg : forall x, derivable_pt_lim g x (g' x).

Lemma emap_slope : forall i ts x, derivable_pt_lim (emap ts i) x (eslope ts i x).
Proof.
  induction i as [|i IH]; intros ts x; [destruct ts; apply derivable_pt_lim_id|].
  destruct ts as [|t0 [|t1 ts]]; [apply derivable_pt_lim_id|apply derivable_pt_lim_id|].
  change (eslope (t0 :: t1 :: ts) (S i) x) with (eslope (t1 :: ts) i (x + (t1 - t0) * g x) * (1 + (t1 - t0) * g' x)).
  change (emap (t0 :: t1 :: ts) (S i)) with (fun z => emap (t1 :: ts) i (z + (t1 - t0) * g z)).
  apply (derivable_pt_lim_comp (fun z => z + (t1 - t0) * g z) (emap (t1 :: ts) i)).
  - apply (derivable_pt_lim_plus (fun z => z) (fun z => (t1 - t0) * g z)); [apply derivable_pt_lim_id|].
    apply (derivable_pt_lim_scal g). apply Hg.
  - apply IH.
Qed.

Variable L : R.
Hypothesis HL : forall x, Rabs (g' x) <= L.

Lemma emap_log : forall i ts x, (forall t0 t1 l l', ts = l ++ t0 :: t1 :: l' -> Rabs (t1 - t0) * L <= 1 / 2) ->
  0 < eslope ts i x /\ Rabs (ln (eslope ts i x) - elog ts i x) <= 2 * L ^ 2 * squared_spacings ts i.
Proof.
  assert (Z : 0 < 1 /\ Rabs (ln 1 - 0) <= 2 * L ^ 2 * 0) by (split; [lra|]; rewrite ln_1, Rminus_0_r, Rabs_R0; lra).
  induction i as [|i IH]; intros ts x Hs; [destruct ts; exact Z|].
  destruct ts as [|t0 [|t1 ts]]; [exact Z|exact Z|].
  change (eslope (t0 :: t1 :: ts) (S i) x) with (eslope (t1 :: ts) i (x + (t1 - t0) * g x) * (1 + (t1 - t0) * g' x)).
  change (elog (t0 :: t1 :: ts) (S i) x) with ((t1 - t0) * g' x + elog (t1 :: ts) i (x + (t1 - t0) * g x)).
  change (squared_spacings (t0 :: t1 :: ts) (S i)) with ((t1 - t0) ^ 2 + squared_spacings (t1 :: ts) i).
  destruct (IH (t1 :: ts) (x + (t1 - t0) * g x)) as (P & Q).
  { intros a c l l' E. apply (Hs a c (t0 :: l) l'). now rewrite E. }
  assert (U : Rabs ((t1 - t0) * g' x) <= 1 / 2).
  { rewrite Rabs_mult. eapply Rle_trans; [|apply (Hs t0 t1 [] ts eq_refl)].
    apply Rmult_le_compat_l; [apply Rabs_pos|apply HL]. }
  assert (V : ((t1 - t0) * g' x) ^ 2 <= L ^ 2 * (t1 - t0) ^ 2).
  { rewrite Rpow_mult_distr, Rmult_comm. apply Rmult_le_compat_r; [apply pow2_ge_0|].
    rewrite <- (pow2_abs (g' x)). apply pow_incr. split; [apply Rabs_pos|apply HL]. }
  set (u := (t1 - t0) * g' x) in *.
  assert (U' := Rabs_le_inv _ _ U).
  split; [apply Rmult_lt_0_compat; lra|].
  rewrite ln_mult by lra.
  assert (A1 := ln_upper u ltac:(lra)). assert (A2 := ln_lower u U).
  apply Rabs_le_inv in Q. apply Rabs_le. nra.
Qed.
End Scalar.

Lemma euler_cnf_traj g g' (f : R -> list R -> list R) : (forall t l x, f t [l; x] = [- g' x; g x]) ->
  forall i ts l x y, nth_error (one_step_traj (euler_one f) [l; x] ts) i = Some y -> (i < length ts)%nat ->
  y = [l - elog g g' ts i x; emap g ts i x].
Proof.
  intros Hf.
  assert (ES : forall t h l x, euler_one f t h [l; x] = [l + h * - g' x; x + h * g x]).
  { intros t h l x. unfold euler_one. exact (f_equal (fun v => @vadd ROps [l; x] (@vscale ROps h v)) (Hf t l x)). }
  induction i as [|i IH]; intros [|t0 [|t1 ts]] l x y E Hi; simpl in Hi; try lia.
  - injection E as <-. cbn [elog emap]. f_equal; ring.
  - injection E as <-. cbn [elog emap]. f_equal; ring.
  - change (nth_error (one_step_traj (euler_one f) (euler_one f t0 (t1 - t0) [l; x]) (t1 :: ts)) i = Some y) in E.
    rewrite ES in E.
    rewrite (IH (t1 :: ts) _ _ y E) by (simpl; lia).
    change (elog g g' (t0 :: t1 :: ts) (S i) x) with ((t1 - t0) * g' x + elog g g' (t1 :: ts) i (x + (t1 - t0) * g x)).
    change (emap g (t0 :: t1 :: ts) (S i) x) with (emap g (t1 :: ts) i (x + (t1 - t0) * g x)).
    f_equal. ring.
Qed.

Lemma cnf_scalar g g' jac order noise (f : R -> list R -> list R) : (order <= 1)%nat -> (forall x, derivable_pt_lim g x (g' x)) ->
  batch_jacobian_of 1 (map (fun r => [g (nth 0 r 0)])) jac ->
  (forall t y, length y = 2%nat -> @cnf ROps (map (fun r => [g (nth 0 r 0)])) (@autograd_trace ROps jac noise) order [y] = Ok [f t y]) ->
  forall t l x, f t [l; x] = [- g' x; g x].
Proof.
  intros Ho Hg HN Hf t l x.
  rewrite (cnf_row 1 (fun r => [g (nth 0 r 0)]) (fun r _ _ => g' (nth 0 r 0)) jac order noise f); auto.
  - cbn [tl nth]. f_equal. unfold trace_of, total. simpl. lra.
  - split; [reflexivity|]. intros r i k Hr Hi Hk. destruct r as [|a [|]]; try discriminate.
    assert (i = 0 /\ k = 0)%nat as [-> ->] by lia.
    unfold bump. cbn [firstn app nth skipn].
    replace (g' a) with (g' (a + 0) * 1) by (rewrite Rplus_0_r; ring).
    apply (derivable_pt_lim_comp (fun h => a + h) g 0 1); [|apply Hg].
    replace 1 with (0 + 1) by ring. apply (derivable_pt_lim_plus (fun _ => a) (fun h => h)); [apply derivable_pt_lim_const|apply derivable_pt_lim_id].
Qed.

(** C130, one-dimensional flows.  g is differentiable with |g'| <= L and every spacing h of the grid has
    h L <= 1/2.  The states euler returns from [l; z] are [l_i(z); phi_i(z)], phi_i has a positive slope,
    and the returned log-density is that of the returned map up to 2 L^2 (h_1^2 + ... + h_i^2). *)
Lemma C130_euler_density_pf :
  forall fuel g g' jac order noise f L l t0 t1 ts atol rtol interp all semi,
  (order <= 1)%nat -> (forall x, derivable_pt_lim g x (g' x)) -> (forall x, Rabs (g' x) <= L) ->
  batch_jacobian_of 1 (map (fun r => [g (nth 0 r 0)])) jac ->
  (forall t y, List.length y = 2%nat -> @cnf ROps (map (fun r => [g (nth 0 r 0)])) (@autograd_trace ROps jac noise) order [y] = Ok [f t y]) ->
  separated (t0 :: t1 :: ts) -> t0 <= t1 ->
  (forall a b pre post, t0 :: t1 :: ts = pre ++ a :: b :: post -> Rabs (b - a) * L <= 1 / 2) ->
  exists phi lg : nat -> R -> R,
  (forall x, exists sol, snd (@odeint ROps fuel f [l; x] (@TTensor ROps (t0 :: t1 :: ts)) (Euler ROps) atol rtol interp all [] semi)
     = Ok (t0 :: t1 :: ts, sol) /\ forall i y, nth_error sol i = Some y -> y = [lg i x; phi i x]) /\
  forall i x, (i < List.length (t0 :: t1 :: ts))%nat ->
  exists l', pushed_log_density (phi i) x l l' /\ Rabs (lg i x - l') <= 2 * L ^ 2 * squared_spacings (t0 :: t1 :: ts) i.
Proof.
  intros fuel g g' jac order noise f L l t0 t1 ts atol rtol interp all semi Ho Hg HL HN Hf Hsep Hle Hs.
  assert (Hrow := cnf_scalar g g' jac order noise f Ho Hg HN Hf).
  exists (emap g (t0 :: t1 :: ts)), (fun i x => l - elog g g' (t0 :: t1 :: ts) i x). split.
  - intros x. exists (one_step_traj (euler_one f) [l; x] (t0 :: t1 :: ts)). split.
    + apply (C01_fixed_trajectory_pf fuel (Euler ROps) f (euler_one f) euler_log); auto. apply (euler_stepper f).
    + intros i y E. apply (euler_cnf_traj g g' f Hrow i _ l x y E).
      assert (H := proj1 (nth_error_Some _ i) (fun N => eq_ind None (fun o => match o with None => True | Some _ => False end) I _ (eq_trans (eq_sym N) E))).
      rewrite traj_length in H. exact H.
  - intros i x Hi. destruct (emap_log g g' L HL i (t0 :: t1 :: ts) x) as (P & Q).
    { intros a c pre post E. now apply (Hs a c pre post). }
    exists (l - ln (eslope g g' (t0 :: t1 :: ts) i x)). split.
    + exists (eslope g g' (t0 :: t1 :: ts) i x). split; [now apply emap_slope|]. auto.
    + rewrite <- Rabs_Ropp. eapply Rle_trans; [|exact Q]. rewrite <- Rabs_Ropp. right. f_equal. ring.
Qed.

(** C130, refuted for the map that is returned: for g(x) = x and euler on [0; 1] the samples move by
    z -> 2 z, so the log-density falls by ln 2, but the CNF returns l - 1. *)
Lemma C130_refuted_pf :
  forall jac order noise f, (order <= 1)%nat -> batch_jacobian_of 1 (map (fun r => [nth 0 r 0])) jac ->
  (forall t y, List.length y = 2%nat -> @cnf ROps (map (fun r => [nth 0 r 0])) (@autograd_trace ROps jac noise) order [y] = Ok [f t y]) ->
  (forall l x, snd (@odeint ROps 0 f [l; x] (@TTensor ROps [0; 1]) (Euler ROps) (1 / 10 ^ 3) (1 / 10 ^ 3) false true [] None)
     = Ok ([0; 1], [[l; x]; [l - 1; 2 * x]])) /\
  forall l x, ~ pushed_log_density (fun z => 2 * z) x l (l - 1).
Proof.
  intros jac order noise f Ho HN Hf.
  assert (Hrow := cnf_scalar (fun x => x) (fun _ => 1) jac order noise f Ho (fun x => derivable_pt_lim_id x) HN Hf).
  split.
  - intros l x. rewrite (C01_fixed_trajectory_pf 0 (Euler ROps) f (euler_one f) euler_log); auto.
    + cbn [one_step_traj]. unfold euler_one. rewrite Hrow.
      change (@vadd ROps [l; x] (@vscale ROps (1 - 0) [- (1); x])) with [l + (1 - 0) * - (1); x + (1 - 0) * x].
      replace (l + (1 - 0) * - (1)) with (l - 1) by ring. replace (x + (1 - 0) * x) with (2 * x) by ring. reflexivity.
    + apply (euler_stepper f).
    + apply (spaced_separated _ 1 1); [|lra|].
      * intros t [<-|[<-|[]]]; rewrite Rabs_right; lra.
      * intros i j a b Hij Ha Hb. destruct i as [|[|i]]; try (destruct i; discriminate);
        destruct j as [|[|j]]; try lia; try (destruct j; discriminate).
        simpl in *; injection Ha as <-; injection Hb as <-; lra.
    + lra.
  - intros l x (D & H1 & H2 & H3).
    assert (D = 2).
    { assert (G := derivable_pt_lim_scal (fun z => z) 2 x 1 (derivable_pt_lim_id x)).
      rewrite (uniqueness_limite (fun z => 2 * z) x D (2 * 1) H1 G). ring. }
    subst D. assert (ln 2 < 1).
    { rewrite <- (ln_exp 1) at 1. apply ln_increasing; [lra|]. generalize (exp_ineq1 1 ltac:(lra)). lra. }
    lra.
Qed.

Lemma nth_bump_row b' b k h x : (b < length x)%nat -> (b' < length x)%nat ->
  nth b' (bump_row b k h x) [] = if (b' =? b)%nat then bump k h (nth b x []) else nth b' x [].
Proof.
  intros Hb Hb'. unfold bump_row. destruct (Nat.eqb_spec b' b) as [->|N].
  - rewrite app_nth2; rewrite firstn_length_le by lia; [|lia]. now rewrite Nat.sub_diag.
  - destruct (Nat.lt_ge_cases b' b) as [H|H].
    + rewrite app_nth1 by (rewrite firstn_length_le; lia). rewrite <- (firstn_skipn b x) at 2.
      now rewrite app_nth1 by (rewrite firstn_length_le; lia).
    + rewrite app_nth2; rewrite firstn_length_le by lia; [|lia].
      destruct (b' - b)%nat as [|m] eqn:E; [lia|]. cbn [nth].
      rewrite <- (firstn_skipn (S b) x) at 2. rewrite app_nth2; rewrite firstn_length_le by lia; [|lia].
      f_equal. lia.
Qed.

(** The hypotheses are met by g(x) = sin x, and by the affine field (x + 3, 5 y) of divergence 6. *)
Lemma C130_ex_pf :
  (forall x, derivable_pt_lim sin x (cos x)) /\ (forall x, Rabs (cos x) <= 1) /\
  batch_jacobian_of 1 (map (fun r => [sin (nth 0 r 0)])) (fun x b' i b k => if (b' =? b)%nat then cos (nth 0 (nth b x []) 0) else 0) /\
  separated [0; 1 / 4; 1 / 2] /\
  (let J := fun (_ : list R) i k => nth k (nth i [[1; 0]; [0; 5]] []) 0 in
   jacobian_of 2 (fun r => [nth 0 r 0 + 3; 5 * nth 1 r 0]) J /\ forall r, trace_of 2 (J r) = 6).
Proof.
  assert (Sh : forall a, derivable_pt_lim (fun h => a + h) 0 1).
  { intros a. replace 1 with (0 + 1) by ring. apply (derivable_pt_lim_plus (fun _ => a) (fun h => h)); [apply derivable_pt_lim_const|apply derivable_pt_lim_id]. }
  split; [exact derivable_pt_lim_sin|]. split; [intros x; apply Rabs_le; destruct (COS_bound x); lra|]. split.
  - intros B x b' i b k (Hx & Hr) Hb' Hb Hi Hk. assert (i = 0 /\ k = 0)%nat as [-> ->] by lia.
    assert (Len : length (nth b x []) = 1%nat) by (apply (proj1 (Forall_forall _ _) Hr), nth_In; lia).
    apply (derivable_pt_lim_ext' (fun h => if (b' =? b)%nat then sin (nth 0 (nth b x []) 0 + h) else sin (nth 0 (nth b' x []) 0))).
    + intros h. rewrite (nth_indep (map (fun r => [sin (nth 0 r 0)]) (bump_row b 0 h x)) [] ((fun r => [sin (nth 0 r 0)]) [])).
      2:{ rewrite map_length. unfold bump_row. rewrite app_length, firstn_length_le by lia. cbn [length]. rewrite skipn_length. lia. }
      rewrite (map_nth (fun r => [sin (nth 0 r 0)])). rewrite nth_bump_row by lia. destruct (b' =? b)%nat; reflexivity.
    + destruct (b' =? b)%nat; [|apply derivable_pt_lim_const].
      set (a := nth 0 (nth b x []) 0). replace (cos a) with (cos (a + 0) * 1) by (rewrite Rplus_0_r; ring).
      apply (derivable_pt_lim_comp (fun h => a + h) sin 0 1); [apply Sh|apply derivable_pt_lim_sin].
  - split.
    + apply (spaced_separated _ (1 / 2) (1 / 4)); [|lra|].
      * intros t [<-|[<-|[<-|[]]]]; rewrite Rabs_right; lra.
      * intros i j a b Hij Ha Hb. destruct i as [|[|[|i]]]; try (destruct i; discriminate);
        destruct j as [|[|[|j]]]; try lia; try (destruct j; discriminate);
        simpl in *; injection Ha as <-; injection Hb as <-; lra.
    + split; [|intros r; unfold trace_of; simpl; lra].
      split; [reflexivity|]. intros r i k Hr Hi Hk. destruct r as [|a [|c [|]]]; try discriminate.
      assert (Sc : forall v, derivable_pt_lim (fun h => 5 * (v + h)) 0 5).
      { intros v. assert (G := derivable_pt_lim_scal (fun h => v + h) 5 0 1 (Sh v)). now rewrite Rmult_1_r in G. }
      assert (S3 : derivable_pt_lim (fun h => a + h + 3) 0 1).
      { replace 1 with (1 + 0) by ring. apply (derivable_pt_lim_plus (fun h => a + h) (fun _ => 3)); [apply Sh|apply derivable_pt_lim_const]. }
      destruct i as [|[|i]]; [| |lia]; destruct k as [|[|k]]; try lia; unfold bump; cbn [firstn app nth skipn].
      * exact S3.
      * apply derivable_pt_lim_const.
      * apply derivable_pt_lim_const.
      * exact (Sc c).
Qed.
