(** Proofs of the convergence properties. *)
From Coq Require Import ZArith QArith Reals Lra Lia List Bool.
From Verif Require Import Num Py Tensor M_SolversOde M_Odeint Spec_Ode Spec_RK Spec_Conv.
From Verif Require Import L_Base L_Fixed L_Vec L_Steps L_Fixed2 L_Jagged L_Conv Pf_Fixed.
Import ListNotations.
Local Open Scope R_scope.

(** C24.  y solves y' = f(t, y) with a second derivative bounded by M on the time range of the grid; f
    is Lipschitz with constant L.  The states returned by odeint with the Euler solver differ from y at
    the returned times by at most  exp(L (t_k - t0)) (t_k - t0) (M/2) H,  H the largest step. *)
Lemma C24_euler_converges_pf :
  forall n f L y y2 M H t0 t1 ts fuel atol rtol interp all semi,
  field_on n f -> 0 <= L -> lipschitz n L f ->
  let T := last (t1 :: ts) t0 in
  solves n t0 T f y -> curve_derivative n t0 T (fun t => f t (y t)) y2 -> 0 <= M -> curve_bound n t0 T M y2 ->
  increasing (t0 :: t1 :: ts) -> separated (t0 :: t1 :: ts) -> steps_at_most H (t0 :: t1 :: ts) ->
  exists sol,
    snd (@odeint ROps fuel f (y t0) (@TTensor ROps (t0 :: t1 :: ts)) (Euler ROps) atol rtol interp all [] semi)
      = Ok (t0 :: t1 :: ts, sol) /\ List.length sol = List.length (t0 :: t1 :: ts) /\
    forall k tk xk, nth_error (t0 :: t1 :: ts) k = Some tk -> nth_error sol k = Some xk ->
      near n (exp (L * (tk - t0)) * (tk - t0) * (M / 2) * H) xk (y tk).
Proof.
  intros n f L y y2 M H t0 t1 ts fuel atol rtol interp all semi Hf HL Hlip T Hsol Hy2 HM HB Hinc Hsep HH.
  exists (one_step_traj (euler_one f) (y t0) (t0 :: t1 :: ts)). split.
  { apply (C01_fixed_trajectory_pf fuel (Euler ROps) f (euler_one f) euler_log); auto.
    - apply (euler_stepper f).
    - left. apply (Hinc 0%nat 1%nat); auto. }
  split; [apply traj_len|].
  intros k tk xk Hk Hx.
  assert (H01 : 0 < H).
  { assert (t0 < t1) by (apply (Hinc 0%nat 1%nat); auto). assert (t1 - t0 <= H) by (apply (HH 0%nat); auto). lra. }
  refine (traj_bound n (euler_one f) y L (M / 2) t0 T (euler_len n f Hf) ltac:(lra) HL _ (proj1 Hsol) H ltac:(lra)
    (fun h => h <= H) _ (t1 :: ts) t0 (y t0) ltac:(lra) (proj1 Hsol t0) _ Hinc _ _ k tk xk Hk Hx).
  - intros t h x z D _ Hh _ Hx1 Hz _ Hn. now apply euler_stable.
  - intros t h Ht Hh HT Hok. eapply near_le; [|apply (euler_local n f t0 T y Hf Hsol y2 M Hy2 HB t h Ht Hh HT)].
    apply Rmult_le_compat_l; [lra|]. apply Rmult_le_compat_l; lra.
  - intros i Hi. unfold ebound. rewrite !Rminus_diag_eq, Rabs_R0 by reflexivity. lra.
  - intros i a b Ha Hb. now apply (HH i).
  - intros a Ha. unfold T. apply inc_last; auto.
Qed.

(** C25.  With third derivatives bounded by M3 the error of the midpoint solver is at most a constant
    times the square of the largest step. *)
Lemma C25_midpoint_second_order_pf :
  forall n f L y y2 y3 M2 M3 H t0 t1 ts fuel atol rtol interp all semi,
  field_on n f -> 0 <= L -> lipschitz n L f ->
  let T := last (t1 :: ts) t0 in
  solves n t0 T f y -> curve_derivative n t0 T (fun t => f t (y t)) y2 -> curve_derivative n t0 T y2 y3 ->
  0 <= M2 -> curve_bound n t0 T M2 y2 -> 0 <= M3 -> curve_bound n t0 T M3 y3 ->
  increasing (t0 :: t1 :: ts) -> separated (t0 :: t1 :: ts) -> steps_at_most H (t0 :: t1 :: ts) ->
  let Lam := L + (T - t0) * (L * L) / 2 in
  exists sol,
    snd (@odeint ROps fuel f (y t0) (@TTensor ROps (t0 :: t1 :: ts)) (Midpoint ROps) atol rtol interp all [] semi)
      = Ok (t0 :: t1 :: ts, sol) /\ List.length sol = List.length (t0 :: t1 :: ts) /\
    forall k tk xk, nth_error (t0 :: t1 :: ts) k = Some tk -> nth_error sol k = Some xk ->
      near n (exp (Lam * (tk - t0)) * (tk - t0) * (L * M2 / 8 + M3 / 24) * (H * H)) xk (y tk).
Proof.
  intros n f L y y2 y3 M2 M3 H t0 t1 ts fuel atol rtol interp all semi Hf HL Hlip T Hsol Hy2 Hy3 HM2 HB2 HM3 HB3 Hinc Hsep HH Lam.
  exists (one_step_traj (midpoint_one f) (y t0) (t0 :: t1 :: ts)). split.
  { apply (C01_fixed_trajectory_pf fuel (Midpoint ROps) f (midpoint_one f) (midpoint_log f)); auto.
    - apply (midpoint_stepper f).
    - left. apply (Hinc 0%nat 1%nat); auto. }
  split; [apply traj_len|].
  intros k tk xk Hk Hx.
  assert (Hlt : t0 < t1) by (apply (Hinc 0%nat 1%nat); auto).
  assert (H01 : 0 < H) by (assert (t1 - t0 <= H) by (apply (HH 0%nat); auto); lra).
  assert (HT : t0 <= T) by (apply Rle_trans with t1; [lra|]; apply (inc_last t0 t1 ts Hinc); right; now left).
  assert (HLM : 0 <= L * M2) by now apply Rmult_le_pos.
  assert (HLam : 0 <= Lam).
  { unfold Lam. assert (0 <= (T - t0) * (L * L)) by (repeat apply Rmult_le_pos; lra). lra. }
  refine (traj_bound n (midpoint_one f) y Lam (L * M2 / 8 + M3 / 24) t0 T (midpoint_len n f Hf) ltac:(lra) HLam _ (proj1 Hsol) (H * H)
    (Rmult_le_pos _ _ (Rlt_le _ _ H01) (Rlt_le _ _ H01))
    (fun h => h <= H) _ (t1 :: ts) t0 (y t0) ltac:(lra) (proj1 Hsol t0) _ Hinc _ _ k tk xk Hk Hx).
  - intros t h x z D Ht Hh HTh Hx1 Hz HD Hn. apply midpoint_stable; auto.
  - intros t h Ht Hh HTh Hok.
    eapply near_le; [|apply (midpoint_local n f L t0 T y Hf Hlip Hsol y2 y3 M2 M3 Hy2 HB2 Hy3 HB3 t h Ht Hh HTh)].
    apply Rmult_le_compat_l; [lra|]. rewrite Rmult_assoc. apply Rmult_le_compat_l; [lra|]. apply Rmult_le_compat; lra.
  - intros i Hi. unfold ebound. rewrite !Rminus_diag_eq, Rabs_R0 by reflexivity. lra.
  - intros i a b Ha Hb. now apply (HH i).
  - intros a Ha. unfold T. apply inc_last; auto.
Qed.

(** C25, exactness: if the field does not depend on the state and the third derivative of the solution
    vanishes (quadratic solutions), the midpoint solver returns the exact solution on every grid. *)
Lemma C25_quadratic_exact_pf :
  forall n f y y2 y3 t0 t1 ts fuel atol rtol interp all semi M2,
  field_on n f -> (forall t x z, f t x = f t z) ->
  let T := last (t1 :: ts) t0 in
  solves n t0 T f y -> curve_derivative n t0 T (fun t => f t (y t)) y2 -> curve_derivative n t0 T y2 y3 ->
  0 <= M2 -> curve_bound n t0 T M2 y2 -> curve_bound n t0 T 0 y3 ->
  increasing (t0 :: t1 :: ts) -> separated (t0 :: t1 :: ts) ->
  exists sol,
    snd (@odeint ROps fuel f (y t0) (@TTensor ROps (t0 :: t1 :: ts)) (Midpoint ROps) atol rtol interp all [] semi)
      = Ok (t0 :: t1 :: ts, sol) /\ List.length sol = List.length (t0 :: t1 :: ts) /\
    forall k tk xk, nth_error (t0 :: t1 :: ts) k = Some tk -> nth_error sol k = Some xk ->
      near n 0 xk (y tk).
Proof.
  intros n f y y2 y3 t0 t1 ts fuel atol rtol interp all semi M2 Hf Hind T Hsol Hy2 Hy3 HM2 HB2 HB3 Hinc Hsep.
  assert (Hlip : lipschitz n 0 f).
  { intros t x z D _ _ _ i Hi. rewrite (Hind t x z), Rminus_diag_eq, Rabs_R0 by reflexivity. lra. }
  assert (HH : steps_at_most (T - t0) (t0 :: t1 :: ts)).
  { intros i a b Ha Hb. assert (b <= T) by (apply (inc_last t0 t1 ts Hinc); eapply nth_error_In; eauto).
    assert (t0 <= a); [|lra]. destruct i; [injection Ha as <-; lra|]. left. apply (Hinc 0%nat (S i)); auto. lia. }
  destruct (C25_midpoint_second_order_pf n f 0 y y2 y3 M2 0 (T - t0) t0 t1 ts fuel atol rtol interp all semi)
    as (sol & E & Hl & Hs); auto; try lra.
  exists sol. split; [exact E|]. split; [exact Hl|]. intros k tk xk H1 H2.
  eapply near_le; [|exact (Hs k tk xk H1 H2)]. apply Req_le. lra.
Qed.

(** C25, the exponential: one midpoint step for y' = l y multiplies by 1 + z + z^2/2, z = l h. *)
Lemma C25_exponential_pf :
  forall l x t0 t1 fuel atol rtol interp all semi, t0 < t1 -> separated [t0; t1] ->
  let z := l * (t1 - t0) in
  snd (@odeint ROps fuel (fun _ y => map (Rmult l) y) [x] (@TTensor ROps [t0; t1]) (Midpoint ROps) atol rtol interp all [] semi)
  = Ok ([t0; t1], [[x]; [(1 + z + z * z / 2) * x]]).
Proof.
  intros l x t0 t1 fuel atol rtol interp all semi Hlt Hsep z.
  etransitivity; [apply (C01_fixed_trajectory_pf fuel (Midpoint ROps) (fun _ y => map (Rmult l) y) (midpoint_one (fun _ y => map (Rmult l) y))
    (midpoint_log (fun _ y => map (Rmult l) y)) [x] t0 t1 [] atol rtol interp all semi); auto; [apply midpoint_stepper|lra]|].
  do 2 f_equal. unfold midpoint_one, midpoint_arg, vadd, vscale. cbn [one_step_traj map map2]. rops.
  do 3 f_equal. unfold z. field.
Qed.

(** y' = y, y = exp on the grid 0, 1/2, 1 meets the hypotheses of C24 and C25. *)
Lemma C25_ex_pf :
  let f := fun (_ : R) (x : list R) => x in let y := fun t => [exp t] in
  field_on 1 f /\ lipschitz 1 1 f /\ solves 1 0 1 f y /\
  curve_derivative 1 0 1 (fun t => f t (y t)) y /\ curve_derivative 1 0 1 y y /\ curve_bound 1 0 1 (exp 1) y /\
  increasing [0; 1/2; 1] /\ separated [0; 1/2; 1] /\ steps_at_most (1/2) [0; 1/2; 1].
Proof.
  cbv zeta.
  assert (D : curve_derivative 1 0 1 (fun t => [exp t]) (fun t => [exp t])).
  { intros i t Hi _. destruct i as [|i]; [|lia]. cbn [nth]. apply derivable_pt_lim_exp. }
  split; [intros t x Hx; exact Hx|]. split.
  { intros t x z E _ _ Hn. eapply near_le; [|exact Hn]. lra. }
  split; [split; [reflexivity|exact D]|]. split; [exact D|]. split; [exact D|]. split.
  { intros i t Hi Ht. destruct i as [|i]; [|lia]. cbn [nth]. rewrite Rabs_right by (left; apply exp_pos).
    destruct (Rle_lt_or_eq_dec t 1 (proj2 Ht)) as [Hlt| ->]; [left; now apply exp_increasing|lra]. }
  assert (Hinc : forall i a b, (i < 2)%nat -> nth_error [0; 1/2; 1] i = Some a -> nth_error [0; 1/2; 1] (S i) = Some b -> b = a + 1/2).
  { intros i a b Hi Ha Hb. destruct i as [|[|]]; try lia; injection Ha as <-; injection Hb as <-; lra. }
  assert (Hij : forall i j a b, (i < j)%nat -> nth_error [0; 1/2; 1] i = Some a -> nth_error [0; 1/2; 1] j = Some b -> a + 1/2 <= b).
  { intros i j a b Hlt Ha Hb. destruct j as [|[|[|j]]]; [lia| | |destruct j; discriminate].
    - destruct i; [|lia]. injection Ha as <-. injection Hb as <-. lra.
    - destruct i as [|[|]]; [| |lia]; injection Ha as <-; injection Hb as <-; lra. }
  split; [intros i j a b H1 H2 H3; specialize (Hij i j a b H1 H2 H3); lra|]. split.
  - apply (C04_spaced_grid_accepted_pf _ 1 (1/2)); [|lra|exact Hij].
    intros t [<-|[<-|[<-|[]]]]; rewrite Rabs_right; lra.
  - intros i a b Ha Hb. destruct i as [|[|i]]; [| |destruct i; discriminate]; injection Ha as <-; injection Hb as <-; lra.
Qed.
