(** Proofs: dependence of the computed trajectories on initial state and field; orders of convergence. *)
From Coq Require Import ZArith QArith Qreals Reals Lra Lia List Bool Sorted Factorial.
From Verif Require Import Num Py Tensor M_Constants M_SolversOde M_Utils M_Interp M_Odeint.
From Verif Require Import Spec_Ode Spec_Trees Spec_RK Spec_Norm Spec_Adaptive Spec_Conv Spec_Inv Spec_Order.
From Verif Require Import L_Base L_Fixed L_Vec L_Steps L_Tables L_Steps2 L_Interp L_Utils L_Fixed2 L_Adaptive L_Run.
From Verif Require Import L_Adaptive2 L_Adaptive3 L_Adaptive4 L_Conv Pf_Fixed Pf_Adaptive L_Reach L_Inv L_Order L_Order2 Pf_Conv.
Import ListNotations.
Local Open Scope R_scope.

(** the result of a fixed-step solve on an increasing grid *)
Lemma fixed_grid fuel s rows b n f x t0 t1 ts atol rtol interp all semi :
  erk_solver s rows b -> field_on n f -> length x = n -> t0 <= t1 -> separated (t0 :: t1 :: ts) ->
  snd (@odeint ROps fuel f x (@TTensor ROps (t0 :: t1 :: ts)) s atol rtol interp all [] semi)
  = Ok (t0 :: t1 :: ts, one_step_traj (erk_step rows b f) x (t0 :: t1 :: ts)).
Proof.
  intros HM Hf Hx Hle Hsep.
  destruct (odeint_fixed_result fuel s rows b n f x t0 t1 ts atol rtol interp all [] semi HM Hf Hx) as [_ B].
  cbv zeta in B. destruct (Rlt_dec t1 t0); [lra|]. refine (eq_trans (B Hsep) _). unfold fixed_result.
  rewrite (select_all (t0 :: t1 :: ts)); [|auto|symmetry; apply traj_length].
  rewrite traj_hd. reflexivity.
Qed.

(** C102.  Two fixed-step solves whose fields differ by at most eps (the first field Lipschitz with constant
    L) and whose initial states differ by at most D: the trajectories stay within
    exp(Lam (t - t0)) (D + (t - t0) beta eps), Lam = growth and beta = leak the constants of the tableau for
    steps of size at most H (Euler: Lam = L, beta = 1). *)
Lemma C102_robust_pf :
  forall s rows b n f g L eps D x z H t0 t1 ts fuel atol rtol interp all semi,
  builtin_fixed s rows b -> field_on n f -> field_on n g -> 0 <= L -> 0 <= eps -> 0 <= D ->
  lipschitz n L f -> field_near n eps f g -> length x = n -> length z = n -> near n D x z ->
  increasing (t0 :: t1 :: ts) -> separated (t0 :: t1 :: ts) -> steps_at_most H (t0 :: t1 :: ts) ->
  exists sol sol',
    snd (@odeint ROps fuel f x (@TTensor ROps (t0 :: t1 :: ts)) s atol rtol interp all [] semi) = Ok (t0 :: t1 :: ts, sol) /\
    snd (@odeint ROps fuel g z (@TTensor ROps (t0 :: t1 :: ts)) s atol rtol interp all [] semi) = Ok (t0 :: t1 :: ts, sol') /\
    forall k tk xk zk, nth_error (t0 :: t1 :: ts) k = Some tk -> nth_error sol k = Some xk -> nth_error sol' k = Some zk ->
      near n (exp (growth L H rows b * (tk - t0)) * (D + (tk - t0) * leak L H rows b * eps)) xk zk.
Proof.
  intros s rows b n f g L eps D x z H t0 t1 ts fuel atol rtol interp all semi HM Hf Hg HL Heps HD Hlip Hfg Hx Hz Hn Hinc Hsep Hst.
  pose proof (builtin_fixed_erk _ _ _ HM) as HE.
  assert (Hlt : t0 < t1) by (apply (Hinc 0%nat 1%nat); auto).
  assert (HH : 0 <= H) by (assert (t1 - t0 <= H) by (apply (Hst 0%nat); auto); lra).
  do 2 eexists. split; [apply (fixed_grid fuel s rows b n); auto; lra|]. split; [apply (fixed_grid fuel s rows b n); auto; lra|].
  intros k tk xk zk Hk Hxk Hzk.
  refine (traj_near n f g L eps Hf Hg HL Heps Hlip Hfg rows b H HH D t0 HD (t1 :: ts) t0 x z _ Hx Hz _ Hinc Hst k tk xk zk Hk Hxk Hzk).
  - lra.
  - unfold pbound. rewrite Rminus_diag_eq by reflexivity. rewrite Rmult_0_r, exp_0, !Rmult_0_l. eapply near_le; [|exact Hn]. lra.
Qed.

Lemma C102_constants_pf :
  forall L H, growth L H (to_R_rows q_euler) (to_R qb_euler) = L /\ leak L H (to_R_rows q_euler) (to_R qb_euler) = 1 /\
    growth L H (to_R_rows q_midpoint) (to_R qb_midpoint) = L * (1 + H * (L / 2)) /\
    leak L H (to_R_rows q_midpoint) (to_R qb_midpoint) = 1 + L * H / 2 /\
    growth L H (to_R_rows q_rk4_code) (to_R qb_rk4) = L * (1 + H * L / 2 + (H * L) ^ 2 / 6 + (H * L) ^ 3 / 24) /\
    leak L H (to_R_rows q_rk4_code) (to_R qb_rk4) = 1 + H * L / 2 + (H * L) ^ 2 / 6 + (H * L) ^ 3 / 24.
Proof.
  intros L H. unfold growth, leak, stage_growth, stage_leak, stagewise, to_R_rows, to_R, q_euler, qb_euler, q_midpoint, qb_midpoint, q_rk4_code, qb_rk4.
  cbn [map fold_left app abs_sum fst snd].
  replace (Q2R 0) with 0 by (unfold Q2R; simpl; lra). replace (Q2R 1) with 1 by (unfold Q2R; simpl; lra).
  replace (Q2R (1#2)) with (1/2) by (unfold Q2R; simpl; lra). replace (Q2R (1#3)) with (1/3) by (unfold Q2R; simpl; lra).
  replace (Q2R (1#6)) with (1/6) by (unfold Q2R; simpl; lra).
  rewrite Rabs_R0, Rabs_R1, !(Rabs_right (1/2)), !(Rabs_right (1/3)), !(Rabs_right (1/6)) by lra.
  repeat split; field.
Qed.

(** ** Orders *)
(** The classical order of the fixed-step solvers; RungeKutta4 only for fields without explicit time *)
Definition classical_order (s : solver ROps (vec ROps)) (rows : list (R * list R)) (b : list R) (p : nat) (f : R -> list R -> list R) : Prop :=
  (s = Euler ROps /\ rows = to_R_rows q_euler /\ b = to_R qb_euler /\ p = 1%nat) \/
  (s = Midpoint ROps /\ rows = to_R_rows q_midpoint /\ b = to_R qb_midpoint /\ p = 2%nat) \/
  (s = RungeKutta4 ROps /\ rows = to_R_rows q_rk4_code /\ b = to_R qb_rk4 /\ p = 4%nat /\ autonomous f).

Lemma order_tableau s rows b p f n : classical_order s rows b p f -> field_on n f -> (1 <= p)%nat /\ erk_solver s rows b /\
  exists q qb, order_check p q qb = true /\
    forall t h x, length x = n -> erk_step rows b f t h x = erk_step (to_R_rows q) (to_R qb) f t h x.
Proof.
  intros [(-> & -> & -> & ->)|[(-> & -> & -> & ->)|(-> & -> & -> & -> & Ha)]] Hf; (split; [lia|]).
  - split; [apply C05_euler_pf|]. exists q_euler, qb_euler. split; [apply check_euler|auto].
  - split; [apply C05_midpoint_pf|]. exists q_midpoint, qb_midpoint. split; [apply check_midpoint|auto].
  - split; [apply C05_rk4_pf|]. exists q_rk4, qb_rk4. split; [apply check_rk4|].
    intros t h x Hx. now apply (rk4_autonomous n).
Qed.
Lemma check_rk4_code : order_check 1 q_rk4_code qb_rk4 = true. Proof. vm_compute. reflexivity. Qed.

Lemma stable_step n f L rows b H t0 T : field_on n f -> 0 <= L -> lipschitz n L f ->
  forall t h x z D, t0 <= t -> 0 < h -> t + h <= T -> h <= H -> length x = n -> length z = n -> 0 <= D -> near n D x z ->
  near n ((1 + h * growth L H rows b) * D) (erk_step rows b f t h x) (erk_step rows b f t h z).
Proof.
  intros Hf HL Hlip t h x z D Ht Hh HT HhH Hx Hz HD Hn.
  assert (Z : field_near n 0 f f) by (intros s w _ i _; rewrite Rminus_diag_eq, Rabs_R0 by reflexivity; lra).
  eapply near_le; [|apply (step_near n f f L 0 Hf Hf HL ltac:(lra) Hlip Z H rows b t h x z D); auto; lra]. lra.
Qed.

Lemma local_near n p f y yd J K M t0 T q qb : (1 <= p)%nat -> field_on n f -> t0 <= T -> 0 <= M -> 0 <= K ->
  smooth_solution n t0 T p f y yd J K M -> order_check p q qb = true ->
  exists C, 0 <= C /\ forall t h, t0 <= t -> 0 < h -> t + h <= T ->
    near n (C * h ^ S p) (erk_step (to_R_rows q) (to_R qb) f t h (y t)) (y (t + h)).
Proof.
  intros Hp Hf HT HM HK Hs Hc.
  destruct (local_error n p f y yd J K M t0 T (T - t0) Hp Hf ltac:(lra) HM HK Hs q qb Hc) as (C & HC & HB).
  exists C. split; auto. intros t h Ht Hh HTh i Hi. apply HB; auto. unfold dom. lra.
Qed.

Lemma pow_split h H p : 0 <= h -> h <= H -> h ^ S p <= h * H ^ p.
Proof. intros. cbn [pow]. apply Rmult_le_compat_l; auto. apply pow_incr; lra. Qed.

Lemma fixed_order s rows b p n f L y yd J K M t0 T q qb : (1 <= p)%nat -> erk_solver s rows b -> order_check p q qb = true ->
  (forall t h x, length x = n -> erk_step rows b f t h x = erk_step (to_R_rows q) (to_R qb) f t h x) ->
  field_on n f -> 0 <= L -> lipschitz n L f -> t0 <= T -> 0 <= M -> 0 <= K -> smooth_solution n t0 T p f y yd J K M ->
  exists C, 0 <= C /\ forall H t1 ts,
    increasing (t0 :: t1 :: ts) -> steps_at_most H (t0 :: t1 :: ts) -> last (t1 :: ts) t0 <= T ->
    let sol := one_step_traj (erk_step rows b f) (y t0) (t0 :: t1 :: ts) in
    (forall fuel atol rtol interp all semi, separated (t0 :: t1 :: ts) ->
       snd (@odeint ROps fuel f (y t0) (@TTensor ROps (t0 :: t1 :: ts)) s atol rtol interp all [] semi) = Ok (t0 :: t1 :: ts, sol)) /\
    forall k tk xk, nth_error (t0 :: t1 :: ts) k = Some tk -> nth_error sol k = Some xk ->
      near n (C * (tk - t0) * H ^ p) xk (y tk).
Proof.
  intros Hp HE Hc Eq Hf HL Hlip HT HM HK Hs.
  destruct (local_near n p f y yd J K M t0 T q qb Hp Hf HT HM HK Hs Hc) as (C & HC & Hloc).
  set (Lam := growth L (T - t0) rows b).
  assert (HLam : 0 <= Lam) by (apply growth_pos; auto; lra).
  assert (Hy : forall t, length (y t) = n) by (destruct Hs as (Hy & _); exact Hy).
  exists (exp (Lam * (T - t0)) * C). split; [apply Rmult_le_pos; auto; left; apply exp_pos|].
  intros H t1 ts Hinc Hst HlT sol.
  assert (Hlt : t0 < t1) by (apply (Hinc 0%nat 1%nat); auto).
  assert (H0 : 0 < H) by (assert (t1 - t0 <= H) by (apply (Hst 0%nat); auto); lra).
  split; [intros; apply (fixed_grid fuel s rows b n); auto; lra|].
  intros k tk xk Hk Hx.
  assert (Htk : t0 <= tk <= T).
  { split; [|eapply Rle_trans; [apply (inc_last t0 t1 ts Hinc); eapply nth_error_In; eauto|auto]].
    destruct k; [injection Hk as <-; lra|]. left. apply (Hinc 0%nat (S k)); auto. lia. }
  eapply near_le; [|refine (traj_bound n (erk_step rows b f) y Lam C t0 T (fun t h x Hx => erk_step_len n rows b f t h x Hf Hx) HC HLam _ Hy (H ^ p)
    (pow_le _ _ (Rlt_le _ _ H0)) (fun h => h <= H) _ (t1 :: ts) t0 (y t0) ltac:(lra) (Hy t0) _ Hinc _ _ k tk xk Hk Hx)].
  - unfold ebound.
    assert (E1 : exp (Lam * (tk - t0)) <= exp (Lam * (T - t0))).
    { destruct (Rle_lt_or_eq_dec (Lam * (tk - t0)) (Lam * (T - t0))) as [Hl| ->]; [apply Rmult_le_compat_l; lra|left; now apply exp_increasing|lra]. }
    replace (exp (Lam * (tk - t0)) * (tk - t0) * C * H ^ p) with (exp (Lam * (tk - t0)) * (C * (tk - t0) * H ^ p)) by ring.
    replace (exp (Lam * (T - t0)) * C * (tk - t0) * H ^ p) with (exp (Lam * (T - t0)) * (C * (tk - t0) * H ^ p)) by ring.
    apply Rmult_le_compat_r; auto. apply Rmult_le_pos; [apply Rmult_le_pos; lra|apply pow_le; lra].
  - intros t h x z D Ht Hh HTh Hx1 Hz HD Hn. apply (stable_step n f L rows b (T - t0) t0 T); auto. lra.
  - intros t h Ht Hh HTh Hok. rewrite Eq by apply Hy. eapply near_le; [|apply Hloc; auto].
    apply Rmult_le_compat_l; auto. apply pow_split; lra.
  - intros i Hi. unfold ebound. rewrite !Rminus_diag_eq, Rabs_R0 by reflexivity. lra.
  - intros i a b' Ha Hb. now apply (Hst i).
  - intros a Ha. eapply Rle_trans; [apply (inc_last t0 t1 ts Hinc); auto|auto].
Qed.

(** C103 (fields without explicit time for RungeKutta4).  Order of convergence of the fixed-step solvers on
    smooth Lipschitz problems: Euler 1, Midpoint 2, RungeKutta4 4.  One constant C for all grids; [sol] are the
    states after the steps of the solver along the grid, which odeint returns if it accepts the grid. *)
Lemma C103_order_partial_pf :
  forall s rows b p n f L y yd J K M t0 T, classical_order s rows b p f ->
  field_on n f -> 0 <= L -> lipschitz n L f -> t0 <= T -> 0 <= M -> 0 <= K -> smooth_solution n t0 T p f y yd J K M ->
  exists C, 0 <= C /\ forall H t1 ts,
    increasing (t0 :: t1 :: ts) -> steps_at_most H (t0 :: t1 :: ts) -> last (t1 :: ts) t0 <= T ->
    let sol := one_step_traj (erk_step rows b f) (y t0) (t0 :: t1 :: ts) in
    (forall fuel atol rtol interp all semi, separated (t0 :: t1 :: ts) ->
       snd (@odeint ROps fuel f (y t0) (@TTensor ROps (t0 :: t1 :: ts)) s atol rtol interp all [] semi) = Ok (t0 :: t1 :: ts, sol)) /\
    forall k tk xk, nth_error (t0 :: t1 :: ts) k = Some tk -> nth_error sol k = Some xk ->
      near n (C * (tk - t0) * H ^ p) xk (y tk).
Proof.
  intros s rows b p n f L y yd J K M t0 T Hord Hf HL Hlip HT HM HK Hs.
  destruct (order_tableau s rows b p f n Hord Hf) as (Hp & HE & q & qb & Hc & Eq).
  now apply (fixed_order s rows b p n f L y yd J K M t0 T q qb).
Qed.

(** C103, RungeKutta4 on fields with explicit time: first order *)
Lemma C103_rk4_first_order_partial_pf :
  forall n f L y yd J K M t0 T,
  field_on n f -> 0 <= L -> lipschitz n L f -> t0 <= T -> 0 <= M -> 0 <= K -> smooth_solution n t0 T 1 f y yd J K M ->
  exists C, 0 <= C /\ forall H t1 ts,
    increasing (t0 :: t1 :: ts) -> steps_at_most H (t0 :: t1 :: ts) -> last (t1 :: ts) t0 <= T ->
    let sol := one_step_traj (erk_step (to_R_rows q_rk4_code) (to_R qb_rk4) f) (y t0) (t0 :: t1 :: ts) in
    (forall fuel atol rtol interp all semi, separated (t0 :: t1 :: ts) ->
       snd (@odeint ROps fuel f (y t0) (@TTensor ROps (t0 :: t1 :: ts)) (RungeKutta4 ROps) atol rtol interp all [] semi) = Ok (t0 :: t1 :: ts, sol)) /\
    forall k tk xk, nth_error (t0 :: t1 :: ts) k = Some tk -> nth_error sol k = Some xk ->
      near n (C * (tk - t0) * H) xk (y tk).
Proof.
  intros n f L y yd J K M t0 T Hf HL Hlip HT HM HK Hs.
  destruct (fixed_order (RungeKutta4 ROps) _ _ 1 n f L y yd J K M t0 T q_rk4_code qb_rk4 ltac:(lia) C05_rk4_pf check_rk4_code) as (C & HC & Hall); auto.
  exists C. split; auto. intros H t1 ts Hinc Hst Hl. destruct (Hall H t1 ts Hinc Hst Hl) as [A B]. split; auto.
  intros k tk xk Hk Hx. specialize (B k tk xk Hk Hx). now rewrite pow_1 in B.
Qed.

(** the uniform grid t, t + h, ..., t + m h *)
Fixpoint ugrid (h : R) (m : nat) (t : R) : list R := t :: match m with O => [] | S m' => ugrid h m' (t + h) end.
Lemma ugrid_nth h m : forall t k a, nth_error (ugrid h m t) k = Some a -> a = t + INR k * h.
Proof.
  induction m as [|m IH]; intros t [|k] a Ha; cbn [ugrid nth_error] in Ha.
  - injection Ha as <-. simpl. ring.
  - destruct k; discriminate.
  - injection Ha as <-. simpl. ring.
  - rewrite (IH _ _ _ Ha), S_INR. ring.
Qed.
Lemma ugrid_last h m : forall t d, last (ugrid h m t) d = t + INR m * h.
Proof.
  induction m as [|m IH]; intros t d; [simpl; ring|]. cbn [ugrid].
  transitivity (last (ugrid h m (t + h)) d); [destruct m; reflexivity|]. rewrite IH, S_INR. ring.
Qed.
Lemma ugrid_len h m : forall t, List.length (ugrid h m t) = S m.
Proof. induction m as [|m IH]; intros t; cbn [ugrid List.length]; auto. Qed.

Lemma rk4_on_t h m : forall t, forall k z,
  nth_error (one_step_traj (erk_step (to_R_rows q_rk4_code) (to_R qb_rk4) (fun t _ => [t])) [t * t / 2 - t * h / 4] (ugrid h m t)) k = Some z ->
  z = [(t + INR k * h) * (t + INR k * h) / 2 - (t + INR k * h) * h / 4].
Proof.
  induction m as [|m IH]; intros t k z Hz.
  - destruct k as [|[|]]; try discriminate. injection Hz as <-. simpl INR. do 2 f_equal; field.
  - assert (E : ugrid h m (t + h) = (t + h) :: tl (ugrid h m (t + h))) by (destruct m; reflexivity).
    cbn [ugrid] in Hz. rewrite E, L_Jagged.traj_cons, <- E in Hz. destruct k as [|k].
    + injection Hz as <-. simpl INR. f_equal. field.
    + cbn [nth_error] in Hz.
      replace (erk_step (to_R_rows q_rk4_code) (to_R qb_rk4) (fun (t : R) (_ : list R) => [t]) t (t + h - t) [t * t / 2 - t * h / 4])
        with [(t + h) * (t + h) / 2 - (t + h) * h / 4] in Hz.
      * rewrite (IH (t + h) k z Hz), S_INR. f_equal. field.
      * unfold erk_step, erk_stages, comb, axpy, to_R_rows, to_R, q_rk4_code, qb_rk4. cbn [map combine fold_left app fst snd].
        replace (Q2R 0) with 0 by (unfold Q2R; simpl; lra). replace (Q2R 1) with 1 by (unfold Q2R; simpl; lra).
        replace (Q2R (1#2)) with (1/2) by (unfold Q2R; simpl; lra). replace (Q2R (1#3)) with (1/3) by (unfold Q2R; simpl; lra).
        replace (Q2R (1#6)) with (1/6) by (unfold Q2R; simpl; lra). f_equal. field.
Qed.

(** C103 fails for RungeKutta4 on fields with explicit time: on y' = t (smooth, state-independent) the error
    of N equal steps over [[0, 1]] is 1/(4N), so that no constant gives second order, let alone fourth. *)
Lemma C103_rk4_time_refuted_pf :
  let f := fun (t : R) (_ : list R) => [t] in let y := fun t => [t * t / 2] in
  field_on 1 f /\ lipschitz 1 0 f /\
  smooth_solution 1 0 1 4 f y (fun m t => match m with 0%nat => [t * t / 2] | 1%nat => [t] | 2%nat => [1] | _ => [0] end) (fun _ _ _ _ => 0) 0 1 /\
  ~ exists C, forall H t1 ts,
    increasing (0 :: t1 :: ts) -> steps_at_most H (0 :: t1 :: ts) -> last (t1 :: ts) 0 <= 1 ->
    forall k tk xk, nth_error (0 :: t1 :: ts) k = Some tk ->
      nth_error (one_step_traj (erk_step (to_R_rows q_rk4_code) (to_R qb_rk4) f) (y 0) (0 :: t1 :: ts)) k = Some xk ->
      near 1 (C * H ^ 2) xk (y tk).
Proof.
  intros f y. split; [intros t x Hx; reflexivity|]. split.
  { intros t x z D _ _ _ i _. unfold f. rewrite Rminus_diag_eq, Rabs_R0 by reflexivity. lra. }
  split.
  { split; [reflexivity|]. split; [reflexivity|]. split; [reflexivity|]. split.
    { intros m Hm i t Hi _. destruct i as [|i]; [|lia]. destruct m as [|[|[|m]]]; cbn [nth].
      - pose proof (dlim_pow2 1 0 t) as D. eapply dlim_ext; [| |exact D]; [intros s; cbn [nth]; field|cbn [nth]; field].
      - apply derivable_pt_lim_id.
      - apply (derivable_pt_lim_const 1 t).
      - apply (derivable_pt_lim_const 0 t). }
    split.
    { intros m Hm i t Hi Ht. destruct i as [|i]; [|lia]. destruct m as [|[|[|m]]]; cbn [nth].
      - rewrite Rabs_right by (apply Rle_ge, Rmult_le_pos; [apply Rmult_le_pos; lra|lra]).
        assert (t * t <= 1 * 1) by (apply Rmult_le_compat; lra). lra.
      - rewrite Rabs_right; lra.
      - rewrite Rabs_R1; lra.
      - rewrite Rabs_R0; lra. }
    split; [intros m i j t _ _ _ _; apply (derivable_pt_lim_const 0 t)|].
    split; [intros m i j t _ _ _ _; rewrite Rabs_R0; lra|].
    intros t x D Ht Hx Hn i Hi. unfold mat_vec, f. cbn [rsum]. match goal with |- Rabs ?e <= _ => replace e with 0 by ring end.
    rewrite Rabs_R0. lra. }
  intros (C & HC).
  destruct (archimed (Rmax 1 (4 * C))) as [HNz _]. set (N := Z.to_nat (up (Rmax 1 (4 * C)))).
  assert (HN : Rmax 1 (4 * C) < INR N).
  { unfold N. rewrite INR_IZR_INZ, Z2Nat.id; [lra|]. apply le_IZR. pose proof (Rmax_l 1 (4 * C)). simpl. lra. }
  clearbody N.
  assert (N1 : 1 < INR N) by (pose proof (Rmax_l 1 (4 * C)); lra). assert (N2 : 4 * C < INR N) by (pose proof (Rmax_r 1 (4 * C)); lra).
  destruct N as [|N]; [simpl in N1; lra|]. set (h := / INR (S N)).
  assert (Hh : 0 < h) by (apply Rinv_0_lt_compat; lra).
  assert (HNh : INR (S N) * h = 1) by (unfold h; field; lra).
  assert (E : ugrid h (S N) 0 = 0 :: (0 + h) :: tl (ugrid h N (0 + h))) by (cbn [ugrid]; f_equal; destruct N; reflexivity).
  assert (Hlen := ugrid_len h (S N) 0).
  destruct (nth_error (ugrid h (S N) 0) (S N)) as [tk|] eqn:Ek; [|apply nth_error_None in Ek; lia].
  destruct (nth_error (one_step_traj (erk_step (to_R_rows q_rk4_code) (to_R qb_rk4) f) (y 0) (ugrid h (S N) 0)) (S N)) as [xk|] eqn:Ex.
  2:{ apply nth_error_None in Ex. rewrite traj_length in Ex. lia. }
  assert (HB : near 1 (C * h ^ 2) xk (y tk)).
  { rewrite E in Ek, Ex. apply (HC h (0 + h) (tl (ugrid h N (0 + h)))) with (k := S N); auto; rewrite <- ?E.
    - intros i j a b Hij Ha Hb. rewrite (ugrid_nth _ _ _ _ _ Ha), (ugrid_nth _ _ _ _ _ Hb).
      apply lt_INR in Hij. assert (INR i * h < INR j * h) by (apply Rmult_lt_compat_r; lra). lra.
    - intros i a b Ha Hb. rewrite (ugrid_nth _ _ _ _ _ Ha), (ugrid_nth _ _ _ _ _ Hb), S_INR. lra.
    - change (last ((0 + h) :: tl (ugrid h N (0 + h))) 0) with (last (0 :: (0 + h) :: tl (ugrid h N (0 + h))) 0). rewrite <- E, ugrid_last. lra. }
  specialize (HB 0%nat ltac:(lia)).
  assert (Ex' : xk = [(0 + INR (S N) * h) * (0 + INR (S N) * h) / 2 - (0 + INR (S N) * h) * h / 4]).
  { apply (rk4_on_t h (S N) 0 (S N)). replace (0 * 0 / 2 - 0 * h / 4) with (0 * 0 / 2) by field. exact Ex. }
  subst xk. apply ugrid_nth in Ek. subst tk. unfold y in HB. cbn [nth] in HB. rewrite HNh in HB.
  replace ((0 + 1) * (0 + 1) / 2 - (0 + 1) * h / 4 - (0 + 1) * (0 + 1) / 2) with (- (h / 4)) in HB by field.
  rewrite Rabs_Ropp, (Rabs_right (h / 4)) in HB by lra.
  assert (h * (4 * C) < 1).
  { rewrite <- HNh, (Rmult_comm (INR (S N))). apply Rmult_lt_compat_l; lra. }
  cbn [pow] in HB. assert (C * (h * (h * 1)) < h / 4); [|lra].
  replace (C * (h * (h * 1))) with (h * (h * (4 * C)) / 4) by field. assert (h * (h * (4 * C)) < h * 1) by (apply Rmult_lt_compat_l; lra). lra.
Qed.

(** a run without dense output *)
Lemma run_bound n f rows b (acc : R -> R -> list R -> list R -> Prop) dn all (eb : R -> R) (y : R -> list R) t0 T H :
  (forall t h x x', acc t h x x' -> x' = erk_step rows b f t h x) -> field_on n f ->
  (forall t h x, t0 <= t -> 0 < h -> t + h <= T -> h <= H -> length x = n -> near n (eb t) x (y t) -> near n (eb (t + h)) (erk_step rows b f t h x) (y (t + h))) ->
  forall t x req times xs, run acc dn false all t x req times xs ->
  t0 <= t -> length x = n -> near n (eb t) x (y t) -> steps_at_most H (t :: times) -> (forall s, In s req -> s <= T) ->
  forall k c z, nth_error times k = Some c -> nth_error xs k = Some z -> near n (eb c) z (y c).
Proof.
  intros Hacc Hf Hstep t x req times xs Hrun.
  induction Hrun as [t x|t h x x' crossed hit req times xs Hh Ha Hcr Hin Hreq Hne Hrun IH]; intros Ht Hx Hn Hst HT k c z Hc Hz.
  - destruct k; discriminate.
  - rewrite (Hin eq_refl) in *. clear Hin Hcr crossed. cbn [app map] in *.
    apply Hacc in Ha. subst x'.
    assert (HthT : t + h <= T).
    { destruct Hne as [->|Hne]; [apply HT; now left|]. destruct req as [|r0 req]; [congruence|].
      specialize (Hreq r0 (or_introl eq_refl)). assert (r0 <= T); [|lra]. apply HT. apply in_or_app. right. now left. }
    assert (HT' : forall s, In s req -> s <= T) by (intros s Hs; apply HT, in_or_app; now right).
    destruct (hit || all)%bool eqn:Eh; cbn [app] in *.
    + assert (HhH : h <= H) by (pose proof (Hst 0%nat t (t + h) eq_refl eq_refl); lra).
      pose proof (Hstep t h x Ht Hh HthT HhH Hx Hn) as Hn'.
      destruct k as [|k].
      * injection Hc as <-. injection Hz as <-. exact Hn'.
      * cbn [nth_error] in Hc, Hz. apply (IH ltac:(lra) (erk_step_len n rows b f t h x Hf Hx) Hn') with (k := k); auto.
        intros i a d H1 H2. apply (Hst (S i)); auto.
    + destruct times as [|r0 times]; [destruct k; discriminate|].
      assert (Hr0 : t + h < r0) by (apply (run_after _ _ _ _ _ Hrun); now left).
      pose proof (Hst 0%nat t r0 eq_refl eq_refl) as Hg.
      pose proof (Hstep t h x Ht Hh HthT ltac:(lra) Hx Hn) as Hn'.
      apply (IH ltac:(lra) (erk_step_len n rows b f t h x Hf Hx) Hn') with (k := k); auto.
      intros i a d H1 H2. destruct i as [|i].
      * injection H1 as <-. injection H2 as <-. lra.
      * apply (Hst (S i)); auto.
Qed.

(** C104.  dopri5 without dense output converges with order 5 in the largest gap between returned times,
    whatever the tolerances; one constant for all grids and tolerances. *)
Lemma C104_dopri5_order_pf :
  forall n f L y yd J K M t0 T,
  field_on n f -> 0 <= L -> lipschitz n L f -> t0 <= T -> 0 <= M -> 0 <= K -> smooth_solution n t0 T 5 f y yd J K M ->
  exists C, 0 <= C /\ forall H t1 ts fuel atol rtol all save_at semi times sol,
    increasing (t0 :: t1 :: ts) -> last (t1 :: ts) t0 <= T ->
    snd (@odeint ROps fuel f (y t0) (@TTensor ROps (t0 :: t1 :: ts)) (DormandPrince45 ROps) atol rtol false all save_at semi) = Ok (times, sol) ->
    steps_at_most H times ->
    List.length sol = List.length times /\
    forall k tk xk, nth_error times k = Some tk -> nth_error sol k = Some xk -> near n (C * H ^ 5) xk (y tk).
Proof.
  intros n f L y yd J K M t0 T Hf HL Hlip HT HM HK Hs.
  destruct (local_near n 5 f y yd J K M t0 T q_dopri5 qb5_dopri5 ltac:(lia) Hf HT HM HK Hs check_dopri5) as (C & HC & Hloc).
  set (rows := to_R_rows q_dopri5) in *. set (b := to_R qb5_dopri5) in *. set (Lam := growth L (T - t0) rows b).
  assert (HLam : 0 <= Lam) by (apply growth_pos; auto; lra).
  assert (Hy : forall t, length (y t) = n) by (destruct Hs as (Hy & _); exact Hy).
  exists (exp (Lam * (T - t0)) * (T - t0) * C). split; [repeat apply Rmult_le_pos; auto; try lra; left; apply exp_pos|].
  intros H t1 ts fuel atol rtol all save_at semi times sol Hinc HlT Hr Hst.
  assert (Hlt : t0 < t1) by (apply (Hinc 0%nat 1%nat); auto).
  pose proof (inc_last t0 t1 ts Hinc) as Hlast.
  apply increasing_sorted in Hinc.
  assert (HP : builtin_pair (DormandPrince45 ROps) rows b (to_R qb4_dopri5)) by (left; auto).
  destruct (odeint_run (DormandPrince45 ROps) rows b (to_R qb4_dopri5) (builtin_embedded _ _ _ _ HP) n f Hf _ _ _ _ _ _ _ _ _ _ _ _ _ Hinc (Hy t0) Hr)
    as (times' & sol' & -> & -> & Hrun).
  split; [cbn [length]; f_equal; exact (run_lengths _ _ _ _ _ Hrun)|].
  change (interp_on (DormandPrince45 ROps) false) with false in Hrun.
  assert (Hreq : forall s, In s (t1 :: ts) -> s <= T) by (intros s Hs'; eapply Rle_trans; [apply Hlast; now right|auto]).
  destruct times' as [|r0 times'].
  { pose proof (run_req_in _ _ _ _ _ Hrun t1 (or_introl eq_refl)) as []. }
  assert (H0 : 0 < H).
  { pose proof (Hst 0%nat t0 r0 eq_refl eq_refl). pose proof (run_after _ _ _ _ _ Hrun r0 (or_introl eq_refl)). lra. }
  intros k tk xk Hk Hx.
  assert (Hebz : near n (ebound Lam C t0 (H ^ 5) t0) (y t0) (y t0)).
  { intros i Hi. unfold ebound. rewrite !Rminus_diag_eq, Rabs_R0 by reflexivity. lra. }
  assert (Hb : t0 <= tk <= T -> near n (ebound Lam C t0 (H ^ 5) tk) xk (y tk) -> near n (exp (Lam * (T - t0)) * (T - t0) * C * H ^ 5) xk (y tk)).
  { intros Htk Hn. eapply near_le; [|exact Hn]. unfold ebound. apply Rmult_le_compat_r; [apply pow_le; lra|]. apply Rmult_le_compat_r; auto.
    apply Rmult_le_compat; try lra; [left; apply exp_pos|].
    destruct (Rle_lt_or_eq_dec (Lam * (tk - t0)) (Lam * (T - t0))) as [Hl| ->]; [apply Rmult_le_compat_l; lra|left; now apply exp_increasing|lra]. }
  destruct k as [|k].
  - injection Hk as <-. injection Hx as <-. apply Hb; auto; lra.
  - cbn [nth_error] in Hk, Hx. apply Hb.
    + pose proof (nth_error_In _ _ Hk) as Hin. split; [left; apply (run_after _ _ _ _ _ Hrun); auto|].
      eapply Rle_trans; [|exact HlT]. apply (run_le _ _ _ _ _ Hrun t0); auto. now inversion Hinc.
    + refine (run_bound n f rows b _ _ all (ebound Lam C t0 (H ^ 5)) y t0 T H _ Hf _ t0 (y t0) (t1 :: ts) (r0 :: times') sol' Hrun _ (Hy t0) Hebz Hst Hreq k tk xk Hk Hx); [| |lra].
      * intros t h x x' [E _]. exact E.
      * intros t h x Ht Hh HTh HhH Hx1 Hn.
        refine (one_step_bound n (erk_step rows b f) y Lam C t0 T HC HLam _ Hy (H ^ 5) (pow_le _ _ (Rlt_le _ _ H0)) (fun h => h <= H) _ t h x Ht Hh HTh HhH Hx1 Hn).
        { intros t' h' x' z D Ht' Hh' HTh' Hx' Hz HD Hn'. apply (stable_step n f L rows b (T - t0) t0 T); auto. lra. }
        { intros t' h' Ht' Hh' HTh' Hok. eapply near_le; [|apply Hloc; auto]. apply Rmult_le_compat_l; auto. apply pow_split; lra. }
Qed.

Lemma sin_dist a b : a <= b -> Rabs (sin b - sin a) <= b - a.
Proof.
  intros H. pose proof (diff_bound sin cos (fun s => 1 * s + 0) (fun _ => 1) a b H) as B.
  replace (b - a) with (1 * b + 0 - (1 * a + 0)) by ring. apply B.
  - intros c _. apply derivable_pt_lim_sin.
  - intros c _. apply dlim_lin.
  - intros c _. pose proof (COS_bound c). apply Rabs_le. lra.
Qed.
Lemma sin_lip a b : Rabs (sin b - sin a) <= Rabs (b - a).
Proof.
  destruct (Rle_lt_dec a b).
  - rewrite (Rabs_right (b - a)) by lra. now apply sin_dist.
  - rewrite Rabs_minus_sym, (Rabs_minus_sym b a), (Rabs_right (a - b)) by lra. apply sin_dist. lra.
Qed.
Lemma sin_taylor_pos a b : a <= b -> Rabs (sin b - sin a - (b - a) * cos a) <= 1 / 2 * ((b - a) * (b - a)).
Proof.
  intros H. apply (taylor1 sin cos (fun c => - sin c) 1 a b H).
  - intros c _. apply derivable_pt_lim_sin.
  - intros c _. apply derivable_pt_lim_cos.
  - intros c _. rewrite Rabs_Ropp. pose proof (SIN_bound c). apply Rabs_le. lra.
Qed.
Lemma sin_taylor a b : Rabs (sin b - sin a - (b - a) * cos a) <= 1 / 2 * ((b - a) * (b - a)).
Proof.
  destruct (Rle_lt_dec a b); [now apply sin_taylor_pos|].
  pose proof (sin_taylor_pos (- a) (- b) ltac:(lra)) as B. rewrite !sin_neg, cos_neg in B.
  replace (- sin b - - sin a - (- b - - a) * cos a) with (- (sin b - sin a - (b - a) * cos a)) in B by ring.
  rewrite Rabs_Ropp in B. replace (1 / 2 * ((b - a) * (b - a))) with (1 / 2 * ((- b - - a) * (- b - - a))) by field. exact B.
Qed.

(** y' = y with y = exp on [[0, 1]] meets the hypotheses of C103 and C104 for every order; a nonlinear
    problem with explicit time, y' = cos t + sin y - sin (sin t) with solution sin, those for Midpoint. *)Lemma C103_ex_pf :
  (forall p, let f := fun (_ : R) (x : list R) => x in
    field_on 1 f /\ lipschitz 1 1 f /\ autonomous f /\
    smooth_solution 1 0 1 p f (fun t => [exp t]) (fun _ t => [exp t]) (fun m _ _ _ => match m with O => 1 | _ => 0 end) 0 (exp 1)) /\
  classical_order (RungeKutta4 ROps) (to_R_rows q_rk4_code) (to_R qb_rk4) 4 (fun _ x => x) /\
  (let f := fun (t : R) (x : list R) => [cos t + sin (nth 0 x 0) - sin (sin t)] in
    field_on 1 f /\ lipschitz 1 1 f /\
    smooth_solution 1 0 1 2 f (fun t => [sin t])
      (fun m t => match m with 0%nat => [sin t] | 1%nat => [cos t] | 2%nat => [- sin t] | _ => [- cos t] end)
      (fun m t _ _ => match m with O => cos (sin t) | _ => - sin (sin t) * cos t end) 1 1) /\
  classical_order (Midpoint ROps) (to_R_rows q_midpoint) (to_R qb_midpoint) 2 (fun t x => [cos t + sin (nth 0 x 0) - sin (sin t)]).
Proof.
  split; [|split; [right; right; repeat split|split; [|right; left; repeat split]]].
  - intros p f.
    assert (E1 : 1 <= exp 1) by (rewrite <- exp_0 at 1; left; apply exp_increasing; lra).
    split; [intros t x Hx; exact Hx|]. split.
    { intros t x z E _ _ Hn. eapply near_le; [|exact Hn]. lra. }
    split; [intros t s x; reflexivity|].
    split; [reflexivity|]. split; [reflexivity|]. split; [reflexivity|]. split.
    { intros m Hm i t Hi _. destruct i as [|i]; [|lia]. cbn [nth]. apply derivable_pt_lim_exp. }
    split.
    { intros m Hm i t Hi Ht. destruct i as [|i]; [|lia]. cbn [nth]. rewrite Rabs_right by (left; apply exp_pos).
      destruct (Rle_lt_or_eq_dec t 1 (proj2 Ht)) as [Hlt| ->]; [left; now apply exp_increasing|lra]. }
    split.
    { intros m i j t _ _ _ _. destruct m; apply (derivable_pt_lim_const _ t). }
    split.
    { intros m i j t _ _ _ _. destruct m; [rewrite Rabs_R1; lra|rewrite Rabs_R0; lra]. }
    intros t x D Ht Hx Hn i Hi. destruct i as [|i]; [|lia]. unfold mat_vec. cbn [rsum nth f].
    match goal with |- Rabs ?e <= _ => replace e with 0 by (unfold f; cbn [nth]; ring) end. rewrite Rabs_R0. lra.
  - intros f.
    assert (Bs : forall c, Rabs (sin c) <= 1) by (intros c; pose proof (SIN_bound c); apply Rabs_le; lra).
    assert (Bc : forall c, Rabs (cos c) <= 1) by (intros c; pose proof (COS_bound c); apply Rabs_le; lra).
    split; [intros t x Hx; reflexivity|]. split.
    { intros t x z E _ _ Hn i Hi. destruct i as [|i]; [|lia]. unfold f. cbn [nth].
      replace (cos t + sin (nth 0 x 0) - sin (sin t) - (cos t + sin (nth 0 z 0) - sin (sin t))) with (sin (nth 0 x 0) - sin (nth 0 z 0)) by ring.
      eapply Rle_trans; [apply sin_lip|]. specialize (Hn 0%nat Hi). lra. }
    split; [reflexivity|]. split; [reflexivity|]. split; [intros t _; unfold f; cbn [nth]; f_equal; ring|]. split.
    { intros m Hm i t Hi _. destruct i as [|i]; [|lia]. destruct m as [|[|[|m]]]; cbn [nth]; try lia.
      - apply derivable_pt_lim_sin.
      - apply derivable_pt_lim_cos.
      - apply (derivable_pt_lim_opp sin t), derivable_pt_lim_sin. }
    split.
    { intros m Hm i t Hi _. destruct i as [|i]; [|lia]. destruct m as [|[|[|m]]]; cbn [nth]; rewrite ?Rabs_Ropp; auto. }
    split.
    { intros m i j t Hm _ _ _. destruct m as [|m]; [|lia]. 
      apply (derivable_pt_lim_comp sin cos t (cos t) (- sin (sin t))); [apply derivable_pt_lim_sin|apply derivable_pt_lim_cos]. }
    split.
    { intros m i j t _ _ _ _. destruct m; auto. rewrite Rabs_mult, Rabs_Ropp. rewrite <- (Rmult_1_l 1).
      apply Rmult_le_compat; auto; apply Rabs_pos. }
    intros t x D Ht Hx Hn i Hi. destruct i as [|i]; [|lia]. unfold mat_vec, f. cbn [rsum nth].
    pose proof (sin_taylor (sin t) (nth 0 x 0)) as B. specialize (Hn 0%nat Hi). cbn [nth] in Hn.
    match goal with |- Rabs ?e <= _ => replace e with (sin (nth 0 x 0) - sin (sin t) - (nth 0 x 0 - sin t) * cos (sin t)) by ring end.
    eapply Rle_trans; [exact B|]. set (d := nth 0 x 0 - sin t) in *.
    assert (d * d <= D * D); [|pose proof (Rle_0_sqr D); unfold Rsqr in *; lra].
    rewrite <- (Rabs_right (d * d)) by (apply Rle_ge, Rle_0_sqr). rewrite Rabs_mult. apply Rmult_le_compat; auto; apply Rabs_pos.
Qed.
