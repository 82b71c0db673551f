(** Property theorems (generated by tools/genprop.py from Pf_Order.v, which holds the proofs). *)
From Coq Require Import ZArith QArith Qreals Reals Lra Lia List Bool Sorted Factorial.
From Verif Require Import Num Py Tensor M_Constants M_SolversOde M_Utils M_Interp M_Odeint.
From Verif Require Import Spec_Ode Spec_Trees Spec_RK Spec_Norm Spec_Adaptive Spec_Conv Spec_Inv Spec_Order.
From Verif Require Import L_Base L_Fixed L_Vec L_Steps L_Tables L_Steps2 L_Interp L_Utils L_Fixed2 L_Adaptive L_Run.
From Verif Require Import L_Adaptive2 L_Adaptive3 L_Adaptive4 L_Conv Pf_Fixed Pf_Adaptive L_Reach L_Inv L_Order L_Order2 Pf_Conv.
Import ListNotations.
From Verif Require Import Pf_Order.
Import ListNotations.
Local Open Scope R_scope.

(** C102.  Two fixed-step solves whose fields differ by at most eps (the first field Lipschitz with constant
    L) and whose initial states differ by at most D: the trajectories stay within
    exp(Lam (t - t0)) (D + (t - t0) beta eps), Lam = growth and beta = leak the constants of the tableau for
    steps of size at most H (Euler: Lam = L, beta = 1). *)
Theorem C102_robust :
  forall s rows b n f g L eps D x z H t0 t1 ts fuel atol rtol interp all semi,
  builtin_fixed s rows b -> field_on n f -> field_on n g -> 0 <= L -> 0 <= eps -> 0 <= D ->
  lipschitz n L f -> field_near n eps f g -> length x = n -> length z = n -> near n D x z ->
  increasing (t0 :: t1 :: ts) -> separated (t0 :: t1 :: ts) -> steps_at_most H (t0 :: t1 :: ts) ->
  exists sol sol',
    snd (@odeint ROps fuel f x (@TTensor ROps (t0 :: t1 :: ts)) s atol rtol interp all [] semi) = Ok (t0 :: t1 :: ts, sol) /\
    snd (@odeint ROps fuel g z (@TTensor ROps (t0 :: t1 :: ts)) s atol rtol interp all [] semi) = Ok (t0 :: t1 :: ts, sol') /\
    forall k tk xk zk, nth_error (t0 :: t1 :: ts) k = Some tk -> nth_error sol k = Some xk -> nth_error sol' k = Some zk ->
      near n (exp (growth L H rows b * (tk - t0)) * (D + (tk - t0) * leak L H rows b * eps)) xk zk.
Proof. exact C102_robust_pf. Qed.
Print Assumptions C102_robust.

Theorem C102_constants :
  forall L H, growth L H (to_R_rows q_euler) (to_R qb_euler) = L /\ leak L H (to_R_rows q_euler) (to_R qb_euler) = 1 /\
    growth L H (to_R_rows q_midpoint) (to_R qb_midpoint) = L * (1 + H * (L / 2)) /\
    leak L H (to_R_rows q_midpoint) (to_R qb_midpoint) = 1 + L * H / 2 /\
    growth L H (to_R_rows q_rk4_code) (to_R qb_rk4) = L * (1 + H * L / 2 + (H * L) ^ 2 / 6 + (H * L) ^ 3 / 24) /\
    leak L H (to_R_rows q_rk4_code) (to_R qb_rk4) = 1 + H * L / 2 + (H * L) ^ 2 / 6 + (H * L) ^ 3 / 24.
Proof. exact C102_constants_pf. Qed.
Print Assumptions C102_constants.

(** C103 (fields without explicit time for RungeKutta4).  Order of convergence of the fixed-step solvers on
    smooth Lipschitz problems: Euler 1, Midpoint 2, RungeKutta4 4.  One constant C for all grids; [sol] are the
    states after the steps of the solver along the grid, which odeint returns if it accepts the grid. *)
Theorem C103_order_partial :
  forall s rows b p n f L y yd J K M t0 T, classical_order s rows b p f ->
  field_on n f -> 0 <= L -> lipschitz n L f -> t0 <= T -> 0 <= M -> 0 <= K -> smooth_solution n t0 T p f y yd J K M ->
  exists C, 0 <= C /\ forall H t1 ts,
    increasing (t0 :: t1 :: ts) -> steps_at_most H (t0 :: t1 :: ts) -> last (t1 :: ts) t0 <= T ->
    let sol := one_step_traj (erk_step rows b f) (y t0) (t0 :: t1 :: ts) in
    (forall fuel atol rtol interp all semi, separated (t0 :: t1 :: ts) ->
       snd (@odeint ROps fuel f (y t0) (@TTensor ROps (t0 :: t1 :: ts)) s atol rtol interp all [] semi) = Ok (t0 :: t1 :: ts, sol)) /\
    forall k tk xk, nth_error (t0 :: t1 :: ts) k = Some tk -> nth_error sol k = Some xk ->
      near n (C * (tk - t0) * H ^ p) xk (y tk).
Proof. exact C103_order_partial_pf. Qed.
Print Assumptions C103_order_partial.

(** C103, RungeKutta4 on fields with explicit time: first order *)
Theorem C103_rk4_first_order_partial :
  forall n f L y yd J K M t0 T,
  field_on n f -> 0 <= L -> lipschitz n L f -> t0 <= T -> 0 <= M -> 0 <= K -> smooth_solution n t0 T 1 f y yd J K M ->
  exists C, 0 <= C /\ forall H t1 ts,
    increasing (t0 :: t1 :: ts) -> steps_at_most H (t0 :: t1 :: ts) -> last (t1 :: ts) t0 <= T ->
    let sol := one_step_traj (erk_step (to_R_rows q_rk4_code) (to_R qb_rk4) f) (y t0) (t0 :: t1 :: ts) in
    (forall fuel atol rtol interp all semi, separated (t0 :: t1 :: ts) ->
       snd (@odeint ROps fuel f (y t0) (@TTensor ROps (t0 :: t1 :: ts)) (RungeKutta4 ROps) atol rtol interp all [] semi) = Ok (t0 :: t1 :: ts, sol)) /\
    forall k tk xk, nth_error (t0 :: t1 :: ts) k = Some tk -> nth_error sol k = Some xk ->
      near n (C * (tk - t0) * H) xk (y tk).
Proof. exact C103_rk4_first_order_partial_pf. Qed.
Print Assumptions C103_rk4_first_order_partial.

(** C103 fails for RungeKutta4 on fields with explicit time: on y' = t (smooth, state-independent) the error
    of N equal steps over [[0, 1]] is 1/(4N), so that no constant gives second order, let alone fourth. *)
Theorem C103_rk4_time_refuted :
  let f := fun (t : R) (_ : list R) => [t] in let y := fun t => [t * t / 2] in
  field_on 1 f /\ lipschitz 1 0 f /\
  smooth_solution 1 0 1 4 f y (fun m t => match m with 0%nat => [t * t / 2] | 1%nat => [t] | 2%nat => [1] | _ => [0] end) (fun _ _ _ _ => 0) 0 1 /\
  ~ exists C, forall H t1 ts,
    increasing (0 :: t1 :: ts) -> steps_at_most H (0 :: t1 :: ts) -> last (t1 :: ts) 0 <= 1 ->
    forall k tk xk, nth_error (0 :: t1 :: ts) k = Some tk ->
      nth_error (one_step_traj (erk_step (to_R_rows q_rk4_code) (to_R qb_rk4) f) (y 0) (0 :: t1 :: ts)) k = Some xk ->
      near 1 (C * H ^ 2) xk (y tk).
Proof. exact C103_rk4_time_refuted_pf. Qed.
Print Assumptions C103_rk4_time_refuted.

(** C104.  dopri5 without dense output converges with order 5 in the largest gap between returned times,
    whatever the tolerances; one constant for all grids and tolerances. *)
Theorem C104_dopri5_order :
  forall n f L y yd J K M t0 T,
  field_on n f -> 0 <= L -> lipschitz n L f -> t0 <= T -> 0 <= M -> 0 <= K -> smooth_solution n t0 T 5 f y yd J K M ->
  exists C, 0 <= C /\ forall H t1 ts fuel atol rtol all save_at semi times sol,
    increasing (t0 :: t1 :: ts) -> last (t1 :: ts) t0 <= T ->
    snd (@odeint ROps fuel f (y t0) (@TTensor ROps (t0 :: t1 :: ts)) (DormandPrince45 ROps) atol rtol false all save_at semi) = Ok (times, sol) ->
    steps_at_most H times ->
    List.length sol = List.length times /\
    forall k tk xk, nth_error times k = Some tk -> nth_error sol k = Some xk -> near n (C * H ^ 5) xk (y tk).
Proof. exact C104_dopri5_order_pf. Qed.
Print Assumptions C104_dopri5_order.

Example C103_ex :
  (forall p, let f := fun (_ : R) (x : list R) => x in
    field_on 1 f /\ lipschitz 1 1 f /\ autonomous f /\
    smooth_solution 1 0 1 p f (fun t => [exp t]) (fun _ t => [exp t]) (fun m _ _ _ => match m with O => 1 | _ => 0 end) 0 (exp 1)) /\
  classical_order (RungeKutta4 ROps) (to_R_rows q_rk4_code) (to_R qb_rk4) 4 (fun _ x => x) /\
  (let f := fun (t : R) (x : list R) => [cos t + sin (nth 0 x 0) - sin (sin t)] in
    field_on 1 f /\ lipschitz 1 1 f /\
    smooth_solution 1 0 1 2 f (fun t => [sin t])
      (fun m t => match m with 0%nat => [sin t] | 1%nat => [cos t] | 2%nat => [- sin t] | _ => [- cos t] end)
      (fun m t _ _ => match m with O => cos (sin t) | _ => - sin (sin t) * cos t end) 1 1) /\
  classical_order (Midpoint ROps) (to_R_rows q_midpoint) (to_R qb_midpoint) 2 (fun t x => [cos t + sin (nth 0 x 0) - sin (sin t)]).
Proof. exact C103_ex_pf. Qed.

