(** Property theorems (generated by tools/genprop.py from Pf_Leap.v, which holds the proofs). *)
From Coq Require Import ZArith QArith Reals Lra Lia List Bool Floats.
From Verif Require Import Num Py Tensor M_SolversOde M_Utils M_Odeint Spec_Ode Spec_RK Spec_Conv Spec_Leap.
From Verif Require Import L_Base L_Fixed L_Vec L_Steps L_Steps2 L_Fixed2 L_Jagged L_Conv L_Sens L_Leap Pf_Fixed Pf_Conv L_Utils L_Adaptive L_Adaptive2.
Import ListNotations.
From Verif Require Import Pf_Leap.
Import ListNotations.
Local Open Scope R_scope.

(** C115.  With a fixed-step solver and a field carrying an admissible [order], odeint_symplectic
    is odeint: same calls of the field, same result, whatever the tolerances and return_all_eval. *)
Theorem C115_same_as_odeint :
  forall fuel fuel' f o x ts (s : solver ROps (vec ROps)) is_alf atol rtol atol' rtol' interp all all' save_at semi,
  s_fixed s = true -> (is_alf = true -> o <> 2%nat) ->
  @odeint_symplectic ROps fuel f (Some o) x ts s is_alf atol rtol all save_at =
  @odeint ROps fuel' f x ts s atol' rtol' interp all' save_at semi.
Proof. exact C115_same_as_odeint_pf. Qed.
Print Assumptions C115_same_as_odeint.

(** C115.  The leapfrog solver returns the leapfrog states along the grid, starting from the given
    position and velocity; on a decreasing grid they are the leapfrog states with negative steps, started
    from the opposite velocity and reported with the opposite velocity. *)
Theorem C115_trajectory :
  forall n f o x v t0 t1 ts fuel atol rtol all,
  field_on n f -> length x = n -> length v = n -> o <> 2%nat -> separated (t0 :: t1 :: ts) -> t0 <= t1 ->
  snd (@odeint_symplectic ROps fuel f (Some o) (x ++ v) (@TTensor ROps (t0 :: t1 :: ts)) (AsynchronousLeapfrog ROps false) true atol rtol all [])
  = Ok (t0 :: t1 :: ts, map join (one_step_traj (leap f) (x, v) (t0 :: t1 :: ts))).
Proof. exact C115_trajectory_pf. Qed.
Print Assumptions C115_trajectory.

Theorem C115_trajectory_reversed :
  forall n f o x v t0 t1 ts fuel atol rtol all,
  field_on n f -> length x = n -> length v = n -> o <> 2%nat -> separated (t0 :: t1 :: ts) -> t1 < t0 ->
  rmap snd (snd (@odeint_symplectic ROps fuel f (Some o) (x ++ v) (@TTensor ROps (t0 :: t1 :: ts)) (AsynchronousLeapfrog ROps false) true atol rtol all []))
  = Ok (map join (map flip (one_step_traj (leap f) (flip (x, v)) (t0 :: t1 :: ts)))).
Proof. exact C115_trajectory_reversed_pf. Qed.
Print Assumptions C115_trajectory_reversed.

(** C115, bookkeeping: a field without [order], and the leapfrog solver with a field of order 2, are
    rejected before the field is called. *)
Theorem C115_order_checked :
  forall fuel f x t0 t1 ts (s : solver ROps (vec ROps)) is_alf atol rtol all save_at,
  @odeint_symplectic ROps fuel f None x (@TTensor ROps (t0 :: t1 :: ts)) s is_alf atol rtol all save_at = ([], Err RuntimeError) /\
  @odeint_symplectic ROps fuel f (Some 2%nat) x (@TTensor ROps (t0 :: t1 :: ts)) s true atol rtol all save_at = ([], Err RuntimeError).
Proof. exact C115_order_checked_pf. Qed.
Print Assumptions C115_order_checked.

Example C115_ex : let f := fun (_ : R) (x : list R) => map (Rmult 2) x in
  field_on 1 f /\ separated [0; 1; 2] /\ map join (one_step_traj (leap f) ([1], [2]) [0; 1; 2]) = [[1; 2]; [5; 6]; [21; 26]].
Proof. exact C115_ex_pf. Qed.

(** C116.  Convergence: f is L-Lipschitz, y solves y' = f(t, y) with second and third derivatives bounded by
    M2, M3.  On an increasing grid of equal steps h, started from the position y(t0) and a velocity
    differing from f(t0, y(t0)) by at most delta, the positions are within
    exp(2 L (t - t0)) (h delta / 2 + (t - t0) (L M2 / 4 + M3 / 6) h^2) of y, and the velocities
    within twice that divided by h of f(t, y(t)). *)
Theorem C116_leapfrog_second_order :
  forall n f o L y y2 y3 M2 M3 h delta v t0 t1 ts fuel atol rtol all,
  field_on n f -> 0 <= L -> lipschitz n L f ->
  let T := last (t1 :: ts) t0 in
  solves n t0 T f y -> curve_derivative n t0 T (fun t => f t (y t)) y2 -> curve_derivative n t0 T y2 y3 ->
  0 <= M2 -> curve_bound n t0 T M2 y2 -> 0 <= M3 -> curve_bound n t0 T M3 y3 ->
  0 < h -> equal_steps h (t0 :: t1 :: ts) -> separated (t0 :: t1 :: ts) ->
  o <> 2%nat -> length v = n -> 0 <= delta -> near n delta v (f t0 (y t0)) ->
  let B t := exp (2 * L * (t - t0)) * (h * delta / 2 + (t - t0) * (L * M2 / 4 + M3 / 6) * (h * h)) in
  exists ps,
    snd (@odeint_symplectic ROps fuel f (Some o) (y t0 ++ v) (@TTensor ROps (t0 :: t1 :: ts)) (AsynchronousLeapfrog ROps false) true atol rtol all [])
      = Ok (t0 :: t1 :: ts, map join ps) /\ length ps = length (t0 :: t1 :: ts) /\
    forall k tk p, nth_error (t0 :: t1 :: ts) k = Some tk -> nth_error ps k = Some p ->
      length (fst p) = n /\ length (snd p) = n /\
      near n (B tk) (fst p) (y tk) /\ near n (2 * B tk / h) (snd p) (f tk (y tk)).
Proof. exact C116_leapfrog_second_order_pf. Qed.
Print Assumptions C116_leapfrog_second_order.

(** y' = y with y = exp on the grid 0, 1/2, 1 meets the hypotheses of C116. *)
Example C116_ex :
  let f := fun (_ : R) (x : list R) => x in let y := fun t => [exp t] in
  field_on 1 f /\ lipschitz 1 1 f /\ solves 1 0 1 f y /\
  curve_derivative 1 0 1 (fun t => f t (y t)) y /\ curve_derivative 1 0 1 y y /\ curve_bound 1 0 1 (exp 1) y /\
  equal_steps (1/2) [0; 1/2; 1] /\ separated [0; 1/2; 1] /\ near 1 0 [1] (f 0 (y 0)).
Proof. exact C116_ex_pf. Qed.

Theorem C116_reversed_second_order :
  forall n f o L y y2 y3 M2 M3 h delta v t0 t1 ts fuel atol rtol all,
  field_on n f -> 0 <= L -> lipschitz n L f ->
  let T := last (t1 :: ts) t0 in
  solves n T t0 f y -> curve_derivative n T t0 (fun t => f t (y t)) y2 -> curve_derivative n T t0 y2 y3 ->
  0 <= M2 -> curve_bound n T t0 M2 y2 -> 0 <= M3 -> curve_bound n T t0 M3 y3 ->
  0 < h -> equal_steps (- h) (t0 :: t1 :: ts) -> separated (t0 :: t1 :: ts) ->
  o <> 2%nat -> length v = n -> 0 <= delta -> near n delta v (map Ropp (f t0 (y t0))) ->
  let B t := exp (2 * L * (t0 - t)) * (h * delta / 2 + (t0 - t) * (L * M2 / 4 + M3 / 6) * (h * h)) in
  exists ps,
    rmap snd (snd (@odeint_symplectic ROps fuel f (Some o) (y t0 ++ v) (@TTensor ROps (t0 :: t1 :: ts)) (AsynchronousLeapfrog ROps false) true atol rtol all []))
      = Ok (map join ps) /\ length ps = length (t0 :: t1 :: ts) /\
    forall k tk p, nth_error (t0 :: t1 :: ts) k = Some tk -> nth_error ps k = Some p ->
      length (fst p) = n /\ length (snd p) = n /\
      near n (B tk) (fst p) (y tk) /\ near n (2 * B tk / h) (snd p) (map Ropp (f tk (y tk))).
Proof. exact C116_reversed_second_order_pf. Qed.
Print Assumptions C116_reversed_second_order.

(** C116, refuted for reversed time started from the velocity f(t0, x0) of the equation: for y' = y from
    y(0) = 1 the first step of size h is off by at least h^2 / 2, so the method is not of second order. *)
Theorem C116_reversed_velocity_refuted :
  let f := fun (_ : R) (x : list R) => x in
  forall h, 1 / 10000000 <= h <= 1 -> exists x1 v1,
  rmap snd (snd (@odeint_symplectic ROps 0 f (Some 1%nat) ([1] ++ f 0 [1]) (@TTensor ROps [0; - h]) (AsynchronousLeapfrog ROps false) true (1/1000) (1/1000) false []))
    = Ok [[1; 1]; [x1; v1]] /\ h * h / 2 <= Rabs (x1 - exp (- h)).
Proof. exact C116_reversed_velocity_refuted_pf. Qed.
Print Assumptions C116_reversed_velocity_refuted.

Theorem C117_leapfrog_reversible :
  forall n f o x v t0 t1 ts fuel fuel' atol rtol atol' rtol' all all',
  field_on n f -> length x = n -> length v = n -> o <> 2%nat -> separated (t0 :: t1 :: ts) -> increasing (t0 :: t1 :: ts) ->
  exists ps pN,
    snd (@odeint_symplectic ROps fuel f (Some o) (x ++ v) (@TTensor ROps (t0 :: t1 :: ts)) (AsynchronousLeapfrog ROps false) true atol rtol all [])
      = Ok (t0 :: t1 :: ts, map join (ps ++ [pN])) /\
    rmap snd (snd (@odeint_symplectic ROps fuel' f (Some o) (join (flip pN)) (@TTensor ROps (rev (t0 :: t1 :: ts))) (AsynchronousLeapfrog ROps false) true atol' rtol' all' []))
      = Ok (map join (map flip (rev (ps ++ [pN])))) /\
    hd_error (map join (ps ++ [pN])) = Some (x ++ v).
Proof. exact C117_leapfrog_reversible_pf. Qed.
Print Assumptions C117_leapfrog_reversible.

(** C117, refuted for the state as returned: for x' = x over [0; 1] from x = v = 1, solving back over [1; 0] from the
    returned final state [5/2; 2] gives [-1; -9] instead of [1; 1]. *)
Theorem C117_round_trip_refuted :
  let f := fun (_ : R) (x : list R) => x in
  let solve x l := rmap snd (snd (@odeint_symplectic ROps 0 f (Some 1%nat) x (@TTensor ROps l) (AsynchronousLeapfrog ROps false) true (1/1000) (1/1000) false [])) in
  solve [1; 1] [0; 1] = Ok [[1; 1]; [5/2; 2]] /\ solve [5/2; 2] [1; 0] = Ok [[5/2; 2]; [-1; -9]].
Proof. exact C117_round_trip_refuted_pf. Qed.
Print Assumptions C117_round_trip_refuted.

Example C117_ex : let f := fun (_ : R) (x : list R) => map (Rmult 2) x in
  field_on 1 f /\ separated [0; 1; 2] /\ increasing [0; 1; 2] /\
  one_step_traj (leap f) ([21], [26]) [2; 1; 0] = rev (one_step_traj (leap f) ([1], [2]) [0; 1; 2]).
Proof. exact C117_ex_pf. Qed.

(** C118.  With dopri5 or tsit5, a field of order 2 (any order but 1) and an increasing grid, odeint_symplectic
    is odeint without interpolator and without return_all_eval. *)
Theorem C118_adaptive_same_as_odeint :
  forall n f o fuel x t0 t1 ts (s : solver ROps (vec ROps)) is_alf atol rtol all save_at save_at',
  s_fixed s = false -> (is_alf = true -> o <> 2%nat) -> o <> 1%nat -> field_on n f -> length x = n -> t0 <= t1 ->
  @odeint_symplectic ROps fuel f (Some o) x (@TTensor ROps (t0 :: t1 :: ts)) s is_alf atol rtol all save_at =
  @odeint ROps fuel f x (@TTensor ROps (t0 :: t1 :: ts)) s atol rtol false false save_at' None.
Proof. exact C118_adaptive_same_as_odeint_pf. Qed.
Print Assumptions C118_adaptive_same_as_odeint.

(** C118, refuted: return_all_eval is ignored (it is passed as [args]).  Over [0; 1] for the zero field
    odeint returns the accepted steps, odeint_symplectic only the grid (binary64, any power function). *)
Theorem C118_return_all_eval_refuted :
  (forall fuel f o x ts (s : solver ROps (vec ROps)) is_alf atol rtol all all' save_at,
    @odeint_symplectic ROps fuel f o x ts s is_alf atol rtol all save_at = @odeint_symplectic ROps fuel f o x ts s is_alf atol rtol all' save_at) /\
  forall pw, exists times1 sol1 times2 sol2,
    snd (@odeint_symplectic (FloatOps pw) 20 (fun _ _ => [0%float]) (Some 2%nat) [0%float] (@TTensor (FloatOps pw) [0%float; 1%float])
      (DormandPrince45 (FloatOps pw)) false 0.001%float 0.001%float true []) = Ok (times1, sol1) /\
    snd (@odeint (FloatOps pw) 20 (fun _ _ => [0%float]) [0%float] (@TTensor (FloatOps pw) [0%float; 1%float])
      (DormandPrince45 (FloatOps pw)) 0.001%float 0.001%float false true [] None) = Ok (times2, sol2) /\
    length times1 = 2%nat /\ (length times1 < length times2)%nat.
Proof. exact C118_return_all_eval_refuted_pf. Qed.
Print Assumptions C118_return_all_eval_refuted.

(** C118, refuted for reversed grids: the first slope is the field at the negated initial time, with the
    wrong sign.  The field vanishes at all times t >= 0 and the grid lies in t >= 0, so the state
    should stay 0; it does not (binary64, any power function). *)
Theorem C118_reversed_first_slope_refuted :
  forall pw,
  let f := fun (t : float) (_ : list float) => if PrimFloat.ltb t 0 then [1e-19%float] else [0%float] in
  exists t1 times sol x1, PrimFloat.ltb 0.5 t1 = true /\ PrimFloat.ltb t1 1 = true /\
    snd (@odeint_symplectic (FloatOps pw) 20 f (Some 2%nat) [0%float] (@TTensor (FloatOps pw) [1%float; t1])
      (DormandPrince45 (FloatOps pw)) false 0.001%float 0.001%float false []) = Ok (times, sol) /\
    sol = [[0%float]; [x1]] /\ PrimFloat.eqb x1 0 = false.
Proof. exact C118_reversed_first_slope_refuted_pf. Qed.
Print Assumptions C118_reversed_first_slope_refuted.

(** C118, refuted for fields of order 1 with dopri5 / tsit5: the slope of the positions is
    combined with the full state, which fails whenever there are at least two positions. *)
Theorem C118_half_slope_refuted :
  forall m f fuel x t0 t1 ts (s : solver ROps (vec ROps)) atol rtol all save_at,
  s_fixed s = false -> (2 <= m)%nat -> length x = (m + m)%nat -> (forall t y, length (f t y) = length y) ->
  t0 <= t1 -> t0 < last (t1 :: ts) t0 ->
  snd (@odeint_symplectic ROps fuel f (Some 1%nat) x (@TTensor ROps (t0 :: t1 :: ts)) s false atol rtol all save_at) = Err RuntimeError.
Proof. exact C118_half_slope_refuted_pf. Qed.
Print Assumptions C118_half_slope_refuted.

(** C118, refuted: the adaptive leapfrog never returns a solution; the step returns three values where four are
    expected, through odeint_symplectic and through odeint alike. *)
Theorem C118_adaptive_leapfrog_refuted :
  forall f o fuel x t0 t1 ts atol rtol all interp save_at semi,
  o <> 2%nat -> t0 <= t1 -> t0 < last (t1 :: ts) t0 ->
  snd (@odeint_symplectic ROps (S fuel) f (Some o) x (@TTensor ROps (t0 :: t1 :: ts)) (AsynchronousLeapfrog ROps true) true atol rtol all save_at) = Err ValueError /\
  snd (@odeint ROps (S fuel) f x (@TTensor ROps (t0 :: t1 :: ts)) (AsynchronousLeapfrog ROps true) atol rtol interp all save_at semi) = Err ValueError.
Proof. exact C118_adaptive_leapfrog_refuted_pf. Qed.
Print Assumptions C118_adaptive_leapfrog_refuted.

(** Four-dimensional states [x1; x2; v1; v2] with the field f(t, y) = 2 y meet the hypotheses of C118. *)
Example C118_ex : let f := fun (_ : R) (y : list R) => map (Rmult 2) y in
  field_on 4 f /\ (forall t y, length (f t y) = length y) /\ length [1; 2; 3; 4] = (2 + 2)%nat /\
  s_fixed (DormandPrince45 ROps) = false /\ s_fixed (AsynchronousLeapfrog ROps true) = false /\ 0 < last [1; 2] 0.
Proof. exact C118_ex_pf. Qed.

