(** Property theorems (generated by tools/genprop.py from Pf_Conv.v, which holds the proofs). *)
From Coq Require Import ZArith QArith Reals Lra Lia List Bool.
From Verif Require Import Num Py Tensor M_SolversOde M_Odeint Spec_Ode Spec_RK Spec_Conv.
From Verif Require Import L_Base L_Fixed L_Vec L_Steps L_Fixed2 L_Jagged L_Conv Pf_Fixed.
Import ListNotations.
From Verif Require Import Pf_Conv.
Import ListNotations.
Local Open Scope R_scope.

(** C24.  y solves y' = f(t, y) with a second derivative bounded by M on the time range of the grid; f
    is Lipschitz with constant L.  The states returned by odeint with the Euler solver differ from y at
    the returned times by at most  exp(L (t_k - t0)) (t_k - t0) (M/2) H,  H the largest step. *)
Theorem C24_euler_converges :
  forall n f L y y2 M H t0 t1 ts fuel atol rtol interp all semi,
  field_on n f -> 0 <= L -> lipschitz n L f ->
  let T := last (t1 :: ts) t0 in
  solves n t0 T f y -> curve_derivative n t0 T (fun t => f t (y t)) y2 -> 0 <= M -> curve_bound n t0 T M y2 ->
  increasing (t0 :: t1 :: ts) -> separated (t0 :: t1 :: ts) -> steps_at_most H (t0 :: t1 :: ts) ->
  exists sol,
    snd (@odeint ROps fuel f (y t0) (@TTensor ROps (t0 :: t1 :: ts)) (Euler ROps) atol rtol interp all [] semi)
      = Ok (t0 :: t1 :: ts, sol) /\ List.length sol = List.length (t0 :: t1 :: ts) /\
    forall k tk xk, nth_error (t0 :: t1 :: ts) k = Some tk -> nth_error sol k = Some xk ->
      near n (exp (L * (tk - t0)) * (tk - t0) * (M / 2) * H) xk (y tk).
Proof. exact C24_euler_converges_pf. Qed.
Print Assumptions C24_euler_converges.

(** C25.  With third derivatives bounded by M3 the error of the midpoint solver is at most a constant
    times the square of the largest step. *)
Theorem C25_midpoint_second_order :
  forall n f L y y2 y3 M2 M3 H t0 t1 ts fuel atol rtol interp all semi,
  field_on n f -> 0 <= L -> lipschitz n L f ->
  let T := last (t1 :: ts) t0 in
  solves n t0 T f y -> curve_derivative n t0 T (fun t => f t (y t)) y2 -> curve_derivative n t0 T y2 y3 ->
  0 <= M2 -> curve_bound n t0 T M2 y2 -> 0 <= M3 -> curve_bound n t0 T M3 y3 ->
  increasing (t0 :: t1 :: ts) -> separated (t0 :: t1 :: ts) -> steps_at_most H (t0 :: t1 :: ts) ->
  let Lam := L + (T - t0) * (L * L) / 2 in
  exists sol,
    snd (@odeint ROps fuel f (y t0) (@TTensor ROps (t0 :: t1 :: ts)) (Midpoint ROps) atol rtol interp all [] semi)
      = Ok (t0 :: t1 :: ts, sol) /\ List.length sol = List.length (t0 :: t1 :: ts) /\
    forall k tk xk, nth_error (t0 :: t1 :: ts) k = Some tk -> nth_error sol k = Some xk ->
      near n (exp (Lam * (tk - t0)) * (tk - t0) * (L * M2 / 8 + M3 / 24) * (H * H)) xk (y tk).
Proof. exact C25_midpoint_second_order_pf. Qed.
Print Assumptions C25_midpoint_second_order.

(** C25, exactness: if the field does not depend on the state and the third derivative of the solution
    vanishes (quadratic solutions), the midpoint solver returns the exact solution on every grid. *)
Theorem C25_quadratic_exact :
  forall n f y y2 y3 t0 t1 ts fuel atol rtol interp all semi M2,
  field_on n f -> (forall t x z, f t x = f t z) ->
  let T := last (t1 :: ts) t0 in
  solves n t0 T f y -> curve_derivative n t0 T (fun t => f t (y t)) y2 -> curve_derivative n t0 T y2 y3 ->
  0 <= M2 -> curve_bound n t0 T M2 y2 -> curve_bound n t0 T 0 y3 ->
  increasing (t0 :: t1 :: ts) -> separated (t0 :: t1 :: ts) ->
  exists sol,
    snd (@odeint ROps fuel f (y t0) (@TTensor ROps (t0 :: t1 :: ts)) (Midpoint ROps) atol rtol interp all [] semi)
      = Ok (t0 :: t1 :: ts, sol) /\ List.length sol = List.length (t0 :: t1 :: ts) /\
    forall k tk xk, nth_error (t0 :: t1 :: ts) k = Some tk -> nth_error sol k = Some xk ->
      near n 0 xk (y tk).
Proof. exact C25_quadratic_exact_pf. Qed.
Print Assumptions C25_quadratic_exact.

(** C25, the exponential: one midpoint step for y' = l y multiplies by 1 + z + z^2/2, z = l h. *)
Theorem C25_exponential :
  forall l x t0 t1 fuel atol rtol interp all semi, t0 < t1 -> separated [t0; t1] ->
  let z := l * (t1 - t0) in
  snd (@odeint ROps fuel (fun _ y => map (Rmult l) y) [x] (@TTensor ROps [t0; t1]) (Midpoint ROps) atol rtol interp all [] semi)
  = Ok ([t0; t1], [[x]; [(1 + z + z * z / 2) * x]]).
Proof. exact C25_exponential_pf. Qed.
Print Assumptions C25_exponential.

(** y' = y, y = exp on the grid 0, 1/2, 1 meets the hypotheses of C24 and C25. *)
Example C25_ex :
  let f := fun (_ : R) (x : list R) => x in let y := fun t => [exp t] in
  field_on 1 f /\ lipschitz 1 1 f /\ solves 1 0 1 f y /\
  curve_derivative 1 0 1 (fun t => f t (y t)) y /\ curve_derivative 1 0 1 y y /\ curve_bound 1 0 1 (exp 1) y /\
  increasing [0; 1/2; 1] /\ separated [0; 1/2; 1] /\ steps_at_most (1/2) [0; 1/2; 1].
Proof. exact C25_ex_pf. Qed.

