(** Property theorems (generated by tools/genprop.py from Pf_Stiff.v, which holds the proofs). *)
From Coq Require Import ZArith Reals Lra Lia List Bool Psatz.
From Verif Require Import Num Py Tensor M_Constants M_SolversOde M_Utils M_Interp M_Odeint M_Autograd M_Implicit M_Models.
From Verif Require Import Spec_Ode Spec_Norm Spec_RK Spec_Root Spec_Conv Spec_Inv Spec_Lin Spec_Models.
From Verif Require Import L_Base L_Fixed L_Vec L_Steps L_Steps2 L_Utils L_Fixed2 L_Root L_Models L_Conv Pf_Models Pf_Fixed L_Reach L_Inv Pf_Lin Pf_Diss Pf_Descent Pf_Implicit.
Import ListNotations.
From Verif Require Import Pf_Stiff.
Import ListNotations.
Local Open Scope R_scope.

(** C174.  Two solves with implicit Euler of a field with (f(y) - f(z)).(y - z) <= - mu |y - z|^2, mu >= 0, on any increasing grid,
    however large the steps and however stiff the field: the distance is multiplied by at most 1 / (1 + mu h) in every step, plus what the
    optimiser leaves of the residuals. *)
Theorem C174_contraction :
  forall fuel n mu eps f minimize x x' t0 t1 ts atol rtol interp all semi times sol times' sol',
  field_on n f -> one_sided n mu f -> 0 <= mu -> 0 <= eps -> solves_steps n eps f minimize -> List.length x = n -> List.length x' = n ->
  separated (t0 :: t1 :: ts) -> (forall h, In h (spacings (t0 :: t1 :: ts)) -> 0 <= h) ->
  snd (@odeint ROps fuel f x (@TTensor ROps (t0 :: t1 :: ts)) (@ImplicitEuler ROps minimize) atol rtol interp all [] semi) = Ok (times, sol) ->
  snd (@odeint ROps fuel f x' (@TTensor ROps (t0 :: t1 :: ts)) (@ImplicitEuler ROps minimize) atol rtol interp all [] semi) = Ok (times', sol') ->
  List.length sol = List.length (t0 :: t1 :: ts) /\ List.length sol' = List.length (t0 :: t1 :: ts) /\
  forall i y y', nth_error sol i = Some y -> nth_error sol' i = Some y' ->
  distance y y' <= grid_product (fun h => / (1 + mu * h)) (t0 :: t1 :: ts) i * distance x x' + INR i * (2 * eps).
Proof. exact C174_contraction_pf. Qed.
Print Assumptions C174_contraction.

(** C174.  An equilibrium z attracts every solution, at any step size. *)
Theorem C174_equilibrium :
  forall fuel n mu eps f minimize x z t0 t1 ts atol rtol interp all semi times sol,
  field_on n f -> one_sided n mu f -> 0 <= mu -> 0 <= eps -> solves_steps n eps f minimize -> List.length x = n -> List.length z = n ->
  (forall t j, nth j (f t z) 0 = 0) ->
  separated (t0 :: t1 :: ts) -> (forall h, In h (spacings (t0 :: t1 :: ts)) -> 0 <= h) ->
  snd (@odeint ROps fuel f x (@TTensor ROps (t0 :: t1 :: ts)) (@ImplicitEuler ROps minimize) atol rtol interp all [] semi) = Ok (times, sol) ->
  List.length sol = List.length (t0 :: t1 :: ts) /\
  forall i y, nth_error sol i = Some y ->
  distance y z <= grid_product (fun h => / (1 + mu * h)) (t0 :: t1 :: ts) i * distance x z + INR i * eps.
Proof. exact C174_equilibrium_pf. Qed.
Print Assumptions C174_equilibrium.

(** C174.  First-order accuracy with a constant that does not depend on the stiffness (no Lipschitz constant of f enters): if the true solution has
    second derivatives bounded by M and f depends on time at rate at most K along it, the error at time t is at most
    sqrt n (M / 2 + K) H (t - t0) + i eps, H being the largest step.  (The step evaluates f at the old time, line 190; this is where K enters.) *)
Theorem C174_accuracy :
  forall fuel n mu eps f minimize y ydd M K H t0 t1 ts T atol rtol interp all semi times sol,
  field_on n f -> one_sided n mu f -> 0 <= mu -> 0 <= eps -> solves_steps n eps f minimize -> 0 <= M -> 0 <= K ->
  solves n t0 T f y -> curve_derivative n t0 T (fun t => f t (y t)) ydd -> curve_bound n t0 T M ydd ->
  (forall s t j, t0 <= s <= t -> t <= T -> (j < n)%nat -> Rabs (nth j (f t (y t)) 0 - nth j (f s (y t)) 0) <= K * (t - s)) ->
  separated (t0 :: t1 :: ts) -> increasing (t0 :: t1 :: ts) -> (forall h, In h (spacings (t0 :: t1 :: ts)) -> 0 <= h <= H) -> last (t1 :: ts) t0 <= T ->
  snd (@odeint ROps fuel f (y t0) (@TTensor ROps (t0 :: t1 :: ts)) (@ImplicitEuler ROps minimize) atol rtol interp all [] semi) = Ok (times, sol) ->
  List.length sol = List.length (t0 :: t1 :: ts) /\
  forall i t x, nth_error (t0 :: t1 :: ts) i = Some t -> nth_error sol i = Some x ->
  distance x (y t) <= sqrt (INR n) * (M / 2 + K) * H * (t - t0) + INR i * eps.
Proof. exact C174_accuracy_pf. Qed.
Print Assumptions C174_accuracy.

(** C172, implicit Euler.  For convex energies every step, of any length h >= 0, lowers the energy by at least h |grad E|^2 at the new state, up to
    eps |grad E|: no smoothness constant and no step limit. *)
Theorem C172_implicit_descent :
  forall fuel n E G grad_sum eps minimize x t0 t1 ts atol rtol interp all semi times sol,
  (forall y, List.length y = n -> gradient E y (G y)) -> gradient_of_sum n E grad_sum -> convex_energy n E G -> 0 <= eps ->
  solves_steps n eps (gnf_field grad_sum) minimize -> List.length x = n ->
  separated (t0 :: t1 :: ts) -> (forall h, In h (spacings (t0 :: t1 :: ts)) -> 0 <= h) ->
  snd (@odeint ROps fuel (gnf_field grad_sum) x (@TTensor ROps (t0 :: t1 :: ts)) (@ImplicitEuler ROps minimize) atol rtol interp all [] semi) = Ok (times, sol) ->
  List.length sol = List.length (t0 :: t1 :: ts) /\
  forall i y y', nth_error sol i = Some y -> nth_error sol (S i) = Some y' ->
  E y' + nth i (spacings (t0 :: t1 :: ts)) 0 * dot (G y') (G y') <= E y + eps * euclid (G y').
Proof. exact C172_implicit_descent_pf. Qed.
Print Assumptions C172_implicit_descent.

(** The stiff equation y' = - 10^6 y meets all hypotheses with mu = 10^6, eps = 0 and an optimiser that finds the minimum of a parabola; on the
    grid 0, 1, 3 the Euler method multiplies the state by -999999 and -1999999. *)
Example C174_ex :
  let f := fun (_ : R) => map (Rmult (- 10 ^ 6)) in
  field_on 1 f /\ one_sided 1 (10 ^ 6) f /\ solves_steps 1 0 f parabola /\ (forall t j, nth j (f t [0]) 0 = 0) /\ separated [0; 1; 3] /\
  (forall h, In h (spacings [0; 1; 3]) -> 0 <= h <= 2) /\ solves 1 0 3 f (fun t => [exp (- 10 ^ 6 * t)]) /\
  snd (@odeint ROps 0 f [1] (@TTensor ROps [0; 1; 3]) (Euler ROps) (1 / 10 ^ 3) (1 / 10 ^ 3) false true [] None)
  = Ok ([0; 1; 3], [[1]; [- 999999]; [- 999999 * - 1999999]]).
Proof. exact C174_ex_pf. Qed.

(** |y|^2 / 2 in one unknown meets the hypotheses of the implicit descent. *)
Example C172_implicit_ex :
  (forall y, List.length y = 1%nat -> gradient (fun y => dot y y / 2) y y) /\ gradient_of_sum 1 (fun y => dot y y / 2) (map (fun y => y)) /\
  convex_energy 1 (fun y => dot y y / 2) (fun y => y) /\ solves_steps 1 0 (gnf_field (map (fun y => y))) parabola.
Proof. exact C172_implicit_ex_pf. Qed.

