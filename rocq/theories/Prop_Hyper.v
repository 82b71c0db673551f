(** Property theorems (generated by tools/genprop.py from Pf_Hyper.v, which holds the proofs). *)
From Coq Require Import ZArith QArith Qreals Reals Lra Lia List Bool Sorted Factorial.
From Verif Require Import Num Py Tensor M_Constants M_SolversOde M_Utils M_Interp M_Odeint.
From Verif Require Import Spec_Ode Spec_Trees Spec_RK Spec_Norm Spec_Adaptive Spec_Conv Spec_Inv Spec_Order.
From Verif Require Import L_Base L_Fixed L_Vec L_Steps L_Tables L_Steps2 L_Interp L_Utils L_Fixed2 L_Adaptive L_Run.
From Verif Require Import L_Adaptive2 L_Adaptive3 L_Adaptive4 L_Conv Pf_Fixed Pf_Adaptive L_Reach L_Inv L_Order L_Order2 Pf_Conv Pf_Order.
Import ListNotations.
Local Notation length := List.length.
From Verif Require Import Pf_Hyper.
Import ListNotations.
Local Open Scope R_scope.

(** C145.  Along the exact solution y the correction network misses the scaled residual of the base method by at most delta.  Then
    the states returned by odeint with the hypersolver are within exp(Lam (t_k - t0)) (t_k - t0) delta H^p of y, H the largest step,
    Lam the growth constant of the base method plus (T - t0)^p times the Lipschitz constant of the network. *)
Theorem C145_hypersolver_error :
  forall g s base p rows b n f L Lg y delta H t0 t1 ts fuel atol rtol interp all semi,
  hypersolver g s base p -> builtin_fixed base rows b -> field_on n f -> field_on n g ->
  0 <= L -> lipschitz n L f -> 0 <= Lg -> lipschitz n Lg g ->
  let T := last (t1 :: ts) t0 in
  (forall t, length (y t) = n) -> 0 <= delta ->
  (forall t h, t0 <= t -> 0 < h <= H -> t + h <= T -> forall i, (i < n)%nat ->
     Rabs ((nth i (y (t + h)) 0 - nth i (erk_step rows b f t h (y t)) 0) / h ^ S p - nth i (g t (y t)) 0) <= delta) ->
  increasing (t0 :: t1 :: ts) -> separated (t0 :: t1 :: ts) -> steps_at_most H (t0 :: t1 :: ts) ->
  let Lam := growth L (T - t0) rows b + (T - t0) ^ p * Lg in
  exists sol,
    snd (@odeint ROps fuel f (y t0) (@TTensor ROps (t0 :: t1 :: ts)) s atol rtol interp all [] semi) = Ok (t0 :: t1 :: ts, sol) /\
    length sol = length (t0 :: t1 :: ts) /\
    forall k tk xk, nth_error (t0 :: t1 :: ts) k = Some tk -> nth_error sol k = Some xk ->
      near n (exp (Lam * (tk - t0)) * (tk - t0) * delta * H ^ p) xk (y tk).
Proof. exact C145_hypersolver_error_pf. Qed.
Print Assumptions C145_hypersolver_error.

(** C145 for HyperEuler: if the network is within eps of half the second derivative of the solution, and the third derivative is at
    most M, the error is at most exp(..) (t_k - t0) (eps H + M/6 H^2): second order up to the error of the network. *)
Theorem C145_hyper_euler :
  forall g n f L Lg y y2 y3 eps M H t0 t1 ts fuel atol rtol interp all semi,
  field_on n f -> field_on n g -> 0 <= L -> lipschitz n L f -> 0 <= Lg -> lipschitz n Lg g ->
  let T := last (t1 :: ts) t0 in
  solves n t0 T f y -> curve_derivative n t0 T (fun t => f t (y t)) y2 -> curve_derivative n t0 T y2 y3 ->
  0 <= M -> curve_bound n t0 T M y3 -> 0 <= eps ->
  (forall t i, t0 <= t <= T -> (i < n)%nat -> Rabs (nth i (y2 t) 0 / 2 - nth i (g t (y t)) 0) <= eps) ->
  increasing (t0 :: t1 :: ts) -> separated (t0 :: t1 :: ts) -> steps_at_most H (t0 :: t1 :: ts) ->
  let Lam := L + (T - t0) * Lg in
  exists sol,
    snd (@odeint ROps fuel f (y t0) (@TTensor ROps (t0 :: t1 :: ts)) (@HyperEuler ROps g) atol rtol interp all [] semi) = Ok (t0 :: t1 :: ts, sol) /\
    length sol = length (t0 :: t1 :: ts) /\
    forall k tk xk, nth_error (t0 :: t1 :: ts) k = Some tk -> nth_error sol k = Some xk ->
      near n (exp (Lam * (tk - t0)) * (tk - t0) * (eps * H + M / 6 * (H * H))) xk (y tk).
Proof. exact C145_hyper_euler_pf. Qed.
Print Assumptions C145_hyper_euler.

(** C145: y' = y with the network x/2 (the exact correction), and with (1/2 + 1/100) x *)
Example C145_ex :
  let f := fun (_ : R) (x : list R) => x in let y := fun t => [exp t] in
  let g := fun (_ : R) (x : list R) => map (Rmult (51 / 100)) x in
  field_on 1 f /\ field_on 1 g /\ lipschitz 1 1 f /\ lipschitz 1 (51 / 100) g /\
  solves 1 0 1 f y /\ curve_derivative 1 0 1 (fun t => f t (y t)) y /\ curve_bound 1 0 1 (exp 1) y /\
  (forall t i, 0 <= t <= 1 -> (i < 1)%nat -> Rabs (nth i (y t) 0 / 2 - nth i (g t (y t)) 0) <= exp 1 / 100) /\
  hypersolver g (@HyperEuler ROps g) (Euler ROps) 1.
Proof. exact C145_ex_pf. Qed.

(** C146 (what the code does).  For decreasing grids the hypersolver steps negatively with the network (-1)^(p+1) g(-t, x) in place of g(t, x). *)
Theorem C146_reversed_network :
  forall g s base p rows b n f x t0 t1 ts fuel atol rtol interp all semi,
  hypersolver g s base p -> builtin_fixed base rows b -> field_on n f -> field_on n g -> length x = n ->
  separated (t0 :: t1 :: ts) -> t1 < t0 ->
  rmap snd (snd (@odeint ROps fuel f x (@TTensor ROps (t0 :: t1 :: ts)) s atol rtol interp all [] semi))
  = Ok (one_step_traj (corrected rows b f p (fun t z => map (Rmult ((- (1)) ^ S p)) (g (- t) z))) x (t0 :: t1 :: ts)).
Proof. exact C146_reversed_network_pf. Qed.
Print Assumptions C146_reversed_network.

(** C146 (the true part).  HyperEuler with a network that ignores time: reversed time is negative stepping. *)
Theorem C146_hyper_euler_partial :
  forall g n f x t0 t1 ts fuel atol rtol interp all semi,
  field_on n f -> field_on n g -> (forall t t' z, g t z = g t' z) -> length x = n -> separated (t0 :: t1 :: ts) -> t1 < t0 ->
  rmap snd (snd (@odeint ROps fuel f x (@TTensor ROps (t0 :: t1 :: ts)) (@HyperEuler ROps g) atol rtol interp all [] semi))
  = Ok (one_step_traj (corrected (to_R_rows q_euler) (to_R qb_euler) f 1 g) x (t0 :: t1 :: ts)).
Proof. exact C146_hyper_euler_partial_pf. Qed.
Print Assumptions C146_hyper_euler_partial.

(** C146 (REFUTED).  Zero field.  From time 1 back to 0, one step: HyperMidpoint with the constant network 1 must subtract 1 (the cube of the
    step -1) and adds it; HyperEuler with the network t must add 1 (the network at time 1) and subtracts it. *)
Theorem C146_reversed_refuted :
  forall fuel atol rtol interp all semi,
  (let g := fun (_ : R) (_ : list R) => [1] in
   rmap snd (snd (@odeint ROps fuel (fun _ _ => [0]) [0] (@TTensor ROps [1; 0]) (@HyperMidpoint ROps g) atol rtol interp all [] semi)) = Ok [[0]; [1]] /\
   one_step_traj (corrected (to_R_rows q_midpoint) (to_R qb_midpoint) (fun _ _ => [0]) 2 g) [0] [1; 0] = [[0]; [- (1)]]) /\
  (let g := fun (t : R) (_ : list R) => [t] in
   rmap snd (snd (@odeint ROps fuel (fun _ _ => [0]) [0] (@TTensor ROps [1; 0]) (@HyperEuler ROps g) atol rtol interp all [] semi)) = Ok [[0]; [- (1)]] /\
   one_step_traj (corrected (to_R_rows q_euler) (to_R qb_euler) (fun _ _ => [0]) 1 g) [0] [1; 0] = [[0]; [1]]).
Proof. exact C146_reversed_refuted_pf. Qed.
Print Assumptions C146_reversed_refuted.

