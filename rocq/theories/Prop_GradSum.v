(** Property theorems (generated by tools/genprop.py from Pf_GradSum.v, which holds the proofs). *)
From Coq Require Import ZArith QArith Qreals Reals Lra Lia List Bool.
From Verif Require Import Num Py Tensor M_SolversOde M_Utils M_Odeint M_Core M_Sens Spec_Ode Spec_RK Spec_Root.
From Verif Require Import L_Base L_Fixed L_Vec L_Steps L_Steps2 L_Fixed2 L_Jagged L_Conv L_Root L_Sens L_Inv Pf_Fixed Pf_Sens Pf_SensP Pf_Block.
From Verif Require Pf_Calls.
Import ListNotations.
From Verif Require Import Pf_GradSum.
Import ListNotations.
Local Open Scope R_scope.

(** C179, adjoint: gradients of losses L1 and L2 that share a forward solve add up: the backward pass for the
    cotangents of a L1 + b L2 returns a times the gradients of L1 plus b times those of L2 (parameters, initial
    state, ends of the time span), and raises if and only if one of the two raises.  With an integral loss this
    needs a + b = 1, as the integral is part of every backward pass. *)
Theorem C179_adjoint_linear :
  forall fuel (F : adj_field (K := ROps)) n m s rows bb atol rtol t_sol sol gt1 gt2 gx1 gx2 a b,
  field_on n (af_f F) -> linear_products n m F -> (forall dg t x, af_dg F = Some dg -> length x = n -> length (dg t x) = n) ->
  (af_dg F = None \/ a + b = 1) -> erk_solver s rows bb ->
  Forall (fun x => length x = n) sol -> Forall (fun g => length g = n) gx1 -> Forall (fun g => length g = n) gx2 ->
  length gx2 = length gx1 -> length gt2 = length gt1 ->
  @adjoint_backward ROps fuel F m s atol rtol t_sol sol (mix a b gt1 gt2) (map2 (mix a b) gx1 gx2) =
  rbind (@adjoint_backward ROps fuel F m s atol rtol t_sol sol gt1 gx1) (fun o1 =>
  rbind (@adjoint_backward ROps fuel F m s atol rtol t_sol sol gt2 gx2) (fun o2 =>
  Ok (@MkAdj ROps (mix a b (ao_params o1) (ao_params o2)) (mix a b (ao_x o1) (ao_x o2)) (mix a b (ao_tspan o1) (ao_tspan o2))))).
Proof. exact C179_adjoint_linear_pf. Qed.
Print Assumptions C179_adjoint_linear.

(** C179, interpolated adjoint: the same; the result is (gradient of the parameters, gradient of the initial state). *)
Theorem C179_interpolated_linear :
  forall fuel (F : adj_field (K := ROps)) path n m s rows bb atol rtol t_span gx1 gx2 a b,
  linear_products n m F -> (forall dg t x, af_dg F = Some dg -> length x = n -> length (dg t x) = n) -> (forall t, length (path t) = n) -> (0 < m)%nat ->
  (af_dg F = None \/ a + b = 1) -> erk_solver s rows bb ->
  Forall (fun g => length g = n) gx1 -> Forall (fun g => length g = n) gx2 -> length gx2 = length gx1 ->
  @interp_adjoint_backward ROps fuel F path m s atol rtol t_span (map2 (mix a b) gx1 gx2) =
  rbind (@interp_adjoint_backward ROps fuel F path m s atol rtol t_span gx1) (fun o1 =>
  rbind (@interp_adjoint_backward ROps fuel F path m s atol rtol t_span gx2) (fun o2 =>
  Ok (mix a b (fst o1) (fst o2), mix a b (snd o1) (snd o2)))).
Proof. exact C179_interpolated_linear_pf. Qed.
Print Assumptions C179_interpolated_linear.

(** f(t, x) = theta_1 x + theta_2 at theta = (2, 1): its products are linear, and the gradients of x(1) and of x(1/2)
    with euler are different from zero *)
Example C179_ex :
  field_on 1 (af_f affine_field) /\ linear_products 1 2 affine_field /\ af_dg affine_field = None /\
  @adjoint_backward ROps 0 affine_field 2 (Euler ROps) 0 0 [0; 1] [[1]; [4]] [0; 0] [[0]; [1]] = Ok (@MkAdj ROps [4; 1] [3] [-27; 9]).
Proof. exact C179_ex_pf. Qed.

