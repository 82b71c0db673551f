(** Property theorems (generated by tools/genprop.py from Pf_Implicit.v, which holds the proofs). *)
From Coq Require Import ZArith QArith Reals Lra Lia List Bool Floats.
From Verif Require Import Num Py Tensor M_Constants M_SolversOde M_Utils M_Interp M_Odeint M_Autograd M_Implicit.
From Verif Require Import Spec_Ode Spec_Autograd L_Base L_Fixed L_Vec L_Steps L_Rel Pf_Fixed Pf_Values Pf_Autograd.
Import ListNotations.
Local Notation length := List.length.
From Verif Require Import Pf_Implicit.
Import ListNotations.
Local Open Scope R_scope.

(** C153: what autograd sees.  In any arithmetic, for any optimiser, field, grid and initial state, with derivatives given to parameters, times and the
    initial state in any way: every state returned by a solve with implicit Euler is the initial state itself or has derivative 0. *)
Theorem C153_leaf : forall (K : NumOps) (m : (vec K -> K) -> vec K -> vec K) (F : DualOps K -> vec (DualOps K) -> vec (DualOps K))
    (fuel : nat) (X : vec (DualOps K)) ts atol rtol interp all save_at semi times sol,
  snd (odeint_autograd fuel F X ts (ImplicitEuler_autograd m) atol rtol interp all save_at semi) = Ok (times, sol) ->
  Forall (fun s => s = X \/ no_gradient s) sol.
Proof. exact C153_leaf_pf. Qed.
Print Assumptions C153_leaf.

(** C153 (partial): recording gradients does not change the values.  The solve has the values and exceptions of the solve without gradients, for every
    optimiser that depends on the values of its objective only. *)
Theorem C153_values_partial : forall (K : NumOps) (m : (vec K -> K) -> vec K -> vec K) (F : DualOps K -> vec (DualOps K) -> vec (DualOps K)) (f : K -> vec K -> vec K)
    (fuel : nat) (X : vec (DualOps K)) ts atol rtol interp all save_at semi,
  sees_values m -> values_of F f ->
  plain_res (snd (odeint_autograd fuel F X ts (ImplicitEuler_autograd m) atol rtol interp all save_at semi)) =
  snd (odeint fuel f (plain_vec X) (plain_tspan ts) (ImplicitEuler m) (plain atol) (plain rtol) interp all (plain_vec save_at) semi).
Proof. exact C153_values_partial_pf. Qed.
Print Assumptions C153_values_partial.

(** C153 fails.  x' = theta x from x = 1 over [0, 1], theta <> 1, with any optimiser that depends on the values of its objective only and finds the zeros of
    quadratic objectives in one unknown: the solve returns 1 / (1 - theta), for every theta; its derivative in theta is 1 / (1 - theta)^2, not 0; autograd, asked
    for the derivative in theta, returns 0. *)
Theorem C153_gradient_refuted : forall (m : (list R -> R) -> list R -> list R) fuel theta atol rtol atol' rtol' interp all semi,
  @sees_values ROps m -> finds_zeros m -> theta <> 1 ->
  let F := fun (_ : R * R) (Y : list (R * R)) => map (@nmul DR (theta, 1)) Y in
  let f := fun (e _ : R) (y : list R) => map (Rmult (theta + e)) y in
  tracks_field 1 F f /\
  (forall e, theta + e <> 1 ->
     snd (@odeint ROps fuel (f e) [1] (@TTensor ROps [0; 1]) (@ImplicitEuler ROps m) atol rtol interp all [] semi) = Ok ([0; 1], [[1]; [/ (1 - (theta + e))]])) /\
  (exists times, snd (@odeint_autograd ROps fuel F [(1, 0)] (@TTensor DR [(0, 0); (1, 0)]) (@ImplicitEuler_autograd ROps m) atol' rtol' interp all [] semi)
     = Ok (times, [[(1, 0)]; [(/ (1 - theta), 0)]])) /\
  derivable_pt_lim (fun e => / (1 - (theta + e))) 0 (/ ((1 - theta) * (1 - theta))) /\ / ((1 - theta) * (1 - theta)) <> 0.
Proof. exact C153_gradient_refuted_pf. Qed.
Print Assumptions C153_gradient_refuted.

(** The hypotheses of C153 are met by the optimiser [parabola]. *)
Example C153_ex : @sees_values ROps parabola /\ finds_zeros parabola.
Proof. exact C153_ex_pf. Qed.

