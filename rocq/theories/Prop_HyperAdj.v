(** Property theorems (generated by tools/genprop.py from Pf_HyperAdj.v, which holds the proofs). *)
From Coq Require Import ZArith QArith Qreals Reals Lra Lia List Bool.
From Verif Require Import Num Py Tensor M_Constants M_SolversOde M_Utils M_Interp M_Odeint M_Sens M_Hyper.
From Verif Require Import Spec_Ode Spec_Trees Spec_RK.
From Verif Require Import L_Base L_Fixed L_Vec L_Steps L_Steps2 L_Fixed2 Pf_Fixed L_Reach L_Inv Pf_Hyper.
Import ListNotations.
Local Notation length := List.length.
From Verif Require Import Pf_HyperAdj.
Import ListNotations.
Local Open Scope R_scope.

(** C147 (REFUTED).  The adjoint solver defaults to the solver of the forward pass, so the correction network is applied to the
    concatenation of state, adjoint, parameter gradients and time gradient.  For every vector field, every state with at least one
    element, every number of parameters, any arithmetic: if the network accepts the states of the equation only, the backward pass raises. *)
Theorem C147_backward_raises_refuted :
  forall (K : NumOps) fuel n g s F nmu atol rtol t_sol sol gt gx, sized_hypersolver n g s ->
  (forall x, In x sol -> length x = n) -> (forall w, In w gx -> length w = n) ->
  length sol = length t_sol -> length gx = length t_sol -> length gt = length t_sol -> (2 <= length t_sol)%nat ->
  exists e, @adjoint_backward K fuel F nmu s atol rtol t_sol sol gt gx = Err e /\ (e = RuntimeError \/ e = AssertionError).
Proof. exact C147_backward_raises_refuted_pf. Qed.
Print Assumptions C147_backward_raises_refuted.

(** C147 (the true part).  The forward pass is that of the hypersolver: on states of the right size the network never raises, whatever
    grid and save_at (reversed time included). *)
Theorem C147_forward_partial :
  forall fuel n g s s' base p f x ts atol rtol interp all save_at semi,
  (s = HyperEulerN n g /\ s' = @HyperEuler ROps g \/ s = HyperMidpointN n g /\ s' = @HyperMidpoint ROps g \/
   s = HyperRungeKutta4N n g /\ s' = @HyperRungeKutta4 ROps g) ->
  hypersolver g s' base p -> field_on n f -> field_on n g -> length x = n ->
  snd (@odeint ROps fuel f x (@TTensor ROps ts) s atol rtol interp all save_at semi) =
  snd (@odeint ROps fuel f x (@TTensor ROps ts) s' atol rtol interp all save_at semi).
Proof. exact C147_forward_partial_pf. Qed.
Print Assumptions C147_forward_partial.

(** C147: a hypersolver whose network accepts states with one element; the forward solve returns, the backward pass raises. *)
Example C147_ex :
  let g := fun (_ : R) (x : list R) => map (Rmult (/ 2)) x in let f := fun (_ : R) (x : list R) => x in
  @sized_hypersolver ROps 1 g (@HyperEulerN ROps 1 g) /\
  (exists times sol, snd (@odeint ROps 0 f [1] (@TTensor ROps [0; 1]) (@HyperEulerN ROps 1 g) 0 0 false false [] None) = Ok (times, sol)) /\
  (forall F : @adj_field ROps, exists e, @adjoint_backward ROps 0 F 1 (@HyperEulerN ROps 1 g) 0 0 [0; 1] [[1]; [5 / 2]] [0; 0] [[0]; [1]] = Err e /\ (e = RuntimeError \/ e = AssertionError)).
Proof. exact C147_ex_pf. Qed.

