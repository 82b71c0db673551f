(** Property theorems (generated by tools/genprop.py from Pf_Block.v, which holds the proofs). *)
From Coq Require Import ZArith QArith Qreals Reals Lra Lia List Bool Floats.
From Verif Require Import Num Py Tensor M_SolversOde M_Utils M_Odeint M_Core M_Sens Spec_Ode Spec_RK Spec_Root.
From Verif Require Import L_Base L_Fixed L_Vec L_Steps L_Steps2 L_Fixed2 L_Jagged L_Conv L_Root L_Sens L_Inv Pf_Fixed Pf_Sens Pf_SensP.
Import ListNotations.
From Verif Require Import Pf_Block.
Import ListNotations.
Local Open Scope R_scope.

(** C119.  The chain rule for parameters.  F and G are the same vector field seen through different parameters: the
    parameters of F are a linear function theta = P^T eta of those of G, so that the vector-Jacobian
    products are related by the matrix P (given by its rows).  For every fixed-step Runge-Kutta solver the adjoint method
    returns for G the gradient P g, where g is the gradient it returns for F, and the same
    gradients of the initial state and the times.  Tied, scaled, split and unused parameters are instances. *)
Theorem C119_chain_rule :
  forall fuel (F G : adj_field (K := ROps)) n m P s rows b atol rtol t_sol sol gt gx,
  af_f G = af_f F -> af_vjp_x G = af_vjp_x F -> af_vjp_t G = af_vjp_t F -> af_dg G = af_dg F ->
  field_on n (af_f F) -> (forall t x w, length x = n -> length w = n -> length (af_vjp_x F t x w) = n) ->
  (forall dg t x, af_dg F = Some dg -> length x = n -> length (dg t x) = n) ->
  (forall t x w, length x = n -> length w = n -> length (@cat_params ROps (af_vjp_p F t x w)) = m /\
     @cat_params ROps (af_vjp_p G t x w) = map (fun row => dot row (@cat_params ROps (af_vjp_p F t x w))) P) ->
  erk_solver s rows b -> Forall (fun x => length x = n) sol -> Forall (fun g => length g = n) gx ->
  @adjoint_backward ROps fuel G (length P) s atol rtol t_sol sol gt gx =
  rmap (fun o : @adj_out ROps => @MkAdj ROps (map (fun row => dot row (ao_params o)) P) (ao_x o) (ao_tspan o))
    (@adjoint_backward ROps fuel F m s atol rtol t_sol sol gt gx).
Proof. exact C119_chain_rule_pf. Qed.
Print Assumptions C119_chain_rule.

(** C119, parameters that are not asked for: the products of F are a ++ c ++ d (p, q and r
    entries), those of G only c; the gradient for G is the corresponding part of the gradient for F. *)
Theorem C119_parameter_blocks :
  forall fuel (F G : adj_field (K := ROps)) n p q r s rows b atol rtol t_sol sol gt gx,
  af_f G = af_f F -> af_vjp_x G = af_vjp_x F -> af_vjp_t G = af_vjp_t F -> af_dg G = af_dg F ->
  field_on n (af_f F) -> (forall t x w, length x = n -> length w = n -> length (af_vjp_x F t x w) = n) ->
  (forall dg t x, af_dg F = Some dg -> length x = n -> length (dg t x) = n) ->
  (forall t x w, length x = n -> length w = n -> exists a c d, length a = p /\ length c = q /\ length d = r /\
     @cat_params ROps (af_vjp_p F t x w) = a ++ c ++ d /\ @cat_params ROps (af_vjp_p G t x w) = c) ->
  erk_solver s rows b -> Forall (fun x => length x = n) sol -> Forall (fun g => length g = n) gx ->
  @adjoint_backward ROps fuel G q s atol rtol t_sol sol gt gx =
  rmap (fun o : @adj_out ROps => @MkAdj ROps (firstn q (skipn p (ao_params o))) (ao_x o) (ao_tspan o))
    (@adjoint_backward ROps fuel F (p + q + r) s atol rtol t_sol sol gt gx).
Proof. exact C119_parameter_blocks_pf. Qed.
Print Assumptions C119_parameter_blocks.

(** C119, unused parameters: if autograd returns None for the only parameter (of one entry; this is the dummy parameter
    that ODEProblem registers if there is no other) its gradient is zero. *)
Theorem C119_unused :
  forall fuel (F : adj_field (K := ROps)) n s rows b atol rtol t_sol sol gt gx o,
  field_on n (af_f F) -> (forall t x w, length x = n -> length w = n -> length (af_vjp_x F t x w) = n) ->
  (forall dg t x, af_dg F = Some dg -> length x = n -> length (dg t x) = n) ->
  (forall t x w, af_vjp_p F t x w = [None]) ->
  erk_solver s rows b -> Forall (fun x => length x = n) sol -> Forall (fun g => length g = n) gx ->
  @adjoint_backward ROps fuel F 1 s atol rtol t_sol sol gt gx = Ok o -> ao_params o = [0].
Proof. exact C119_unused_pf. Qed.
Print Assumptions C119_unused.

Example C119_ex :
  let s := Euler ROps in
  field_on 1 (af_f affine_field) /\ (forall t x w, length (@cat_params ROps (af_vjp_p affine_field t x w)) = 2%nat) /\
  (forall t x w, @cat_params ROps (af_vjp_p tied_field t x w) = map (fun row => dot row (@cat_params ROps (af_vjp_p affine_field t x w))) [[1; 3]]) /\
  (forall t x w, @cat_params ROps (af_vjp_p affine_field t x w) = [dot x w] ++ @cat_params ROps (af_vjp_p bias_field t x w) ++ []).
Proof. exact C119_ex_pf. Qed.

(** C120, refuted: the adjoint solve controls the error of the state and the adjoint only, whatever
    seminorm is set to.  The problem x' = theta g(t), g(t) = max(0, 1/2 - |t|), x(0) = 0, at theta = 0: x(1) = theta / 8,
    so the gradient of x(1) is 1/8.  With dopri5 the adjoint method returns a number larger than 0.1269 for each of the
    tolerances 1e-3, 1e-6, 1e-9 (binary64, any power function). *)
Theorem C120_parameter_error_refuted :
  (forall theta t, 0 < t -> derivable_pt_lim (fun u => theta * (1 / 8 - (Rmax 0 (1 / 2 - u)) * (Rmax 0 (1 / 2 - u)) / 2)) t (theta * Rmax 0 (1 / 2 - Rabs t))) /\
  (forall theta, theta * (1 / 8 - (Rmax 0 (1 / 2 - 0)) * (Rmax 0 (1 / 2 - 0)) / 2) = 0) /\
  (forall theta, theta * (1 / 8 - (Rmax 0 (1 / 2 - 1)) * (Rmax 0 (1 / 2 - 1)) / 2) = theta * (1 / 8)) /\
  forall pw tol, In tol [0.001%float; 0x1.0c6f7a0b5ed8dp-20%float; 0x1.12e0be826d695p-30%float] ->
  let g := fun t : float => if PrimFloat.ltb (PrimFloat.abs t) 0.5 then (0.5 - PrimFloat.abs t)%float else 0%float in
  let F := @MkAF (FloatOps pw) (fun _ _ => [0%float]) (fun _ _ _ => [0%float]) (fun _ _ _ => None)
    (fun t _ w => [Some (map (fun a => (a * g t)%float) w)]) None in
  exists o y, @adjoint_backward (FloatOps pw) 40 F 1 (DormandPrince45 (FloatOps pw)) tol tol [0%float; 1%float] [[0%float]; [0%float]]
    [0%float; 0%float] [[0%float]; [1%float]] = Ok o /\ ao_params o = [y] /\ PrimFloat.ltb 0x1.04p-3 y = true.
Proof. exact C120_parameter_error_refuted_pf. Qed.
Print Assumptions C120_parameter_error_refuted.

(** C120, why: the acceptance test of the adjoint solve does not look at the parameter part. *)
Theorem C120_unchecked_components :
  forall (K : NumOps) atol rtol k (x x' y y' e e' : vec K),
  firstn k x = firstn k x' -> firstn k y = firstn k y' -> firstn k e = firstn k e' ->
  error_ratio atol rtol (Some k) x y e = error_ratio atol rtol (Some k) x' y' e'.
Proof. exact C120_unchecked_components_pf. Qed.
Print Assumptions C120_unchecked_components.

(** C121.  The parameter vector of a problem is the concatenation of the parameters of its vector field, it is never
    empty, and building a problem on the same field again does not change the parameters. *)
Theorem C121_tracked :
  forall (own opt : list (vec ROps)),
  snd (@init_params ROps own opt) = concat (fst (@init_params ROps own opt)) /\ fst (@init_params ROps own opt) <> [] /\
  (forall opt', fst (@init_params ROps (fst (@init_params ROps own opt)) opt') = fst (@init_params ROps own opt)) /\
  (own = [] -> opt <> [] -> fst (@init_params ROps own opt) = opt) /\
  (own <> [] -> fst (@init_params ROps own opt) = own).
Proof. exact C121_tracked_pf. Qed.
Print Assumptions C121_tracked.

(** C121, refuted: optimizable_params are dropped if the field has parameters, own or registered by an
    earlier problem; without parameters the first problem registers a dummy one. *)
Theorem C121_optimizable_params_refuted :
  (forall (p : vec ROps) own opt opt', @init_params ROps (p :: own) opt = @init_params ROps (p :: own) opt') /\
  fst (@init_params ROps [[1]] [[2]; [3]]) = [[1]] /\
  (let field := fst (@init_params ROps [] []) in fst (@init_params ROps field [[2]; [3]]) = field) /\
  (let field := fst (@init_params ROps [] [[2]]) in fst (@init_params ROps field [[3]]) = [[2]]).
Proof. exact C121_optimizable_params_refuted_pf. Qed.
Print Assumptions C121_optimizable_params_refuted.

