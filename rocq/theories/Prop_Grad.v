(** Property theorems (generated by tools/genprop.py from Pf_Grad.v, which holds the proofs). *)
From Coq Require Import ZArith QArith Qreals Reals Lra Lia List Bool.
From Verif Require Import Num Py Tensor M_SolversOde M_Utils M_Odeint M_Root M_Sens Spec_Ode Spec_Trees Spec_RK Spec_Root Spec_Sens Spec_Conv Spec_Grad.
From Verif Require Import L_Base L_Fixed L_Vec L_Steps L_Steps2 L_Tables L_Fixed2 L_Root L_Sens L_SensP L_Conv L_Models L_Tangent Pf_Fixed Pf_Sens Pf_SensP L_Adj L_Adj2.
Import ListNotations.
Local Notation length := List.length.
Local Notation rvl := (list R).
From Verif Require Import Pf_Grad.
Import ListNotations.
Local Open Scope R_scope.

(** C114: nonlinear f(t, x, p), two explicit Runge-Kutta methods with weights that sum to one (forward and backward).
    [gx] are the gradients of the loss with respect to the returned states.  For every perturbation of the
    initial state and of the parameters of size E, the change of the loss predicted by the adjoint is the change computed
    by the perturbed solve up to C |gx| E (H + E), where H bounds the steps of the grid, and C depends only on the methods, the
    Lipschitz constant L, the length T of the interval and the initial speed M. *)
Theorem C114_adjoint_first_order :
  forall L M T rows b rows' b', 0 <= L -> 0 <= M -> 0 <= T -> consistent rows b -> consistent rows' b' ->
  exists C, 0 <= C /\
  forall fuel fuel' s s' n m (f : rvl -> R -> rvl -> rvl) p D (F : adj_field (K := ROps)) x t0 t1 ts H gt gx atol rtol atol' rtol' interp,
  erk_solver s rows b -> erk_solver s' rows' b' -> smooth_family n m L f p D ->
  af_f F = f p -> transposes n m D (af_vjp_x F) (fun t x w => @cat_params ROps (af_vjp_p F t x w)) -> af_dg F = None ->
  separated (t0 :: t1 :: ts) -> increasing (t0 :: t1 :: ts) -> last (t0 :: t1 :: ts) 0 - t0 <= T -> 0 <= H -> steps_at_most H (t0 :: t1 :: ts) ->
  length x = n -> within n M (f p t0 x) ->
  length gx = length (t0 :: t1 :: ts) -> length gt = length (t0 :: t1 :: ts) -> Forall (fun g => length g = n) gx ->
  let solve p x := snd (@odeint ROps fuel (f p) x (@TTensor ROps (t0 :: t1 :: ts)) s atol rtol interp false [] None) in
  exists t_sol sol out, solve p x = Ok (t_sol, sol) /\
    @adjoint_backward ROps fuel' F m s' atol' rtol' t_sol sol gt gx = Ok out /\ length (ao_x out) = n /\ length (ao_params out) = m /\
    forall p' x' E, length p' = m -> length x' = n -> 0 <= E -> near n E x' x -> near m E p' p ->
      exists sol', solve p' x' = Ok (t_sol, sol') /\
      Rabs (pairing gx sol' - pairing gx sol - (dot (ao_x out) (minus_vec x' x) + dot (ao_params out) (minus_vec p' p))) <= C * total gx * E * (H + E).
Proof. exact C114_adjoint_first_order_pf. Qed.
Print Assumptions C114_adjoint_first_order.

(** C114: if the loss of the solve has a derivative d in the direction (v, w) of initial state and parameters, then the adjoint
    gradient predicts d up to C |gx| V H: its error is at most proportional to the step bound H. *)
Theorem C114_gradient_error :
  forall L M T rows b rows' b', 0 <= L -> 0 <= M -> 0 <= T -> consistent rows b -> consistent rows' b' ->
  exists C, 0 <= C /\
  forall fuel fuel' s s' n m (f : rvl -> R -> rvl -> rvl) p D (F : adj_field (K := ROps)) x t0 t1 ts H gt gx atol rtol atol' rtol' interp,
  erk_solver s rows b -> erk_solver s' rows' b' -> smooth_family n m L f p D ->
  af_f F = f p -> transposes n m D (af_vjp_x F) (fun t x w => @cat_params ROps (af_vjp_p F t x w)) -> af_dg F = None ->
  separated (t0 :: t1 :: ts) -> increasing (t0 :: t1 :: ts) -> last (t0 :: t1 :: ts) 0 - t0 <= T -> 0 <= H -> steps_at_most H (t0 :: t1 :: ts) ->
  length x = n -> within n M (f p t0 x) ->
  length gx = length (t0 :: t1 :: ts) -> length gt = length (t0 :: t1 :: ts) -> Forall (fun g => length g = n) gx ->
  let solve p x := snd (@odeint ROps fuel (f p) x (@TTensor ROps (t0 :: t1 :: ts)) s atol rtol interp false [] None) in
  exists t_sol sol out, solve p x = Ok (t_sol, sol) /\ @adjoint_backward ROps fuel' F m s' atol' rtol' t_sol sol gt gx = Ok out /\
    forall v w V (loss : R -> R) d, length v = n -> length w = m -> 0 <= V -> within n V v -> within m V w ->
      (forall e t_sol' sol', solve (axpy e w p) (axpy e v x) = Ok (t_sol', sol') -> loss e = pairing gx sol') ->
      derivable_pt_lim loss 0 d ->
      Rabs (d - (dot (ao_x out) v + dot (ao_params out) w)) <= C * total gx * V * H.
Proof. exact C114_gradient_error_pf. Qed.
Print Assumptions C114_gradient_error.

(** The built-in fixed-step solvers are explicit Runge-Kutta methods with weights that sum to one *)
Theorem C114_solvers :
  (erk_solver (Euler ROps) (to_R_rows q_euler) (to_R qb_euler) /\ consistent (to_R_rows q_euler) (to_R qb_euler)) /\
  (erk_solver (Midpoint ROps) (to_R_rows q_midpoint) (to_R qb_midpoint) /\ consistent (to_R_rows q_midpoint) (to_R qb_midpoint)) /\
  (erk_solver (RungeKutta4 ROps) (to_R_rows q_rk4_code) (to_R qb_rk4) /\ consistent (to_R_rows q_rk4_code) (to_R qb_rk4)).
Proof. exact C114_solvers_pf. Qed.
Print Assumptions C114_solvers.

(** f(t, x, p) = sin (x + p) + t in dimension 1, with its derivative and vector-Jacobian products, meets the hypotheses *)
Example C114_ex :
  let f := fun (p : rvl) (t : R) (x : rvl) => [sin (nth 0 x 0 + nth 0 p 0) + t] in
  let D := fun (t : R) (x u q : rvl) => [cos (nth 0 x 0 + 3) * (nth 0 u 0 + nth 0 q 0)] in
  let vjp := fun (t : R) (x w : rvl) => [cos (nth 0 x 0 + 3) * nth 0 w 0] in
  let F := @MkAF ROps (f [3]) vjp (fun _ _ w => None) (fun t x w => [Some (vjp t x w)]) None in
  smooth_family 1 1 4 f [3] D /\ transposes 1 1 D (af_vjp_x F) (fun t x w => @cat_params ROps (af_vjp_p F t x w)) /\
  separated [0; 1; 3] /\ increasing [0; 1; 3] /\ steps_at_most 2 [0; 1; 3] /\ within 1 1 (f [3] 0 [1]).
Proof. exact C114_ex_pf. Qed.

