(** Property theorems (generated by tools/genprop.py from Pf_Spline.v, which holds the proofs). *)
From Coq Require Import ZArith QArith Qreals Reals Lra Lia List Bool Sorted.
From Verif Require Import Num Py Tensor M_SolversOde M_Utils M_Odeint M_Root M_Sens M_Spline.
From Verif Require Import Spec_Ode Spec_Trees Spec_RK Spec_Root Spec_Sens Spec_Spline.
From Verif Require Import L_Base L_Fixed L_Vec L_Steps L_Steps2 L_Fixed2 L_Root L_Sens L_Spline Pf_Fixed Pf_Sens L_Adaptive.
Import ListNotations.
From Verif Require Import Pf_Spline.
Import ListNotations.
Local Open Scope R_scope.

(** C138.  Increasing t_span, states of shape (k, d), fixed-step solvers, nonlinear fields: the path is the natural cubic
    spline through the stored states, it passes through all of them, and the gradients with respect to x and to the
    parameters are those of the adjoint equation along this path, solved backwards with the solver. *)
Theorem C138_gradient :
  forall fuel fuel' s rows b k d nmu (F : adj_field (K := ROps)) x t0 t1 ts gx atol rtol interp,
  erk_solver s rows b -> field_on (k * d) (af_f F) -> af_dg F = None -> (0 < nmu)%nat ->
  (forall t x w, length x = (k * d)%nat -> length w = (k * d)%nat ->
     length (af_vjp_x F t x w) = (k * d)%nat /\ length (cat_params (af_vjp_p F t x w)) = nmu) ->
  separated (t0 :: t1 :: ts) -> increasing (t0 :: t1 :: ts) -> length x = (k * d)%nat ->
  length gx = length (t0 :: t1 :: ts) -> Forall (fun g => length g = (k * d)%nat) gx ->
  exists sol path mu lam,
    snd (@odeint ROps fuel (af_f F) x (@TTensor ROps (t0 :: t1 :: ts)) s atol rtol interp true [] None) = Ok (t0 :: t1 :: ts, sol) /\
    @interp_backward ROps fuel' F [k; d] nmu s atol rtol (t0 :: t1 :: ts) (t0 :: t1 :: ts) sol gx = Ok (mu, lam) /\
    (forall j, (j < k * d)%nat -> natural_spline (t0 :: t1 :: ts) (map (fun y => nth j y 0) sol) (fun t => nth j (path t) 0)) /\
    (forall i t y, nth_error (t0 :: t1 :: ts) i = Some t -> nth_error sol i = Some y -> path t = y) /\
    length lam = (k * d)%nat /\
    lam ++ mu = adjoint_recursion rows b
      (fun t A => let w := map Ropp (firstn (k * d) A) in af_vjp_x F t (path t) w ++ cat_params (af_vjp_p F t (path t) w))
      (t0 :: t1 :: ts) (map (fun g => g ++ repeat 0 nmu) gx).
Proof. exact C138_gradient_pf. Qed.
Print Assumptions C138_gradient.

(** C138 for euler: the field is only evaluated at the stored states. *)
Theorem C138_euler :
  forall fuel fuel' k d nmu (F : adj_field (K := ROps)) x t0 t1 ts gx atol rtol interp,
  field_on (k * d) (af_f F) -> af_dg F = None -> (0 < nmu)%nat ->
  (forall t x w, length x = (k * d)%nat -> length w = (k * d)%nat ->
     length (af_vjp_x F t x w) = (k * d)%nat /\ length (cat_params (af_vjp_p F t x w)) = nmu) ->
  separated (t0 :: t1 :: ts) -> increasing (t0 :: t1 :: ts) -> length x = (k * d)%nat ->
  length gx = length (t0 :: t1 :: ts) -> Forall (fun g => length g = (k * d)%nat) gx ->
  exists sol mu,
    snd (@odeint ROps fuel (af_f F) x (@TTensor ROps (t0 :: t1 :: ts)) (Euler ROps) atol rtol interp true [] None) = Ok (t0 :: t1 :: ts, sol) /\
    @interp_backward ROps fuel' F [k; d] nmu (Euler ROps) atol rtol (t0 :: t1 :: ts) (t0 :: t1 :: ts) sol gx =
      Ok (mu, euler_recursion (af_vjp_x F) (t0 :: t1 :: ts) sol gx).
Proof. exact C138_euler_pf. Qed.
Print Assumptions C138_euler.

(** C138, refuted: states of another number of axes than two, whatever the field and the grid: backward raises. *)
Theorem C138_shape_refuted :
  forall fuel F shape nmu s atol rtol t_span t_sol sol gx, length shape <> 2%nat ->
  @interp_backward ROps fuel F shape nmu s atol rtol t_span t_sol sol gx = Err RuntimeError.
Proof. exact C138_shape_refuted_pf. Qed.
Print Assumptions C138_shape_refuted.

(** C138 needs two returned times, and as many states: otherwise the path is rejected. *)
Theorem C138_path_checked :
  forall fuel F k d nmu s atol rtol t_span t_sol sol gx, (length t_sol < 2)%nat \/ length sol <> length t_sol ->
  @interp_backward ROps fuel F [k; d] nmu s atol rtol t_span t_sol sol gx = Err ValueError.
Proof. exact C138_path_checked_pf. Qed.
Print Assumptions C138_path_checked.

(** C138, refuted for decreasing t_span: the returned times are negated, the spline has its knots at the negated times
    and is evaluated at the times themselves.  x' = 1, v' = x v from (1, 1) over [1, 1/2, 0] with euler, loss v(0): the
    component of the gradient for v is 3/4 along the stored states; 5/4 is returned. *)
Theorem C138_decreasing_refuted :
  forall fuel fuel' atol rtol interp,
  exists t_sol sol mu lam,
    snd (@odeint ROps fuel (af_f ramp) [1; 1] (@TTensor ROps [1; 1/2; 0]) (Euler ROps) atol rtol interp true [] None) = Ok (t_sol, sol) /\
    @interp_backward ROps fuel' ramp [1%nat; 2%nat] 1 (Euler ROps) atol rtol [1; 1/2; 0] t_sol sol [[0; 0]; [0; 0]; [0; 1]] = Ok (mu, lam) /\
    nth 1 lam 0 = 5 / 4 /\ nth 1 (euler_recursion (af_vjp_x ramp) [1; 1/2; 0] sol [[0; 0]; [0; 0]; [0; 1]]) 0 = 3 / 4.
Proof. exact C138_decreasing_refuted_pf. Qed.
Print Assumptions C138_decreasing_refuted.

Example C138_ex : field_on 2 (af_f ramp) /\ af_dg ramp = None /\ separated [0; 1; 2] /\ increasing [0; 1; 2] /\
  (forall t x w, length x = 2%nat -> length w = 2%nat -> length (af_vjp_x ramp t x w) = 2%nat /\ length (cat_params (af_vjp_p ramp t x w)) = 1%nat).
Proof. exact C138_ex_pf. Qed.

(** C139, refuted.  dense_output raises for all solutions, times and evaluation points: the arguments of
    hermite_cubic_coefficients_with_backward_differences are exchanged. *)
Theorem C139_raises_refuted :
  forall (K : NumOps) (A : Type) (run : list nat -> array -> array -> array -> res A) (sol t_sol t_eval : @array K),
  dense_output run sol t_sol t_eval = Err ValueError \/ dense_output run sol t_sol t_eval = Err RuntimeError.
Proof. exact C139_raises_refuted_pf. Qed.
Print Assumptions C139_raises_refuted.

(** C139, what would hold with the arguments exchanged back: the validation accepts every solution of two or more
    increasing times. *)
Theorem C139_exchanged_partial :
  forall p q r ts, increasing ts -> length ts = p -> (2 <= p)%nat ->
  @validate_input_path ROps [q; p; r] [p] ts = Ok tt.
Proof. exact C139_exchanged_partial_pf. Qed.
Print Assumptions C139_exchanged_partial.

