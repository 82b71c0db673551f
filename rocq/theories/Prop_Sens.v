(** Property theorems (generated by tools/genprop.py from Pf_Sens.v, which holds the proofs). *)
From Coq Require Import ZArith QArith Qreals Reals Lra Lia List Bool Floats.
From Verif Require Import Num Py Tensor M_SolversOde M_Utils M_Odeint M_Root M_Sens Spec_Ode Spec_Trees Spec_RK Spec_Root Spec_Sens.
From Verif Require Import L_Base L_Fixed L_Vec L_Steps L_Steps2 L_Fixed2 L_Root L_Sens Pf_Fixed.
Import ListNotations.
From Verif Require Import Pf_Sens.
Import ListNotations.
Local Open Scope R_scope.

(** C48, every explicit Runge-Kutta fixed-step solver (euler, midpoint, rk4 below), not only euler, and
    every field f(t, x) = M x + c(t): the vector returned by the adjoint for the initial state is
    the gradient of the loss.  [gx] are the gradients of the loss with respect to the returned states;
    along them the change of the trajectory for any other initial state is given by the product with the
    returned vector. *)
Theorem C48_adjoint_gradient :
  forall fuel fuel' s rows b n nmu M (F : adj_field (K := ROps)) x t0 t1 ts gt gx atol rtol atol' rtol' interp,
  erk_solver s rows b -> constant_jacobian n M (af_f F) -> transposed_product n M (af_vjp_x F) -> af_dg F = None ->
  (forall t y w, length w = n -> length (cat_params (af_vjp_p F t y w)) = nmu) ->
  separated (t0 :: t1 :: ts) -> t0 <= t1 -> length x = n ->
  length gx = length (t0 :: t1 :: ts) -> length gt = length (t0 :: t1 :: ts) -> Forall (fun g => length g = n) gx ->
  let solve x := snd (@odeint ROps fuel (af_f F) x (@TTensor ROps (t0 :: t1 :: ts)) s atol rtol interp false [] None) in
  exists t_sol sol out, solve x = Ok (t_sol, sol) /\
    @adjoint_backward ROps fuel' F nmu s atol' rtol' t_sol sol gt gx = Ok out /\ length (ao_x out) = n /\
    forall x', length x' = n -> exists sol', solve x' = Ok (t_sol, sol') /\
      pairing gx sol' - pairing gx sol = dot (ao_x out) (minus_vec x' x).
Proof. exact C48_adjoint_gradient_pf. Qed.
Print Assumptions C48_adjoint_gradient.

(** the gradient for the solvers of the library *)
Theorem C48_solvers : erk_solver (Euler ROps) (to_R_rows q_euler) (to_R qb_euler) /\
  erk_solver (Midpoint ROps) (to_R_rows q_midpoint) (to_R qb_midpoint) /\
  erk_solver (RungeKutta4 ROps) (to_R_rows q_rk4_code) (to_R qb_rk4).
Proof. exact C48_solvers_pf. Qed.
Print Assumptions C48_solvers.

Example C48_ex : constant_jacobian 1 [[1]] (af_f scalar_field) /\ transposed_product 1 [[1]] (af_vjp_x scalar_field) /\
  (forall t y w, length w = 1%nat -> length (cat_params (af_vjp_p scalar_field t y w)) = 1%nat) /\ separated [0; 1; 2].
Proof. exact C48_ex_pf. Qed.

(** C48 also holds for the interpolated adjoint, whatever path the spline takes, and for increasing and
    decreasing t_span: [sol] are the states of the forward solve. *)
Theorem C48_interpolated :
  forall fuel fuel' s rows b n nmu M (F : adj_field (K := ROps)) path x t0 t1 ts gx atol rtol atol' rtol' interp all,
  erk_solver s rows b -> constant_jacobian n M (af_f F) -> transposed_product n M (af_vjp_x F) -> af_dg F = None -> (0 < nmu)%nat ->
  (forall t y w, length w = n -> length (cat_params (af_vjp_p F t y w)) = nmu) ->
  separated (t0 :: t1 :: ts) -> length x = n -> length gx = length (t0 :: t1 :: ts) -> Forall (fun g => length g = n) gx ->
  let solve x := rmap snd (snd (@odeint ROps fuel (af_f F) x (@TTensor ROps (t0 :: t1 :: ts)) s atol rtol interp all [] None)) in
  exists sol mu lam, solve x = Ok sol /\
    @interp_adjoint_backward ROps fuel' F path nmu s atol' rtol' (t0 :: t1 :: ts) gx = Ok (mu, lam) /\ length lam = n /\
    forall x', length x' = n -> exists sol', solve x' = Ok sol' /\
      pairing gx sol' - pairing gx sol = dot lam (minus_vec x' x).
Proof. exact C48_interpolated_pf. Qed.
Print Assumptions C48_interpolated.

(** C49 for the interpolated adjoint and fields M x + c(t); missing: fields whose Jacobian depends on the
    state, for which the spline through the negated times matters. *)
Theorem C49_interpolated_partial :
  forall fuel fuel' s rows b n nmu M (F : adj_field (K := ROps)) path x t0 t1 ts gx atol rtol atol' rtol' interp all,
  erk_solver s rows b -> constant_jacobian n M (af_f F) -> transposed_product n M (af_vjp_x F) -> af_dg F = None -> (0 < nmu)%nat ->
  (forall t y w, length w = n -> length (cat_params (af_vjp_p F t y w)) = nmu) ->
  separated (t0 :: t1 :: ts) -> t1 < t0 -> length x = n -> length gx = length (t0 :: t1 :: ts) -> Forall (fun g => length g = n) gx ->
  let solve x := rmap snd (snd (@odeint ROps fuel (af_f F) x (@TTensor ROps (t0 :: t1 :: ts)) s atol rtol interp all [] None)) in
  exists sol mu lam, solve x = Ok sol /\
    @interp_adjoint_backward ROps fuel' F path nmu s atol' rtol' (t0 :: t1 :: ts) gx = Ok (mu, lam) /\ length lam = n /\
    forall x', length x' = n -> exists sol', solve x' = Ok sol' /\
      pairing gx sol' - pairing gx sol = dot lam (minus_vec x' x).
Proof. exact C49_interpolated_partial_pf. Qed.
Print Assumptions C49_interpolated_partial.

(** C49, what the adjoint does on a decreasing grid: the returned vector is the gradient of the
    trajectory along the negated grid, i.e. of the flow run in the other direction. *)
Theorem C49_adjoint_value_partial :
  forall fuel fuel' s rows b n nmu M (F : adj_field (K := ROps)) x t0 t1 ts gt gx atol rtol atol' rtol' interp,
  erk_solver s rows b -> constant_jacobian n M (af_f F) -> transposed_product n M (af_vjp_x F) -> af_dg F = None ->
  (forall t y w, length w = n -> length (cat_params (af_vjp_p F t y w)) = nmu) ->
  separated (t0 :: t1 :: ts) -> t1 < t0 -> length x = n ->
  length gx = length (t0 :: t1 :: ts) -> length gt = length (t0 :: t1 :: ts) -> Forall (fun g => length g = n) gx ->
  exists t_sol sol out,
    snd (@odeint ROps fuel (af_f F) x (@TTensor ROps (t0 :: t1 :: ts)) s atol rtol interp false [] None) = Ok (t_sol, sol) /\
    sol = one_step_traj (erk_step rows b (af_f F)) x (t0 :: t1 :: ts) /\
    @adjoint_backward ROps fuel' F nmu s atol' rtol' t_sol sol gt gx = Ok out /\ length (ao_x out) = n /\
    forall u, length u = n ->
      dot (ao_x out) u = pairing gx (one_step_traj (erk_step rows b (fun _ => apply M)) u (map Ropp (t0 :: t1 :: ts))).
Proof. exact C49_adjoint_value_partial_pf. Qed.
Print Assumptions C49_adjoint_value_partial.

(** C49 fails for the adjoint: f(t, x) = x, euler, t_span = [1, 0], loss x(0).  The state at time 0 is
    x + (0 - 1) x = 0 for every x, so the gradient is 0, but the adjoint returns 2. *)
Theorem C49_adjoint_reversed_refuted :
  forall fuel fuel' atol rtol atol' rtol' interp x0,
  let solve x := snd (@odeint ROps fuel (af_f scalar_field) [x] (@TTensor ROps [1; 0]) (Euler ROps) atol rtol interp false [] None) in
  exists t_sol sol out, solve x0 = Ok (t_sol, sol) /\
    @adjoint_backward ROps fuel' scalar_field 1 (Euler ROps) atol' rtol' t_sol sol [0; 0] [[0]; [1]] = Ok out /\ ao_x out = [2] /\
    forall x, exists sol', rmap snd (solve x) = Ok sol' /\ pairing [[0]; [1]] sol' = 0.
Proof. exact C49_adjoint_reversed_refuted_pf. Qed.
Print Assumptions C49_adjoint_reversed_refuted.

Theorem C67_unused_parameter_refuted :
  forall fuel (F : adj_field (K := ROps)) sizes n s atol rtol t_sol sol gt gx xT lT tT,
  (0 < n)%nat -> Forall (fun k => (0 < k)%nat) sizes ->
  (forall t y w, length w = n -> products_of sizes (af_vjp_p F t y w)) ->
  (forall t y, length y = n -> length (af_f F t y) = n) ->
  (forall t y w, length w = n -> length (af_vjp_x F t y w) = n) -> af_dg F = None ->
  (exists j k, nth_error sizes j = Some k /\ (1 < k)%nat /\ forall t y w, nth_error (af_vjp_p F t y w) j = Some None) ->
  (2 <= length t_sol)%nat -> length gx = length t_sol -> length gt = length t_sol ->
  last t_sol 0 = tT -> sol <> [] -> last sol [] = xT -> length xT = n -> last gx [] = lT -> length lT = n ->
  @adjoint_backward ROps fuel F (list_sum sizes) s atol rtol t_sol sol gt gx = Err RuntimeError.
Proof. exact C67_unused_parameter_refuted_pf. Qed.
Print Assumptions C67_unused_parameter_refuted.

(** a field with a used parameter tensor of 1 element and an unused one of 2 meets the hypotheses *)
Example C67_ex : products_of [1%nat; 2%nat] [Some [5]; None] /\ @cat_params ROps [Some [5]; None] = [5; Q2R 0] /\
  nth_error [1%nat; 2%nat] 1 = Some 2%nat /\ nth_error [Some [5]; None] 1 = Some (@None rvl).
Proof. exact C67_ex_pf. Qed.

(** C68: the gradient returned for t_span always has two entries, whatever the length of t_span *)
Theorem C68_two_entries_refuted :
  forall (K : NumOps) fuel (F : adj_field (K := K)) nmu s atol rtol t_sol sol gt gx out,
  @adjoint_backward K fuel F nmu s atol rtol t_sol sol gt gx = Ok out -> length (ao_tspan out) = 2%nat.
Proof. exact C68_two_entries_refuted_pf. Qed.
Print Assumptions C68_two_entries_refuted.

(** C68, the entry for the initial time has the wrong sign: f(t, x) = x, euler, loss x(t1).  The loss
    (1 + t1 - t0) x0 falls with t0 at rate x0 > 0, the returned entry is positive. *)
Theorem C68_start_time_refuted :
  forall fuel fuel' atol rtol atol' rtol' interp x0 t0 t1 gt0 gt1,
  0 < x0 -> t0 < t1 -> t1 - t0 < 1 -> separated [t0; t1] ->
  let solve t0 := snd (@odeint ROps fuel (af_f scalar_field) [x0] (@TTensor ROps [t0; t1]) (Euler ROps) atol rtol interp false [] None) in
  exists sol out d0 d1, solve t0 = Ok ([t0; t1], sol) /\
    @adjoint_backward ROps fuel' scalar_field 1 (Euler ROps) atol' rtol' [t0; t1] sol [gt0; gt1] [[0]; [1]] = Ok out /\
    ao_tspan out = [d0; d1] /\ 0 < d0 /\
    forall t0', t0' <= t1 -> separated [t0'; t1] -> exists sol', solve t0' = Ok ([t0'; t1], sol') /\
      pairing [[0]; [1]] sol' - pairing [[0]; [1]] sol = - x0 * (t0' - t0).
Proof. exact C68_start_time_refuted_pf. Qed.
Print Assumptions C68_start_time_refuted.

(** C69: the interpolated adjoint uses the gradients of the loss with respect to the last returned state and
    to the first len(t_span) - 1 returned states only.  With an adaptive solver the returned
    trajectory has more states (all evaluations). *)
Theorem C69_rows_ignored :
  forall (K : NumOps) fuel (F : adj_field (K := K)) path nmu s atol rtol t_span gx gx',
  pylast gx = pylast gx' -> firstn (length t_span - 1) gx = firstn (length t_span - 1) gx' ->
  @interp_adjoint_backward K fuel F path nmu s atol rtol t_span gx = @interp_adjoint_backward K fuel F path nmu s atol rtol t_span gx'.
Proof. exact C69_rows_ignored_pf. Qed.
Print Assumptions C69_rows_ignored.

(** C69 fails: f(t, x) = 0, dopri5, t_span = [0, 1], x = 1.  The forward pass returns 8 states, all equal to
    x; for the loss "second returned state" the gradient is 1, the interpolated adjoint returns 0. *)
Theorem C69_interpolated_adaptive_refuted :
  forall pw : float -> float -> float,
  let F := @MkAF (FloatOps pw) (fun _ _ => [0%float]) (fun _ _ _ => [0%float]) (fun _ _ _ => None) (fun _ _ _ => [None]) None in
  let gx := [[0%float]; [1%float]; [0%float]; [0%float]; [0%float]; [0%float]; [0%float]; [0%float]] in
  (exists times, snd (@odeint (FloatOps pw) 20 (af_f F) [1%float] (@TTensor (FloatOps pw) [0%float; 1%float]) (DormandPrince45 (FloatOps pw))
      0.001%float 0.001%float false true [] None) = Ok (times, repeat [1%float] 8)) /\
  forall path, @interp_adjoint_backward (FloatOps pw) 20 F path 1 (DormandPrince45 (FloatOps pw)) 0.001%float 0.001%float
      [0%float; 1%float] gx = Ok ([0%float], [0%float]).
Proof. exact C69_interpolated_adaptive_refuted_pf. Qed.
Print Assumptions C69_interpolated_adaptive_refuted.

