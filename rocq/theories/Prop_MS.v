(** Property theorems (generated by tools/genprop.py from Pf_MS.v, which holds the proofs). *)
From Coq Require Import ZArith QArith Qreals Reals Lra Lia List Bool.
From Verif Require Import Num Py Tensor M_SolversOde M_Odeint M_MS Spec_Ode Spec_MS.
From Verif Require Import L_Base L_Fixed L_Fixed2 L_Vec L_Steps L_Steps2 L_Jagged L_Conv L_MS Pf_Fixed.
Import ListNotations.
From Verif Require Import Pf_MS.
Import ListNotations.
Local Open Scope R_scope.

(** C30.  Parareal.  For every fixed-step coarse and fine method, grid, initial guess B and maxiter
    smaller than the number of times: the result is obtained from B by maxiter + 1 parareal passes,
    and its rows 0 .. maxiter + 1 are the fine flow applied 0 .. maxiter + 1 times to B[0].  With
    maxiter + 2 >= len(t_span) all rows are. *)
Theorem C30_parareal_exact_partial :
  forall coarse fine f oc lc off lf n t0 t1 ts B fine_steps maxiter b0,
  fixed_stepper (s_step coarse) f oc lc -> fixed_stepper (s_step fine) f off lf ->
  keeps_length n oc -> keeps_length n off -> (2 <= fine_steps)%nat -> separated (@linspace0 ROps (t1 - t0) fine_steps) ->
  length B = length (t0 :: t1 :: ts) -> (forall b, In b B -> length b = n) -> nth_error B 0 = Some b0 ->
  (-1 <= maxiter < Z.of_nat (length (t0 :: t1 :: ts)))%Z ->
  let sub := @linspace0 ROps (t1 - t0) fine_steps in
  exists B', @mszero_root_solve ROps coarse fine f (t0 :: t1 :: ts) B fine_steps maxiter = Ok B' /\ length B' = length B /\
    parareal_passes (flow oc sub) (flow off sub) (Z.to_nat (maxiter + 1)) 1 B B' /\
    (forall j, (Z.of_nat j <= maxiter + 1)%Z -> (j < length B)%nat ->
       nth_error B' j = Some (sequential (flow off sub) b0 j)) /\
    ((Z.of_nat (length B) <= maxiter + 2)%Z -> B' = map (sequential (flow off sub) b0) (seq 0 (length B))).
Proof. exact C30_parareal_exact_partial_pf. Qed.
Print Assumptions C30_parareal_exact_partial.

(** C30 without an initial guess (B0 = None) on an increasing grid: the first returned state is the
    initial condition x, the first maxiter + 2 states are the sequential fine solution from x. *)
Theorem C30_default_guess :
  forall fuel coarse fine f oc lc off lf n x t0 t1 ts fine_steps maxiter,
  s_fixed coarse = true ->
  fixed_stepper (s_step coarse) f oc lc -> fixed_stepper (s_step fine) f off lf ->
  keeps_length n oc -> keeps_length n off -> length x = n ->
  (2 <= fine_steps)%nat -> separated (@linspace0 ROps (t1 - t0) fine_steps) ->
  separated (t0 :: t1 :: ts) -> t0 <= t1 ->
  (-1 <= maxiter < Z.of_nat (length (t0 :: t1 :: ts)))%Z ->
  let sub := @linspace0 ROps (t1 - t0) fine_steps in
  exists B', @odeint_mszero ROps fuel f x (t0 :: t1 :: ts) coarse fine None fine_steps maxiter = Ok (t0 :: t1 :: ts, B') /\
    length B' = length (t0 :: t1 :: ts) /\ nth_error B' 0 = Some x /\
    (forall j, (Z.of_nat j <= maxiter + 1)%Z -> (j < length B')%nat ->
       nth_error B' j = Some (sequential (flow off sub) x j)) /\
    ((Z.of_nat (length B') <= maxiter + 2)%Z -> B' = map (sequential (flow off sub) x) (seq 0 (length B'))).
Proof. exact C30_default_guess_pf. Qed.
Print Assumptions C30_default_guess.

(** C30: the sub-grid hypothesis holds whenever the fine step is larger than 1e-8 + 1e-5 * dt. *)
Theorem C30_subgrid :
  forall dt k, 0 < dt -> (2 <= k)%nat -> 1 / 100000000 + 1 / 100000 * dt < dt / INR (k - 1) ->
  separated (@linspace0 ROps dt k).
Proof. exact C30_subgrid_pf. Qed.
Print Assumptions C30_subgrid.

(** C30: for a fine method that does not depend on the time (an autonomous vector field), "sequential
    fine solution" is the plain fixed-step solution with step dt / (fine_steps - 1) after
    j (fine_steps - 1) steps, on the grid t0, t0 + h, t0 + 2 h, ... *)
Theorem C30_sequential_is_fine_solve :
  forall (off : R -> R -> rvec -> rvec) t0 dt k x j, (2 <= k)%nat ->
  (forall t s h x, off t h x = off s h x) ->
  sequential (flow off (@linspace0 ROps dt k)) x j =
  last (one_step_traj off x (map (fun i => t0 + INR i * (dt / INR (k - 1))) (seq 0 (S (j * (k - 1)))))) [].
Proof. exact C30_sequential_is_fine_solve_pf. Qed.
Print Assumptions C30_sequential_is_fine_solve.

Example C30_ex :
  fixed_stepper (s_step eul) ones eu euler_log /\ keeps_length 1 eu /\ separated (@linspace0 ROps (1 - 0) 2) /\
  separated [0; 1; 2] /\
  exists B', @odeint_mszero ROps 0 ones [5] [0; 1; 2] eul eul None 2 1 = Ok ([0; 1; 2], B') /\ B' = [[5]; [6]; [7]].
Proof. exact C30_ex_pf. Qed.

(** Finding: with an initial guess B0 the argument x is ignored; the first returned state is B0[0]. *)
Theorem C30_guess_replaces_x_refuted :
  exists x B0 B', @odeint_mszero ROps 0 ones x [0; 1; 2] eul eul (Some B0) 2 1 = Ok ([0; 1; 2], B') /\
    length B0 = 3%nat /\ nth_error B' 0 <> Some x.
Proof. exact C30_guess_replaces_x_refuted_pf. Qed.
Print Assumptions C30_guess_replaces_x_refuted.

(** Finding: only the first interval's length is used.  On the grid 0, 1, 3 the converged last state
    for x' = 1 is x + 2 instead of x + 3. *)
Theorem C30_nonuniform_refuted :
  exists B', @odeint_mszero ROps 0 ones [0] [0; 1; 3] eul eul None 2 2 = Ok ([0; 1; 3], B') /\
    nth_error B' 2 = Some [2] /\ snd (@odeint ROps 0 ones [0] (@TTensor ROps [0; 1; 3]) eul (1/1000) (1/1000) false false [] None)
      = Ok ([0; 1; 3], [[0]; [1]; [3]]).
Proof. exact C30_nonuniform_refuted_pf. Qed.
Print Assumptions C30_nonuniform_refuted.

(** C31, mszero: what happens for every maxiter.  One state per time is returned if and only if
    maxiter < len(t_span); otherwise the call fails with an IndexError. *)
Theorem C31_mszero_actual_partial :
  forall coarse fine f oc lc off lf n t0 t1 ts B fine_steps maxiter,
  fixed_stepper (s_step coarse) f oc lc -> fixed_stepper (s_step fine) f off lf ->
  keeps_length n oc -> keeps_length n off -> (2 <= fine_steps)%nat -> separated (@linspace0 ROps (t1 - t0) fine_steps) ->
  length B = length (t0 :: t1 :: ts) -> (forall b, In b B -> length b = n) ->
  let r := @mszero_root_solve ROps coarse fine f (t0 :: t1 :: ts) B fine_steps maxiter in
  ((maxiter < Z.of_nat (length (t0 :: t1 :: ts)))%Z -> exists B', r = Ok B' /\ length B' = length (t0 :: t1 :: ts)) /\
  ((Z.of_nat (length (t0 :: t1 :: ts)) <= maxiter)%Z -> r = Err IndexError).
Proof. exact C31_mszero_actual_partial_pf. Qed.
Print Assumptions C31_mszero_actual_partial.

(** Finding: with the default maxiter = 4 and fine_steps = 4 a grid of three points fails. *)
Theorem C31_default_maxiter_refuted :
  @odeint_mszero ROps 0 ones [5] [0; 1; 2] eul eul None 4 4 = Err IndexError.
Proof. exact C31_default_maxiter_refuted_pf. Qed.
Print Assumptions C31_default_maxiter_refuted.

(** Finding: fine_steps = 1 gives a one-point sub-grid, on which the fixed-step driver fails; so every
    call with at least one pass fails. *)
Theorem C31_one_fine_step_refuted :
  forall coarse fine f oc lc t0 t1 ts b B maxiter, fixed_stepper (s_step coarse) f oc lc -> (0 <= maxiter)%Z ->
  @mszero_root_solve ROps coarse fine f (t0 :: t1 :: ts) (b :: B) 1 maxiter = Err IndexError.
Proof. exact C31_one_fine_step_refuted_pf. Qed.
Print Assumptions C31_one_fine_step_refuted.

(** C31, msbackward: one or two passes (maxiter = 0, 1) return one state per time; from maxiter = 2
    on, every grid with at least four points fails with an IndexError. *)
Theorem C31_msbackward_actual_partial :
  forall fine f off lf vjp n t0 t1 ts B fine_steps maxiter,
  fixed_stepper (s_step fine) f off lf -> keeps_length n off ->
  (forall sub b v, length b = n -> length v = n -> length (vjp sub b v) = n) ->
  (2 <= fine_steps)%nat -> separated (@linspace0 ROps (t1 - t0) fine_steps) ->
  length B = length (t0 :: t1 :: ts) -> (forall b, In b B -> length b = n) ->
  let r := @msbackward_root_solve ROps fine vjp f (t0 :: t1 :: ts) B fine_steps maxiter in
  ((maxiter <= 1)%Z -> exists B', r = Ok B' /\ length B' = length (t0 :: t1 :: ts)) /\
  ((2 <= maxiter)%Z -> (4 <= length (t0 :: t1 :: ts))%nat -> r = Err IndexError).
Proof. exact C31_msbackward_actual_partial_pf. Qed.
Print Assumptions C31_msbackward_actual_partial.

(** Finding: the default maxiter = 4 fails for msbackward on a four-point grid. *)
Theorem C31_msbackward_refuted :
  @msbackward_root_solve ROps eul (fun _ _ v => v) ones [0; 1; 2; 3] [[0]; [0]; [0]; [0]] 4 4 = Err IndexError.
Proof. exact C31_msbackward_refuted_pf. Qed.
Print Assumptions C31_msbackward_refuted.

(** C58.  One msbackward pass: the first row is kept and row m + 1 is
    F(B[m]) + vjp_{B[m]}(B'[m] - B[m]) for the fine flow F; in particular rows 0 and 1 are exact if
    the vector-Jacobian product maps 0 to 0. *)
Theorem C58_first_pass_partial :
  forall fine f off lf vjp n t0 t1 ts B b0 fine_steps,
  fixed_stepper (s_step fine) f off lf -> keeps_length n off ->
  (forall sub b v, length b = n -> length v = n -> length (vjp sub b v) = n) ->
  (2 <= fine_steps)%nat -> separated (@linspace0 ROps (t1 - t0) fine_steps) ->
  length B = length (t0 :: t1 :: ts) -> (forall b, In b B -> length b = n) -> nth_error B 0 = Some b0 ->
  let sub := @linspace0 ROps (t1 - t0) fine_steps in
  exists B', @msbackward_root_solve ROps fine vjp f (t0 :: t1 :: ts) B fine_steps 0 = Ok B' /\
    length B' = length B /\ nth_error B' 0 = Some b0 /\
    (forall m a old, (S m < length B)%nat -> nth_error B' m = Some a -> nth_error B m = Some old ->
       nth_error B' (S m) = Some (add_list (flow off sub old) (vjp sub old (sub_list a old)))).
Proof. exact C58_first_pass_partial_pf. Qed.
Print Assumptions C58_first_pass_partial.

(** C58, what the second pass does: every row from row 2 on is replaced by its own fine flow, so
    converged rows move on by one interval. *)
Theorem C58_second_pass_partial :
  forall fine f off lf vjp n t0 t1 ts B B1 fine_steps,
  fixed_stepper (s_step fine) f off lf -> keeps_length n off ->
  (forall sub b v, length b = n -> length v = n -> length (vjp sub b v) = n) ->
  (2 <= fine_steps)%nat -> separated (@linspace0 ROps (t1 - t0) fine_steps) ->
  length B = length (t0 :: t1 :: ts) -> (forall b, In b B -> length b = n) ->
  @msbackward_root_solve ROps fine vjp f (t0 :: t1 :: ts) B fine_steps 0 = Ok B1 ->
  @msbackward_root_solve ROps fine vjp f (t0 :: t1 :: ts) B fine_steps 1 =
    Ok (firstn 2 B1 ++ map (flow off (@linspace0 ROps (t1 - t0) fine_steps)) (skipn 2 B1)).
Proof. exact C58_second_pass_partial_pf. Qed.
Print Assumptions C58_second_pass_partial.

(** Finding: for x' = 1 from 0 on the grid 0, 1, 2 one pass gives the exact 0, 1, 2 and the second
    pass destroys it: 0, 1, 3. *)
Theorem C58_second_pass_refuted :
  @msbackward_root_solve ROps eul (fun _ _ v => v) ones [0; 1; 2] [[0]; [1]; [2]] 2 0 = Ok [[0]; [1]; [2]] /\
  @msbackward_root_solve ROps eul (fun _ _ v => v) ones [0; 1; 2] [[0]; [1]; [2]] 2 1 = Ok [[0]; [1]; [3]].
Proof. exact C58_second_pass_refuted_pf. Qed.
Print Assumptions C58_second_pass_refuted.

(** C59.  If the fine flow is affine and the product used is its directional derivative
    (F(a) = F(b) + J(a - b) for all a, b), one pass gives the exact sequential fine solution from any
    initial guess. *)
Theorem C59_affine_one_pass_partial :
  forall fine f off lf vjp n t0 t1 ts B b0 fine_steps,
  fixed_stepper (s_step fine) f off lf -> keeps_length n off ->
  (forall sub b v, length b = n -> length v = n -> length (vjp sub b v) = n) ->
  (2 <= fine_steps)%nat -> separated (@linspace0 ROps (t1 - t0) fine_steps) ->
  length B = length (t0 :: t1 :: ts) -> (forall b, In b B -> length b = n) -> nth_error B 0 = Some b0 ->
  let sub := @linspace0 ROps (t1 - t0) fine_steps in
  (forall a b, length a = n -> length b = n -> flow off sub a = add_list (flow off sub b) (vjp sub b (sub_list a b))) ->
  exists B', @msbackward_root_solve ROps fine vjp f (t0 :: t1 :: ts) B fine_steps 0 = Ok B' /\
    B' = map (sequential (flow off sub) b0) (seq 0 (length B)).
Proof. exact C59_affine_one_pass_partial_pf. Qed.
Print Assumptions C59_affine_one_pass_partial.

(** Finding: msbackward multiplies by the transposed Jacobian (a vector-Jacobian product) where the
    Newton update needs the Jacobian.  For the linear system x' = y, y' = 0 one pass is not exact:
    the last row is (1, 2), the fine solution is (2, 1).  The product is the true gradient: its
    scalar product with w is the scalar product of v with F(b + w) - F(b). *)
Theorem C59_transposed_jacobian_refuted :
  exists B B', @msbackward_root_solve ROps eul shear_vjp shear [0; 1; 2] B 2 0 = Ok B' /\
    let F := flow (euler_one shear) (@linspace0 ROps (1 - 0) 2) in
    (forall sub b v w, length b = 2%nat -> length v = 2%nat -> length w = 2%nat ->
       dot (shear_vjp sub b v) w = dot v (sub_list (F (add_list b w)) (F b))) /\
    length B = 3%nat /\ nth_error B' 2 = Some [1; 2] /\ sequential F [0; 1] 2 = [2; 1] /\ nth_error B 0 = Some [0; 1].
Proof. exact C59_transposed_jacobian_refuted_pf. Qed.
Print Assumptions C59_transposed_jacobian_refuted.

(** C59's affine case is not vacuous: scalar problems (here x' = 1, J = 1) satisfy its hypothesis. *)
Example C59_ex :
  (forall a b, length a = 1%nat -> length b = 1%nat ->
     flow eu (@linspace0 ROps (1 - 0) 2) a = add_list (flow eu (@linspace0 ROps (1 - 0) 2) b) ((fun _ _ v => v) (@nil R) b (sub_list a b))) /\
  @msbackward_root_solve ROps eul (fun _ _ v => v) ones [0; 1; 2] [[7]; [0]; [-3]] 2 0 = Ok [[7]; [8]; [9]].
Proof. exact C59_ex_pf. Qed.

(** C32.  On every grid and for every field the residual is zero exactly when the shooting states
    B[1], B[2], ... satisfy the implicit Euler recursion from x, where the field is always taken at
    time 0 (so this is implicit Euler for every field without time dependence). *)
Theorem C32_residual_zero_partial :
  forall n (f : R -> rvec -> rvec) x B ts, (2 <= length ts)%nat -> length B = length ts ->
  (forall t x, length x = n -> length (f t x) = n) -> length x = n -> (forall b, In b B -> length b = n) ->
  exists r, @pie_residual ROps f x B ts = Ok r /\ 0 <= r /\ (r = 0 <-> implicit_euler_rows f (fun _ => 0) x B ts).
Proof. exact C32_residual_zero_partial_pf. Qed.
Print Assumptions C32_residual_zero_partial.

(** Finding: for a field with time dependence a zero residual is not implicit Euler. *)
Theorem C32_time_dependent_refuted :
  exists (f : R -> rvec -> rvec) x B ts, @pie_residual ROps f x B ts = Ok 0 /\ ~ implicit_euler_rows f (fun t => t) x B ts.
Proof. exact C32_time_dependent_refuted_pf. Qed.
Print Assumptions C32_time_dependent_refuted.

(** C32's equivalence is not vacuous: x' = -x from 2 with step 1 has the implicit Euler rows 1, 1/2. *)
Example C32_ex :
  implicit_euler_rows (fun _ x => map Ropp x) (fun _ => 0) [2] [[9]; [1]; [1/2]] [0; 1; 2] /\
  @pie_residual ROps (fun _ x => map Ropp x) [2] [[9]; [1]; [1/2]] [0; 1; 2] = Ok 0.
Proof. exact C32_ex_pf. Qed.

