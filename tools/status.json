{
  "C01": ["proved", ""],
  "C02": ["proved", ""],
  "C03": ["partial", "REFUTED by C03_outside_save_at_accepted_refuted; exact rejection condition proved"],
  "C04": ["partial", "REFUTED by C04_fine_grid_rejected_refuted; exact acceptance condition proved"],
  "C05": ["proved", ""],
  "C06": ["partial", "REFUTED for decreasing grids by C06_reversed_times_refuted; increasing grids: C01, C09"],
  "C07": ["proved", ""],
  "C08": ["proved", ""],
  "C09": ["proved", ""],
  "C10": ["proved", ""],
  "C11": ["proved", ""],
  "C12": ["proved", ""],
  "C13": ["proved", ""],
  "C14": ["proved", ""],
  "C15": ["partial", "REFUTED by C15_never_returns_refuted (real arithmetic) and C15_nan_field_refuted (binary64); C14 gives sufficient conditions for returning"],
  "C16": ["partial", "REFUTED by C16_final_time_lost_refuted (t_span = [0, 3.4] in binary64); C09 and C10 hold in exact arithmetic; C16_close_grid_partial: in binary64 every requested time is reported bit for bit when consecutive times have one sign and are within a factor two of each other"],
  "C17": ["proved", ""],
  "C18": ["proved", ""],
  "C19": ["proved", ""],
  "C20": ["partial", "REFUTED by C20_reversed_steps_refuted; C20_reversed_run_partial gives what holds: same accepted-step relation, only the initial step differs"],
  "C21": ["proved", ""],
  "C22": ["partial", "REFUTED by C22_rk4_time_varying_refuted; proved for autonomous fields"],
  "C23": ["proved", "stronger: within 1e-80"],
  "C24": ["proved", ""],
  "C25": ["proved", ""],
  "C26": ["partial", "REFUTED by C26_implicit_euler_wrong_time_refuted; proved for autonomous fields"],
  "C27": ["proved", ""],
  "C28": ["proved", ""],
  "C29": ["proved", ""],
  "C30": ["partial", "REFUTED as stated by C30_guess_replaces_x_refuted (a given B0 replaces x) and C30_nonuniform_refuted (only the first interval length is used); exactness after k sweeps proved for all methods, guesses and sweeps (C30_parareal_exact_partial, C30_default_guess, C30_sequential_is_fine_solve)"],
  "C31": ["partial", "REFUTED by C31_default_maxiter_refuted, C31_one_fine_step_refuted, C31_msbackward_refuted; exact set of admissible maxiter proved"],
  "C32": ["partial", "REFUTED for time dependent fields by C32_time_dependent_refuted; C32_residual_zero_partial: zero residual iff implicit Euler with the field frozen at time 0, for all grids, fields, states"],
  "C33": ["partial", "REFUTED by C33_jagged_refuted (off by one) and C33_builtin_refuted (TypeError with every built-in solver); C33_jagged_actual states the exact result, C33_two_points_partial the true case"],
  "C34": ["partial", "Jump bookkeeping proved (C34_event_outputs); 'times never decrease' REFUTED by C34_times_decrease_refuted, proved for persistent events (C37_inside_step)"],
  "C35": ["partial", "REFUTED by C35_rejected_time_lost_refuted; C35_requested_times_partial proves it when the steps ending at requested times are accepted"],
  "C36": ["partial", "REFUTED by C36_jump_count_refuted and C36_hang_refuted; C36_j_span_ignored states what the code does"],
  "C37": ["partial", "REFUTED by C37_crash_refuted and C37_outside_step_refuted; C37_inside_step and C37_never_raises prove it for persistent events"],
  "C38": ["proved", ""],
  "C39": ["proved", ""],
  "C40": ["proved", ""],
  "C41": ["proved", ""],
  "C42": ["proved", ""],
  "C43": ["partial", "REFUTED by C43_milstein_unchecked_refuted (Milstein solvers never check) and C43_midpoint_refuted; proved for euler and eulerHeun"],
  "C44": ["partial", "REFUTED by C44_integral_loss_refuted; proved for every order without integral loss in the state, and for order 1 with one"],
  "C45": ["partial", "REFUTED by C45_time_state_refuted and C45_swapped_refuted; proved for f(x) and f(t, x, args)"],
  "C46": ["partial", "REFUTED by C46_trajectory_refuted (interpolated_adjoint) and C46_control_refuted (control before divergence module); proved otherwise"],
  "C47": ["partial", "REFUTED by C47_adjoint_save_at_refuted, C47_adjoint_args_refuted, C47_args_refuted; save_at proved for autograd"],
  "C48": ["proved", "all explicit Runge-Kutta fixed-step solvers; also the interpolated adjoint"],
  "C49": ["partial", "REFUTED by C49_adjoint_reversed_refuted for the adjoint (t_sol is negated); true for the interpolated adjoint with constant Jacobian; C49_adjoint_value_partial says what the adjoint returns"],
  "C50": ["partial", "REFUTED by C50_adjoint_refuted; proved for autograd"],
  "C51": ["proved", ""],
  "C52": ["proved", "GalConv2d: only the split of the weight vector, not the convolution"],
  "C53": ["partial", "REFUTED for Polynomial by C53_polynomial_refuted (exponents deg/(deg-1) apart); Chebychev proved for all degrees"],
  "C54": ["proved", ""],
  "C55": ["proved", ""],
  "C56": ["partial", "REFUTED by C56_spheres_odd_refuted (odd n_samples raise) and C56_sizes_refuted (spirals return 2n, gaussians n*n_gaussians points); true: C56_randnsphere, C56_moons for all n, spheres for even n, the rest with the real sizes"],
  "C57": ["partial", "REFUTED for the dtype of 'alf' by C57_alf_dtype_refuted; names, classes and orders proved"],
  "C58": ["partial", "REFUTED by C58_second_pass_refuted; first and second sweep characterised exactly"],
  "C59": ["partial", "REFUTED by C59_transposed_jacobian_refuted; proved when the product used is the true directional derivative (C59_affine_one_pass_partial), e.g. scalar and symmetric problems"],
  "C60": ["partial", "REFUTED by C60_general_noise_refuted; diagonal shapes proved"],
  "C61": ["partial", "REFUTED by C61_off_grid_refuted; exact behaviour for every save_at and the sub-grid case proved"],
  "C62": ["partial", "REFUTED by C62_default_search_refuted; exact residual decay without line search proved"],
  "C63": ["partial", "REFUTED by C63_armijo_refuted; proved for the naive search"],
  "C64": ["partial", "REFUTED by C64_reference_residual_refuted"],
  "C65": ["partial", "REFUTED by C65_solver_adjoint_refuted (module); None and names work"],
  "C66": ["partial", "REFUTED by C66_sde_trajectory_refuted"],
  "C67": ["partial", "REFUTED by C67_unused_parameter_refuted: RuntimeError for every unused tensor with more than one element"],
  "C68": ["partial", "REFUTED by C68_two_entries_refuted and C68_start_time_refuted"],
  "C69": ["partial", "REFUTED by C69_interpolated_adaptive_refuted; C69_rows_ignored says which rows are used"],
  "C70": ["proved", ""],
  "C71": ["partial", "REFUTED by C71_no_bias_refuted: every forward raises TypeError"],
  "C72": ["partial", "REFUTED by C72_adaptive_refuted: every layer raises RuntimeError"],
  "C73": ["partial", "REFUTED by C73_ignored_refuted: arguments ignored; C73_values_partial gives the values returned"],
  "C74": ["partial", "REFUTED by C74_fourier_period_refuted for every deg >= 3; C74_fourier_partial gives the values and the true period"],
  "C75": ["partial", "REFUTED by C75_coupled_rows_refuted; row-wise networks: C54"],
  "C76": ["partial", "REFUTED by C76_odd_dimension_refuted in every odd dimension; even dimensions: C55"],
  "C77": ["partial", "REFUTED by C77_snf_refuted: every forward raises AttributeError"],
  "C78": ["partial", "REFUTED for reverse=True by C78_reverse_refuted; C78_forward proves the rest (of the class; its module cannot be imported)"],
  "C79": ["partial", "REFUTED by C79_order_refuted: AttributeError"],
  "C80": ["partial", "REFUTED by C80_no_noise_refuted; with noise: C54"],
  "C81": ["partial", "REFUTED by C81_dimension_refuted: dim=3 off the circle, dim>=4 ValueError; dim=2: C56_gaussians_partial"],
  "C82": ["partial", "REFUTED by C82_unknown_dataset_refuted (None is returned); documented names: C82_names_partial"],
  "C83": ["proved", "every built-in solver; constant rates and fields for the outputs that are not interpolated (tsit5: rate within 1e-80)"],
  "C84": ["proved", "returned states for all options; termination for adaptive solvers on increasing grids"],
  "C85": ["proved", "fixed-step solvers, exceptions included"],
  "C86": ["partial", "REFUTED by C86_batch_adaptive_refuted: dopri5 solves y' = y/t alone from 0 but never returns on the batch (0, 1); fixed-step solvers: C86_batch_fixed"],
  "C87": ["proved", "see the hypotheses of C87_reorder"],
  "C88": ["partial", "REFUTED by C88_shift_fixed_refuted: euler works on [0, 1] and raises AssertionError on [1e6, 1e6+1]; adaptive solvers on increasing grids: C88_shift_adaptive; fixed-step solvers on grids without close times: C88_shift_fixed"],
  "C89": ["proved", "flattened states; SDEFunc dispatch included"],
  "C90": ["partial", "REFUTED by C90_default_bm_refuted: bm=None is called, TypeError; with a Brownian motion: C89_neuralsde"],
  "C91": ["partial", "REFUTED by C91_sensitivity_refuted: NotImplementedError for everything but 'autograd' (for which see C89)"],
  "C92": ["partial", "REFUTED by C92_depthcat_refuted: TypeError, SDEFunc never sets the attribute t"],
  "C93": ["proved", "sin, cos, tanh of Coq's reals"],
  "C94": ["partial", "REFUTED by C94_width_refuted: four columns give five (Lorenz), three give two (VanDerPol); right widths: C93_textbook"],
  "C95": ["proved", ""],
  "C96": ["partial", "REFUTED by C96_usable_refuted for the nine classes whose time parameter is called s; Lorenz and VanDerPol: C96_usable_partial"],
  "C97": ["proved", "StiffFourierSystem is the same code with more harmonics"],
  "C98": ["proved", "any number of hidden layers"],
  "C99": ["partial", "REFUTED by C99_arguments_refuted: layers and activation are ignored; dim and hdim: C99_sizes_partial"],
  "C100": ["partial", "REFUTED by C100_templates_refuted: super(BaseExplicit, DiffEqSolver) raises TypeError"],
  "C101": ["partial", "REFUTED by C101_module_methods_refuted: solver objects are dropped; names: C101_named_methods_partial"],
  "C102": ["proved", "explicit constants for every tableau; values per solver in C102_constants"],
  "C103": ["partial", "REFUTED by C103_rk4_time_refuted: RungeKutta4 is only first order for fields with explicit time (C103_rk4_first_order_partial); Euler, Midpoint, and RungeKutta4 without explicit time: C103_order_partial"],
  "C104": ["proved", "derivatives of the solution and of the Jacobian along it, and the quadratic remainder of the field, are hypotheses (smooth_solution)"],
  "C105": ["proved", "for every NumOps arithmetic; forward, reversed and hybrid solves"],
  "C106": ["partial", "REFUTED by C106_tolerance_refuted: polynomial right-hand sides in t that vanish at all calls; C106_reliable_estimate_partial: true if the estimate bounds the local error up to a factor, and then linear in the number of steps"],
  "C107": ["proved", "RndOps: every operation of the model is followed by a rounding; IEEE formats through Flocq's round (no overflow). Euler, Midpoint, RungeKutta4; float16 is excluded by u <= 1e-6"],
  "C108": ["proved", "Euler, explicit constants; the returned states are assumed bounded by B"],
  "C109": ["proved", "mszero; flows over one interval as in C30; the Lipschitz constants of the flows are hypotheses"],
  "C110": ["proved", "diagonal shapes, diffusion constant in time and state; C110_oscillation bounds w by the modulus of continuity of the path"],
  "C111": ["proved", "in binary64 (FloatOps, through Flocq), without interpolation and seminorm; C111_overflow_accepted shows that infinities can be returned"],
  "C112": ["proved", "same smoothness hypotheses as C104; real arithmetic with the decimal weights of the code"],
  "C113": ["proved", "exact arithmetic; conv2d of torch modelled by index formula"],
  "C114": ["proved", "exact arithmetic; vector-Jacobian products of autograd are a hypothesis (they transpose the derivative); no integral loss term; the constant C is explicit in the proof, existential in the statement"],
  "C115": ["proved", "exact arithmetic, one-dimensional (unbatched) states; the times of a decreasing grid come back negated (C06)"],
  "C116": ["partial", "REFUTED by C116_reversed_velocity_refuted for decreasing grids started from the velocity f(t0, x0): the first step is off by at least h^2/2. Proved with explicit constant for increasing grids and any error delta of the initial velocity (C116_leapfrog_second_order), and for decreasing grids started from the velocity -f(t0, x0) (C116_reversed_second_order)"],
  "C117": ["partial", "REFUTED by C117_round_trip_refuted for the state as returned: in reversed time the velocity has to be negated by the caller. Proved when the velocity of the final state is negated (C117_leapfrog_reversible)"],
  "C118": ["partial", "REFUTED by C118_return_all_eval_refuted (argument ignored), C118_reversed_first_slope_refuted (first slope taken from the wrong field at the wrong time), C118_half_slope_refuted (order 1 fails with two or more positions) and C118_adaptive_leapfrog_refuted (never returns). Proved: increasing grids with order other than 1 agree with odeint (C118_adaptive_same_as_odeint)"],
  "C119": ["proved", "exact arithmetic; fixed-step solvers. With adaptive solvers the initial step size uses the norm of the whole adjoint state, so the steps do depend on the tracked parameters"],
  "C120": ["partial", "REFUTED by C120_parameter_error_refuted: the argument seminorm is never read and the adjoint always uses the seminorm, the parameter gradient has the same error of 4 percent for the tolerances 1e-3, 1e-6 and 1e-9. Proved: the acceptance test does not depend on the parameter components (C120_unchecked_components)"],
  "C121": ["partial", "REFUTED by C121_optimizable_params_refuted: optimizable_params are silently dropped if the field has parameters, own ones or ones registered by an earlier problem (also the dummy). Proved: C121_tracked"],
  "C122": ["partial", "REFUTED by C122_import_order_refuted (after importing torchdyn.numerics first, SDEProblem calls a module: TypeError) and C122_hybrid_import_refuted (torchdyn.models.hybrid never imports: LSDEFunc does not exist). Proved for all sequences: every other module imports, every other name is order-independent, the first import alone decides about sdeint, and every loaded module is an attribute of its package except odeint and sdeint, which are the functions (C122_submodules)"],
  "C123": ["partial", "REFUTED by C123_dict_states_refuted (solver names read x.dtype, all solvers read x.device: AttributeError for every dictionary) and C123_lost_key_refuted (a dropped key silently gets a shorter trajectory). Proved: C123_custom_solver, for every fixed-step solver that overrides sync_device_dtype and keeps keys and sizes"],
  "C124": ["partial", "REFUTED for rk4 by C124_rk4_refuted (its stages are evaluated at wrong times: y' = t gives 1/4 instead of 1/2 after one unit step). Proved for euler, midpoint, dopri5 at the stated degrees and for rk4 at degree 0: C124_polynomial_integrals"],
  "C125": ["proved", "C125_linear_system for all four methods and both loops, C125_linear_fixed with the exact grid spacings"],
  "C126": ["proved", "C126_decay, C126_stability_limit, C126_oscillator, C126_oscillator_energy"],
  "C127": ["proved", "C127_ito_mean"],
  "C128": ["partial", "REFUTED for milstein_stratonovich by C128_milstein_refuted (average 3 instead of 5/2 after one unit step of dX = X dt + X o dW: the support point of the derivative-free correction contains the drift). Proved for eulerHeun: C128_heun_mean; the exact recursion of milstein_stratonovich: C128_milstein_mean"],
  "C129": ["proved", "C129_second_moment, C129_mean_square_stability"],
  "C130": ["partial", "REFUTED by C130_refuted (euler, g(x) = x on [0; 1]: samples move by z -> 2 z, but the log-density falls by 1, not ln 2). Proved: the log-density entry is exact for the continuous flow of every field of constant divergence and every built-in solver (C130_constant_divergence); for one-dimensional flows and euler the error is at most 2 L^2 times the sum of the squared spacings (C130_euler_density)"],
  "C131": ["partial", "REFUTED for midpoint by C131_midpoint_refuted (f = max(-1, 4 - 20 t) y, one step of length 1 takes 1 to -2). Proved for euler: C131_euler_nonnegative, and the limit lambda h <= 1 is sharp: C131_euler_limit"],
  "C132": ["proved", "C132_euler_contraction, C132_euler_nonexpansive"],
  "C133": ["partial", "REFUTED for alpha and phi by C133_line_search_refuted (never logged). Everything else proved: C133_log"],
  "C134": ["partial", "REFUTED by C134_failure_refuted (the keys before the missing one are already extended). Proved: C134_permanent_log"],
  "C135": ["partial", "REFUTED for ODEProblem and NeuralODE by C135_problem_refuted (their solvers are built with float32 coefficients: relative errors 2^-25, 3/2^27, -7/2^29 at all tolerances). Proved for odeint with a name: C135_named; the coefficients are correctly rounded: C135_rounding; what holds for problems: C135_problem_partial"],
  "C136": ["partial", "REFUTED by C136_half_refuted (after one half precision solve the coefficients keep 11 bits). Proved for histories of float32 and float64: C136_precise_partial"],
  "C137": ["partial", "REFUTED for the adaptive solvers by C137_adaptive_refuted (the loss takes part in the error control: with a loss 1/t dopri5 never returns although the states are constant). Proved: the first column is the quadrature along the returned states, all solvers (C137_quadrature); the states are unchanged for the fixed-step solvers (C137_same_states); constant losses (C137_constant); the field of a NeuralODE has this form (C137_neuralode)"],
  "C138": ["partial", "REFUTED for decreasing t_span by C138_decreasing_refuted (the spline has its knots at the negated times and is extrapolated) and for states with other than two axes by C138_shape_refuted. Proved for increasing grids and states of shape (k, d): C138_gradient, C138_euler"],
  "C139": ["partial", "REFUTED by C139_raises_refuted (always raises, the arguments of torchcde are exchanged); the validation would pass otherwise: C139_exchanged_partial"],
  "C140": ["partial", "REFUTED by C140_parameters_refuted, C140_train_refuted (TypeError: the classes are unhashable) and C140_equal_refuted (callbacks of one class are equal). Proved for trees without callbacks (C140_plain) and for a callback as the root of train() and to() (C140_train)"],
  "C141": ["partial", "REFUTED by C141_time_lost_refuted: the step that was to end at a requested time is replaced by the event, but the checkpoint counter has advanced. Proved: every solve that returns with j_span >= 2 reaches the last time (C141_final_time), and with persistent events it starts at the first and ends exactly at the last one (C141_endpoints)"],
  "C142": ["partial", "REFUTED by C142_spurious_event_refuted for every atol, rtol: the error of a step that triggers an event, and of the bisection steps, is never compared with the tolerances. Proved: no jump if no solver step of any size, accepted or not, fires a callback (C142_no_event_partial)"],
  "C143": ["proved", "Real numbers with derivatives; every grid and save_at, including reversed time and the exceptions of save_at"],
  "C144": ["partial", "REFUTED by C144_event_gradient_refuted (reals) and C144_default_refuted (binary64, default tolerances): the bisection runs under torch.no_grad, so the state before the jump loses its history. Proved: what an event iteration passes on (C144_event_detached), for all fields, events and solvers"],
  "C145": ["proved", "Real numbers, maximum norm, explicit constants; every separated increasing grid"],
  "C146": ["partial", "REFUTED by C146_reversed_refuted: time is reversed by negating the field and t_span, which the network does not see. Proved: the reversed solve uses the network (-1)^(order+1) g(-t, x) (C146_reversed_network); HyperEuler with a network without time steps negatively (C146_hyper_euler_partial)"],
  "C147": ["partial", "REFUTED by C147_backward_raises_refuted for every field, in any arithmetic: the adjoint solver defaults to the hypersolver, and its network gets the augmented state. Proved: the forward pass is that of the hypersolver (C147_forward_partial); with sensitivity='autograd' the gradients are exact (C143)"],
  "C148": ["proved", "By parametricity of the model in the number system (L_Rel.v); the field, solver and callbacks are assumed to compute the same values with and without derivatives"],
  "C149": ["partial", "REFUTED by C149_list_refuted: line 415 gives the list the default dtype and torch.isclose raises for different dtypes, so lists of floats with a float64 t_span and lists of integers with a floating point t_span always raise. Proved: the list is as good as a tensor when the dtypes agree (C149_same_dtype_partial)"],
  "C150": ["partial", "REFUTED by C150_adaptive_refuted and C150_hybrid_refuted: the initial step size is converted to the dtype of t0, becomes 0 and stays 0, and the solve never ends. Proved: fixed-step solves are not affected (C150_fixed_partial)"],
  "C151": ["partial", "REFUTED by C151_dtype_refuted: dopri5 promotes a float32 state to float64 on a float64 t_span (clipped steps are tensors with an axis), and a float16 or bfloat16 state to float32 on any t_span (the float32 step size factors have an axis). Proved: fixed-step solvers keep every dtype (C151_fixed); dopri5 and tsit5 keep the dtype of x if it holds float32 and the dtype of t_span, with and without events (C151_keeps_partial, C151_hybrid_partial); Euler's method and the midpoint rule call the field at times of the dtype of t_span only (C151_times)"],
  "C152": ["partial", "REFUTED by C152_rk4_refuted, C152_dopri5_refuted, C152_tsit5_refuted, C152_scalar_refuted: rk4 and dopri5 multiply with the row a[0], a tensor with an axis, and dopri5 and tsit5 with step sizes that have an axis, so that stacking the states raises RuntimeError. Proved: the statement for Euler and Midpoint (C152_fixed_partial)"],
  "C153": ["partial", "REFUTED by C153_gradient_refuted and, in general, by C153_leaf: every state returned is the initial state or has derivative 0, because the step returns an nn.Parameter. Proved: the values returned are those of the solve without gradients (C153_values_partial)"],
  "C154": ["partial", "REFUTED for MSBackward by C154_backward_refuted (the product with the Jacobian is computed without create_graph and has no derivative) and for ParallelImplicitEuler by C154_implicit_refuted and, in general, C154_implicit_leaf (it returns an nn.Parameter). Proved: the statement for MSZero with fixed-step methods and hypersolvers (C154_parareal, C154_parareal_guess); the values returned with MSBackward do not depend on gradients being recorded (C154_backward_values_partial)"],
  "C155": ["partial", "REFUTED by C155_adaptive_refuted: adapt_step is under torch.no_grad while init_step is not, so the first step size is differentiated and the others are not; for x' = 1 + t^5/10^5 the gradient is 1 and the derivative is 0.988889. Proved: single steps differentiate correctly in state, parameters, time, step size and first stage (C155_step_partial); solves that take one step have exact gradients (C155_single_partial); the values do not depend on gradients being recorded (C148)"],
  "C156": ["partial", "REFUTED by C156_adaptive_refuted: init_step's formula h1 = (0.01 / max(d1, d2))^(1/(order+1)) and its constants 1e-5, 1e-6, 1e-15 are not invariant under a change of the unit of time, so the first step, and with it the states, depend on the unit; and by C156_fixed_refuted: euler over [0, 1] works but over [0, 1e-9] raises AssertionError, because the loop compares times with torch.isclose (absolute tolerance 1e-8). Proved: fixed-step solves return the same states whenever both grids are separated with respect to torch.isclose (C156_fixed); given the converted first step, the whole adaptive loop gives the converted result (C156_loop_partial)"],
  "C157": ["proved", "for grids that torch.isclose separates (other grids raise AssertionError, see C04); C157_backward: decreasing t_span, whose returned times are negated (C06)"],
  "C158": ["partial", "REFUTED by C158_control_refuted: the control of DataControl modules is overwritten by every forward or trajectory call, and the backward passes of both adjoints call the field with the control it has then; after node([1]), node([2]) the backward pass of the first call returns 3 instead of 2 (the noise of CNFs with Hutchinson estimators is held in the same way); by C158_trajectory_refuted for a trajectory call in between; and by C158_update_refuted for parameters changed in between, which autograd would reject. Proved: the results of forward and trajectory calls do not depend on earlier calls (C158_results_partial); gradients are correct if only harmless calls come in between (C158_own_partial), in particular for all calls but updates when the field has no control (C158_uncontrolled_partial); the gradients of the fresh module are right for fields that are affine in the state (C158_fresh_partial)"],
  "C159": ["partial", "REFUTED by C159_control_refuted: the control is detached (neuralde.py line 121), so for x' = u, u = x(0), node(x) = 2 x has gradient 1. Proved: the gradients are the derivatives when the control is held fixed (C159_fixed_control_partial)"],
  "C160": ["partial", "REFUTED by C160_zero_entry_refuted: the scaled error of an entry that is zero and stays zero is 0/0 when atol = 0, the error ratio is NaN, every step is rejected and t stays where it is: dopri5 and tsit5 run out of every number of iterations, for all such fields, states, grids and rtol. Proved: for positive finite atol and finite rtol the scaled error of a zero entry is 0 (C160_absolute_partial)"],
  "C161": ["partial", "REFUTED by C161_parameter_refuted (a parameter, submodule or property named t makes every call raise TypeError or AttributeError), C161_overwrite_refuted (values and buffers named t hold the time of the last call afterwards) and C161_value_refuted (x' = -x/t with a time constant in the attribute t is computed with the current time). Proved: if only library modules have an attribute t, every sequence of calls returns the values that are meant, counts one evaluation per call and leaves other modules alone (C161_no_clash_partial)"],
  "C162": ["proved", "C162_symplectic, C162_odeint (states with position and velocity), C162_start (velocity started by the field)"],
  "C163": ["partial", "REFUTED by C163_classes_refuted (a third class, or fewer samples than the default 128, raises IndexError), C163_dataset_refuted (plot_3D_dataset scatters all points once for every label, so all are seen in the colour of the last one), C163_fields_refuted (plot_static_vector_field raises AttributeError for every NeuralODE, plot_traj_vf_1D NameError for every controlled one) and C163_boundary_refuted (plot_2d_boundary cannot reshape its predictions) and C163_signs_refuted (classes labelled -1 and 1 are drawn in the same colour). Proved: the grids of the plots are evenly spaced (C163_grid), the arrows of plot_static_vector_field would be right had models the attribute it reads (C163_static_partial), two classes and enough samples are drawn correctly (C163_trajectories_partial), as is the field of an uncontrolled one-dimensional NeuralODE (C163_field_partial)"],
  "C164": ["proved", "C164_gradient; the Milstein solvers take the square root of the step size, hence the increasing grid"],
  "C165": ["partial", "REFUTED by C165_interpolated_refuted (4 expected, 2 returned) and, for every field, C165_interpolated: the interpolated adjoint calls grad without create_graph, so the derivative of its gradient only has the direct part. C165_autograd_partial: second derivatives through sensitivity='autograd' are exact. Not covered: sensitivity='adjoint', whose backward pass frees the graph it would have to differentiate."],
  "C166": ["partial", "REFUTED by C166_silent_refuted (t_stops has no effect on any solve and is never announced; C166_silent: the same for args, for interpolator, return_all_eval and seminorm with fixed-step solvers, for the interpolator with tsit5) and by C166_unrequested_refuted (ODEProblem with a fixed-step solver and its own defaults warns in every solve; C166_unrequested: the adjoint of NeuralODE warns once per interval, args produces the warning about save_at). C166_announced_partial: the exact conditions of all four warnings, and that the announced options indeed have no effect. C166_others: odeint_symplectic and sdeint. C166_defaults: a call with default options is quiet. C166_symplectic: the warning of odeint_symplectic, exactly."],
  "C167": ["proved", "C167_units, C167_units_hybrid: equality of the calls of the field and of the outcomes, exceptions included; exact arithmetic"],
  "C168": ["proved", "C168_rounding; C168_total_error adds the error of the method (rk4: for fields without explicit time, see C103); no overflow; computed states bounded by B"],
  "C169": ["partial", "REFUTED for RungeKutta4 by C169_rk4_refuted (1/4 and 1/2 on x' = t): its stages evaluate the field at the wrong times. C169_time_state and C169_clock: true for Euler and Midpoint, with all options. C169_dopri5_step: true for every step of dopri5 (adaptive solves average the error over one more component, so their step sizes differ). C169_rk4_classical: the autonomous formulation makes RungeKutta4 the classical method, also for time-dependent fields."],
  "C170": ["proved", "C170_rotations, C170_rotations_hybrid. With rtol > 0 the tolerance of each entry depends on its size, so the orientation matters by design."],
  "C171": ["partial", "REFUTED for roots at zero by C171_zero_root_refuted: with the default tolerances the relative test |dz| <= x_rtol |z| never holds, all iterations are used and no termination is logged although the iterates converge. C171_linear_convergence: linear convergence for every root. C171_true_jacobian: the inverse derivatives at the start are admissible initial inverse slopes. C171_termination: if no root is zero, the run ends by its tolerances, and further iterations do not change it."],
  "C172": ["proved", "C172_descent: decrease per step. C172_convex_rate: the O(1/t) rate for convex energies and the distance to minimisers. C172_limit: the step limit 2/L is sharp. The field is the model's gnf on a batch of one row, with grad_sum the gradient of the summed energy. C172_implicit_descent: implicit Euler decreases convex energies for every step size."],
  "C173": ["proved", "C173_energy_order: euler, midpoint, rk4 (rk4 has its full order because the field has no explicit time). C173_energy_dopri5: adaptive. C173_euler_growth: exact growth of the oscillator's energy. The field is the model's hnn on a batch of one row."],
  "C174": ["proved", "C174_contraction, C174_equilibrium, C174_accuracy. The optimiser (LBFGS) is any function that brings the objective of every step below eps^2; that LBFGS does so is an assumption of the statement. The field is evaluated at the old time (see C26), which costs the term K but not the order."],
  "C175": ["proved", "C175_distinct, C175_order, C175_reflection; C175_limit: the bound is sharp for euler (y' = -y: the step 1 merges all states, the step 2 reflects them). growth is evaluated for the three solvers in C102_constants."],
  "C176": ["partial", "REFUTED for rk4 by C176_rk4_refuted: y' = t forward and back over [0, 1] in m steps ends 1/(2m) off, first order instead of fourth (the wrong nodes of rk4, see C22). Proved: euler, midpoint, and rk4 for fields without explicit time (C176_return_partial)."],
  "C177": ["partial", "REFUTED for milstein_stratonovich by C177_milstein_refuted: for dX = X dt + X o dW the error of the mean is about sqrt(h) / 2 (the predictor state contains the drift, see C128). Proved: the mean for euler, milstein_ito and eulerHeun and the mean square for euler with explicit constants (C177_ito_mean_partial, C177_ito_square_partial, C177_heun_mean_partial); milstein_stratonovich converges with order one half (C177_milstein_half_order_partial)."],
  "C178": ["proved", "tsit5 ignores the interpolator (C166), so the claim is about dopri5. The equality of the calls is proved for increasing grids, the equality of the states for both directions."],
  "C179": ["proved", "For fixed-step adjoint solvers, as in the statement. An adaptive adjoint solver chooses its steps from the size of the adjoint, so its gradients add up only up to the tolerance; nothing is claimed for it."],
  "C180": ["partial", "REFUTED for the adaptive solvers by C180_adaptive_refuted: for a continuous field that does not depend on the state, dopri5 with tolerances 10^-3 has a final state that jumps by more than 1/50 at the initial state 365/36, where the acceptance of the first step changes. Proved for the fixed-step solvers with Lipschitz fields (C180_fixed_partial)."],
  "C181": ["proved", "As in the statement, for t0 <> t1."],
  "C182": ["proved", "As in the statement."],
  "C183": ["partial", "REFUTED for midpoint by C183_midpoint_refuted (its first stage has weight zero: for every step size a larger field can end strictly lower) and for dopri5 by C183_adaptive_refuted (two initial states of a field that does not depend on the state change places, by more than 1/50). For rk4 REFUTED in two dimensions by C183_rk4_refuted (every step size up to one), proved in one dimension with steps at most 1/(2L) (C183_rk4_partial). Proved for euler in all dimensions with steps at most 1/L (C183_euler_partial). The order of initial states of one scalar field under midpoint and rk4: C175_order."],
  "C184": ["partial", "REFUTED by C184_moons_refuted (both coordinates of a point move by the same number, never negative), C184_spirals_refuted (never negative on one arm, the opposite perturbation on the other arm), C184_gaussians_refuted and C184_gaussians_spiral_refuted (all points of a Gaussian move by the same vector). Proved for generate_concentric_spheres with an even number of samples (C184_spheres_partial; odd numbers raise, C56)."],
  "C185": ["partial", "REFUTED for dopri5 by C185_adaptive_refuted: for a continuous field that does not depend on the state the solve with tolerances 10^-3 is exact, the solve with 0.999 * 10^-3 is off by more than a hundred times the tolerances. Proved: fixed-step solves do not depend on the tolerances (C185_fixed_partial), the number compared with one only grows when tolerances shrink, so acceptance is monotone for one trial step (C185_acceptance_partial), and it is inversely proportional to them (C185_scaling_partial)."],
  "C186": ["partial", "REFUTED by C186_symplectic_refuted: after an odd number of steps the map reverses the sign of the form (in one dimension every area changes orientation), because the velocity is reflected in each step. Proved for all dimensions, gradients and grids: at the k-th time the form is multiplied by (-1)^k, so it is preserved at every even index (C186_form_partial)."],
  "C187": ["partial", "REFUTED for dopri5 by C187_superposition_refuted: for a field that does not depend on the state the mean of two solves differs from the solve from the mean of the states by more than 1/100 (tolerances 10^-3), because the steps depend on the state. Proved exactly for euler, midpoint and rk4 for all dimensions, coefficients, sources and grids (C187_superposition_fixed_partial)."],
  "C188": ["partial", "REFUTED by C188_grid_refuted: an inner time met by a step without clamping is returned twice, after a step of length zero (odeint never repeats a time), and by C188_reversed_refuted: in reversed time odeint_hybrid returns only the initial state, for every problem. Proved for every grid made of a start and a later (or equal) end time: same calls, same outcome (value, exception or still running), for any adaptive step function, interpolator, priority and event tolerance (C188_plain_partial)."],
  "C189": ["partial", "REFUTED: every fixed-step solver raises AssertionError on every grid with a repeated time (C189_fixed_refuted); with every adaptive solver a repetition of the last time changes neither calls nor outcome, so it is returned once (C189_last_refuted), in particular an interval of length zero gives one state (C189_zero_interval_refuted). Proved for the built-in adaptive solvers: a repeated first time is returned twice with the initial state (C189_start_partial)."],
  "C190": ["proved", "As in the statement."],
  "C191": ["proved", "As in the statement; the case tau = 1 is the change of units of the state alone, c = 1 the scaling of Brownian motion."],
  "C192": ["proved", "As in the statement."],
  "C193": ["partial", "REFUTED by C193_milstein_refuted: in binary64 both Milstein solvers return only NaN after the initial state when the first step goes backwards, for every SDE, because they take the square root of the negative step (run in C193_run_refuted). Proved: euler and eulerHeun follow their schemes backwards over the reals (C193_euler_partial)."],
  "C194": ["partial", "REFUTED by C194_milstein_refuted: in binary64 both Milstein solvers return only NaN after the initial state when the first time is repeated, for every SDE with additive noise and finite diffusion (0/0; run in C194_run_refuted). Proved over the reals: euler and eulerHeun return a repeated time, at any place, as often as requested and with the same state (C194_euler_partial)."],
  "C195": ["partial", "REFUTED for the backward variant by C195_msbackward_refuted: one pass from a guess with the invariant 0 in every row returns a state with invariant -1 (the transposed Jacobian does not keep it). Proved for parareal (mszero): linear invariants and equilibria are kept in all returned states for every number of passes (C195_parareal_partial)."],
  "C196": ["proved", "Over the reals, with increments of the size of the state (for scalar noise: equal entries, what broadcasting gives). Linear invariants: C196_invariant; equilibria: C196_equilibrium."],
  "C197": ["proved", "Over the reals, for dopri5 and tsit5: C197_invariant, C197_equilibrium."],
  "C198": ["proved", "For every arithmetic of the model (reals, binary64): C198_blocks. Batches follow by repetition."],
  "C199": ["proved", "For every arithmetic of the model (reals, binary64): C199_reorder. Solver names that raise for the original SDE are outside the theorem."],
  "C200": ["proved", "Real arithmetic, where t + dt is the next grid time, and default save_at: C200_causal."],
  "C201": ["proved", "odeint_symplectic with the fixed-step leapfrog solver, real arithmetic, default save_at: C201_invariant, C201_equilibrium."],
  "C202": ["proved", "odeint_symplectic with the fixed-step leapfrog solver, real arithmetic, default save_at: C202_affine."],
  "C203": ["proved", "As in the statement, for the maximum norm, real arithmetic and default save_at: C203_dependence."],
  "C204": ["partial", "REFUTED by C204_multiplicative_refuted: for dX = X dW an Euler-Maruyama step over which the path falls by more than 1 crosses, however short the step; additive noise, all solvers, L h <= 1: C204_additive_partial"],
  "C205": ["proved", "Increasing grids, real arithmetic, default save_at: C205_causal. Adaptive solvers are outside the statement (the initial step is chosen with a trial call that may lie beyond the first output)."],
  "C206": ["partial", "REFUTED by C206_adaptive_refuted: for y' = 1 from 1000 over [0, 1] dopri5 and tsit5 call the field at time 10 to choose the initial step. Proved on increasing grids: C206_fixed_partial (euler, midpoint, rk4, leapfrog: no call outside) and C206_adaptive_partial (dopri5, tsit5: no call outside except the second one, which chooses the initial step)."]
}
