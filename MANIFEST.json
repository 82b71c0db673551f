{
 "claims": [
  {
   "property": "C01",
   "status": "proved",
   "theorems": [
    "C01_fixed_trajectory",
    "C01_trajectory_pointwise"
   ],
   "note": ""
  },
  {
   "property": "C02",
   "status": "proved",
   "theorems": [
    "C02_save_at_selects",
    "C02_save_at_general"
   ],
   "note": ""
  },
  {
   "property": "C03",
   "status": "partial",
   "theorems": [
    "C03_outside_save_at_accepted_refuted",
    "C03_save_at_rejection_exact"
   ],
   "note": "REFUTED by C03_outside_save_at_accepted_refuted; exact rejection condition proved"
  },
  {
   "property": "C04",
   "status": "partial",
   "theorems": [
    "C04_fine_grid_rejected_refuted",
    "C04_grid_acceptance_exact",
    "C04_spaced_grid_accepted"
   ],
   "note": "REFUTED by C04_fine_grid_rejected_refuted; exact acceptance condition proved"
  },
  {
   "property": "C05",
   "status": "proved",
   "theorems": [
    "C05_reverse_is_negative_stepping",
    "C05_euler",
    "C05_midpoint",
    "C05_rk4"
   ],
   "note": ""
  },
  {
   "property": "C06",
   "status": "partial",
   "theorems": [
    "C06_reversed_times_refuted",
    "C06_reversed_times_exact",
    "C06_reversed_list_TypeError"
   ],
   "note": "REFUTED for decreasing grids by C06_reversed_times_refuted; increasing grids: C01, C09"
  },
  {
   "property": "C07",
   "status": "proved",
   "theorems": [
    "C07_restart"
   ],
   "note": ""
  },
  {
   "property": "C08",
   "status": "proved",
   "theorems": [
    "C08_adaptive_evaluations",
    "C08_fixed_evaluations",
    "C08_calls_per_step"
   ],
   "note": ""
  },
  {
   "property": "C09",
   "status": "proved",
   "theorems": [
    "C09_adaptive_times"
   ],
   "note": ""
  },
  {
   "property": "C10",
   "status": "proved",
   "theorems": [
    "C10_interpolated_times",
    "C10_interpolated_states"
   ],
   "note": ""
  },
  {
   "property": "C11",
   "status": "proved",
   "theorems": [
    "C11_all_evaluations"
   ],
   "note": ""
  },
  {
   "property": "C12",
   "status": "proved",
   "theorems": [
    "C12_accepted_steps"
   ],
   "note": ""
  },
  {
   "property": "C13",
   "status": "proved",
   "theorems": [
    "C13_no_overshoot",
    "C13_never_raises"
   ],
   "note": ""
  },
  {
   "property": "C14",
   "status": "proved",
   "theorems": [
    "C14_termination",
    "C14_linear_growth"
   ],
   "note": ""
  },
  {
   "property": "C15",
   "status": "partial",
   "theorems": [
    "C15_never_returns_refuted",
    "C15_no_step_limit",
    "C15_nan_field_refuted"
   ],
   "note": "REFUTED by C15_never_returns_refuted (real arithmetic) and C15_nan_field_refuted (binary64); C14 gives sufficient conditions for returning"
  },
  {
   "property": "C16",
   "status": "partial",
   "theorems": [
    "C16_final_time_lost_refuted",
    "C16_close_grid_partial"
   ],
   "note": "REFUTED by C16_final_time_lost_refuted (t_span = [0, 3.4] in binary64); C09 and C10 hold in exact arithmetic; C16_close_grid_partial: in binary64 every requested time is reported bit for bit when consecutive times have one sign and are within a factor two of each other"
  },
  {
   "property": "C17",
   "status": "proved",
   "theorems": [
    "C17_controller_bounds",
    "C17_controller_monotone"
   ],
   "note": ""
  },
  {
   "property": "C18",
   "status": "proved",
   "theorems": [
    "C18_initial_step"
   ],
   "note": ""
  },
  {
   "property": "C19",
   "status": "proved",
   "theorems": [
    "C19_error_norm"
   ],
   "note": ""
  },
  {
   "property": "C20",
   "status": "partial",
   "theorems": [
    "C20_reversed_run_partial",
    "C20_reversed_steps_refuted"
   ],
   "note": "REFUTED by C20_reversed_steps_refuted; C20_reversed_run_partial gives what holds: same accepted-step relation, only the initial step differs"
  },
  {
   "property": "C21",
   "status": "proved",
   "theorems": [
    "C21_dopri5_step",
    "C21_dopri5_orders"
   ],
   "note": ""
  },
  {
   "property": "C22",
   "status": "partial",
   "theorems": [
    "C22_rk4_time_varying_refuted",
    "C22_rk4_first_order_refuted",
    "C22_rk4_autonomous_partial",
    "C22_classical_orders"
   ],
   "note": "REFUTED by C22_rk4_time_varying_refuted; proved for autonomous fields"
  },
  {
   "property": "C23",
   "status": "proved",
   "theorems": [
    "C23_tsit5"
   ],
   "note": "stronger: within 1e-80"
  },
  {
   "property": "C24",
   "status": "proved",
   "theorems": [
    "C24_euler_converges"
   ],
   "note": ""
  },
  {
   "property": "C25",
   "status": "proved",
   "theorems": [
    "C25_midpoint_second_order",
    "C25_quadratic_exact",
    "C25_exponential"
   ],
   "note": ""
  },
  {
   "property": "C26",
   "status": "partial",
   "theorems": [
    "C26_implicit_euler_wrong_time_refuted",
    "C26_implicit_euler_partial"
   ],
   "note": "REFUTED by C26_implicit_euler_wrong_time_refuted; proved for autonomous fields"
  },
  {
   "property": "C27",
   "status": "proved",
   "theorems": [
    "C27_leapfrog_reversible",
    "C27_leapfrog_value"
   ],
   "note": ""
  },
  {
   "property": "C28",
   "status": "proved",
   "theorems": [
    "C28_hypersolver",
    "C28_zero_network"
   ],
   "note": ""
  },
  {
   "property": "C29",
   "status": "proved",
   "theorems": [
    "C29_interpolant_conditions",
    "C29_reproduces_quartics",
    "C29_mid_weights"
   ],
   "note": ""
  },
  {
   "property": "C30",
   "status": "partial",
   "theorems": [
    "C30_parareal_exact_partial",
    "C30_default_guess",
    "C30_subgrid",
    "C30_sequential_is_fine_solve",
    "C30_guess_replaces_x_refuted",
    "C30_nonuniform_refuted"
   ],
   "note": "REFUTED as stated by C30_guess_replaces_x_refuted (a given B0 replaces x) and C30_nonuniform_refuted (only the first interval length is used); exactness after k sweeps proved for all methods, guesses and sweeps (C30_parareal_exact_partial, C30_default_guess, C30_sequential_is_fine_solve)"
  },
  {
   "property": "C31",
   "status": "partial",
   "theorems": [
    "C31_mszero_actual_partial",
    "C31_default_maxiter_refuted",
    "C31_one_fine_step_refuted",
    "C31_msbackward_actual_partial",
    "C31_msbackward_refuted"
   ],
   "note": "REFUTED by C31_default_maxiter_refuted, C31_one_fine_step_refuted, C31_msbackward_refuted; exact set of admissible maxiter proved"
  },
  {
   "property": "C32",
   "status": "partial",
   "theorems": [
    "C32_residual_zero_partial",
    "C32_time_dependent_refuted"
   ],
   "note": "REFUTED for time dependent fields by C32_time_dependent_refuted; C32_residual_zero_partial: zero residual iff implicit Euler with the field frozen at time 0, for all grids, fields, states"
  },
  {
   "property": "C33",
   "status": "partial",
   "theorems": [
    "C33_jagged_actual",
    "C33_two_points_partial",
    "C33_jagged_refuted",
    "C33_builtin_refuted",
    "C33_shifted_refuted"
   ],
   "note": "REFUTED by C33_jagged_refuted (off by one) and C33_builtin_refuted (TypeError with every built-in solver); C33_jagged_actual states the exact result, C33_two_points_partial the true case"
  },
  {
   "property": "C34",
   "status": "partial",
   "theorems": [
    "C34_event_outputs",
    "C34_times_decrease_refuted"
   ],
   "note": "Jump bookkeeping proved (C34_event_outputs); 'times never decrease' REFUTED by C34_times_decrease_refuted, proved for persistent events (C37_inside_step)"
  },
  {
   "property": "C35",
   "status": "partial",
   "theorems": [
    "C35_requested_times_partial",
    "C35_rejected_time_lost_refuted"
   ],
   "note": "REFUTED by C35_rejected_time_lost_refuted; C35_requested_times_partial proves it when the steps ending at requested times are accepted"
  },
  {
   "property": "C36",
   "status": "partial",
   "theorems": [
    "C36_j_span_ignored",
    "C36_jump_count_refuted",
    "C36_hang_refuted"
   ],
   "note": "REFUTED by C36_jump_count_refuted and C36_hang_refuted; C36_j_span_ignored states what the code does"
  },
  {
   "property": "C37",
   "status": "partial",
   "theorems": [
    "C37_inside_step",
    "C37_never_raises",
    "C37_outside_step_refuted",
    "C37_crash_refuted"
   ],
   "note": "REFUTED by C37_crash_refuted and C37_outside_step_refuted; C37_inside_step and C37_never_raises prove it for persistent events"
  },
  {
   "property": "C38",
   "status": "proved",
   "theorems": [
    "C38_root_find",
    "C38_defaults",
    "C38_unsupported"
   ],
   "note": ""
  },
  {
   "property": "C39",
   "status": "proved",
   "theorems": [
    "C39_broyden_secant",
    "C39_broyden_fast_secant",
    "C39_step"
   ],
   "note": ""
  },
  {
   "property": "C40",
   "status": "proved",
   "theorems": [
    "C40_naive",
    "C40_armijo",
    "C40_naive_binary64"
   ],
   "note": ""
  },
  {
   "property": "C41",
   "status": "proved",
   "theorems": [
    "C41_sde_trajectory"
   ],
   "note": ""
  },
  {
   "property": "C42",
   "status": "proved",
   "theorems": [
    "C42_zero_diffusion",
    "C42_additive_noise",
    "C42_ito_stratonovich"
   ],
   "note": ""
  },
  {
   "property": "C43",
   "status": "partial",
   "theorems": [
    "C43_checked_partial",
    "C43_milstein_unchecked_refuted",
    "C43_midpoint_refuted"
   ],
   "note": "REFUTED by C43_milstein_unchecked_refuted (Milstein solvers never check) and C43_midpoint_refuted; proved for euler and eulerHeun"
  },
  {
   "property": "C44",
   "status": "partial",
   "theorems": [
    "C44_higher_order_partial",
    "C44_integral_loss_refuted",
    "C44_integral_loss_order1"
   ],
   "note": "REFUTED by C44_integral_loss_refuted; proved for every order without integral loss in the state, and for order 1 with one"
  },
  {
   "property": "C45",
   "status": "partial",
   "theorems": [
    "C45_state_only_partial",
    "C45_time_state_args_partial",
    "C45_time_state_refuted",
    "C45_swapped_refuted",
    "C45_extra_argument"
   ],
   "note": "REFUTED by C45_time_state_refuted and C45_swapped_refuted; proved for f(x) and f(t, x, args)"
  },
  {
   "property": "C46",
   "status": "partial",
   "theorems": [
    "C46_forward_partial",
    "C46_trajectory_partial",
    "C46_trajectory_refuted",
    "C46_control_partial",
    "C46_control_refuted"
   ],
   "note": "REFUTED by C46_trajectory_refuted (interpolated_adjoint) and C46_control_refuted (control before divergence module); proved otherwise"
  },
  {
   "property": "C47",
   "status": "partial",
   "theorems": [
    "C47_autograd_partial",
    "C47_adjoint_save_at_refuted",
    "C47_adjoint_args_refuted",
    "C47_args_refuted"
   ],
   "note": "REFUTED by C47_adjoint_save_at_refuted, C47_adjoint_args_refuted, C47_args_refuted; save_at proved for autograd"
  },
  {
   "property": "C48",
   "status": "proved",
   "theorems": [
    "C48_adjoint_gradient",
    "C48_solvers",
    "C48_interpolated"
   ],
   "note": "all explicit Runge-Kutta fixed-step solvers; also the interpolated adjoint"
  },
  {
   "property": "C49",
   "status": "partial",
   "theorems": [
    "C49_interpolated_partial",
    "C49_adjoint_value_partial",
    "C49_adjoint_reversed_refuted"
   ],
   "note": "REFUTED by C49_adjoint_reversed_refuted for the adjoint (t_sol is negated); true for the interpolated adjoint with constant Jacobian; C49_adjoint_value_partial says what the adjoint returns"
  },
  {
   "property": "C50",
   "status": "partial",
   "theorems": [
    "C50_autograd_partial",
    "C50_adjoint_refuted"
   ],
   "note": "REFUTED by C50_adjoint_refuted; proved for autograd"
  },
  {
   "property": "C51",
   "status": "proved",
   "theorems": [
    "C51_augmenter_first",
    "C51_augmenter_last",
    "C51_augment_func",
    "C51_depthcat",
    "C51_datacontrol",
    "C51_mismatch",
    "C51_bad_dimension",
    "C51_no_time"
   ],
   "note": ""
  },
  {
   "property": "C52",
   "status": "proved",
   "theorems": [
    "C52_weights",
    "C52_layer",
    "C52_linear",
    "C52_zero",
    "C52_conv_split"
   ],
   "note": "GalConv2d: only the split of the weight vector, not the convolution"
  },
  {
   "property": "C53",
   "status": "partial",
   "theorems": [
    "C53_chebychev_recurrence",
    "C53_chebychev",
    "C53_polynomial_refuted",
    "C53_polynomial_partial"
   ],
   "note": "REFUTED for Polynomial by C53_polynomial_refuted (exponents deg/(deg-1) apart); Chebychev proved for all degrees"
  },
  {
   "property": "C54",
   "status": "proved",
   "theorems": [
    "C54_autograd",
    "C54_hutchinson",
    "C54_unbiased",
    "C54_rademacher",
    "C54_no_data"
   ],
   "note": ""
  },
  {
   "property": "C55",
   "status": "proved",
   "theorems": [
    "C55_hnn",
    "C55_gnf",
    "C55_lnn"
   ],
   "note": ""
  },
  {
   "property": "C56",
   "status": "partial",
   "theorems": [
    "C56_randnsphere",
    "C56_spheres_partial",
    "C56_spheres_odd_refuted",
    "C56_moons",
    "C56_spirals_partial",
    "C56_gaussians_partial",
    "C56_gaussians_spiral_partial",
    "C56_no_loop",
    "C56_sizes_refuted"
   ],
   "note": "REFUTED by C56_spheres_odd_refuted (odd n_samples raise) and C56_sizes_refuted (spirals return 2n, gaussians n*n_gaussians points); true: C56_randnsphere, C56_moons for all n, spheres for even n, the rest with the real sizes"
  },
  {
   "property": "C57",
   "status": "partial",
   "theorems": [
    "C57_names",
    "C57_meaning",
    "C57_alf_dtype_refuted"
   ],
   "note": "REFUTED for the dtype of 'alf' by C57_alf_dtype_refuted; names, classes and orders proved"
  },
  {
   "property": "C58",
   "status": "partial",
   "theorems": [
    "C58_first_pass_partial",
    "C58_second_pass_partial",
    "C58_second_pass_refuted"
   ],
   "note": "REFUTED by C58_second_pass_refuted; first and second sweep characterised exactly"
  },
  {
   "property": "C59",
   "status": "partial",
   "theorems": [
    "C59_affine_one_pass_partial",
    "C59_transposed_jacobian_refuted"
   ],
   "note": "REFUTED by C59_transposed_jacobian_refuted; proved when the product used is the true directional derivative (C59_affine_one_pass_partial), e.g. scalar and symmetric problems"
  },
  {
   "property": "C60",
   "status": "partial",
   "theorems": [
    "C60_general_noise_refuted",
    "C60_diagonal_shape_partial",
    "C60_shared_increment_partial"
   ],
   "note": "REFUTED by C60_general_noise_refuted; diagonal shapes proved"
  },
  {
   "property": "C61",
   "status": "partial",
   "theorems": [
    "C61_save_at_actual_partial",
    "C61_subgrid_partial",
    "C61_off_grid_refuted"
   ],
   "note": "REFUTED by C61_off_grid_refuted; exact behaviour for every save_at and the sub-grid case proved"
  },
  {
   "property": "C62",
   "status": "partial",
   "theorems": [
    "C62_affine_partial",
    "C62_default_search_refuted"
   ],
   "note": "REFUTED by C62_default_search_refuted; exact residual decay without line search proved"
  },
  {
   "property": "C63",
   "status": "partial",
   "theorems": [
    "C63_naive_partial",
    "C63_armijo_refuted"
   ],
   "note": "REFUTED by C63_armijo_refuted; proved for the naive search"
  },
  {
   "property": "C64",
   "status": "partial",
   "theorems": [
    "C64_reference_residual_refuted",
    "C64_first_check_partial"
   ],
   "note": "REFUTED by C64_reference_residual_refuted"
  },
  {
   "property": "C65",
   "status": "partial",
   "theorems": [
    "C65_solver_adjoint_refuted",
    "C65_solver_adjoint_names_partial"
   ],
   "note": "REFUTED by C65_solver_adjoint_refuted (module); None and names work"
  },
  {
   "property": "C66",
   "status": "partial",
   "theorems": [
    "C66_sde_trajectory_refuted"
   ],
   "note": "REFUTED by C66_sde_trajectory_refuted"
  },
  {
   "property": "C67",
   "status": "partial",
   "theorems": [
    "C67_unused_parameter_refuted"
   ],
   "note": "REFUTED by C67_unused_parameter_refuted: RuntimeError for every unused tensor with more than one element"
  },
  {
   "property": "C68",
   "status": "partial",
   "theorems": [
    "C68_two_entries_refuted",
    "C68_start_time_refuted"
   ],
   "note": "REFUTED by C68_two_entries_refuted and C68_start_time_refuted"
  },
  {
   "property": "C69",
   "status": "partial",
   "theorems": [
    "C69_rows_ignored",
    "C69_interpolated_adaptive_refuted"
   ],
   "note": "REFUTED by C69_interpolated_adaptive_refuted; C69_rows_ignored says which rows are used"
  },
  {
   "property": "C70",
   "status": "proved",
   "theorems": [
    "C70_parameter_gradient"
   ],
   "note": ""
  },
  {
   "property": "C71",
   "status": "partial",
   "theorems": [
    "C71_no_bias_refuted",
    "C71_conv_no_bias_refuted"
   ],
   "note": "REFUTED by C71_no_bias_refuted: every forward raises TypeError"
  },
  {
   "property": "C72",
   "status": "partial",
   "theorems": [
    "C72_adaptive_refuted"
   ],
   "note": "REFUTED by C72_adaptive_refuted: every layer raises RuntimeError"
  },
  {
   "property": "C73",
   "status": "partial",
   "theorems": [
    "C73_values_partial",
    "C73_ignored_refuted"
   ],
   "note": "REFUTED by C73_ignored_refuted: arguments ignored; C73_values_partial gives the values returned"
  },
  {
   "property": "C74",
   "status": "partial",
   "theorems": [
    "C74_fourier_period_refuted",
    "C74_fourier_partial"
   ],
   "note": "REFUTED by C74_fourier_period_refuted for every deg >= 3; C74_fourier_partial gives the values and the true period"
  },
  {
   "property": "C75",
   "status": "partial",
   "theorems": [
    "C75_coupled_rows_refuted"
   ],
   "note": "REFUTED by C75_coupled_rows_refuted; row-wise networks: C54"
  },
  {
   "property": "C76",
   "status": "partial",
   "theorems": [
    "C76_odd_dimension_refuted"
   ],
   "note": "REFUTED by C76_odd_dimension_refuted in every odd dimension; even dimensions: C55"
  },
  {
   "property": "C77",
   "status": "partial",
   "theorems": [
    "C77_snf_refuted"
   ],
   "note": "REFUTED by C77_snf_refuted: every forward raises AttributeError"
  },
  {
   "property": "C78",
   "status": "partial",
   "theorems": [
    "C78_forward",
    "C78_reverse_refuted"
   ],
   "note": "REFUTED for reverse=True by C78_reverse_refuted; C78_forward proves the rest (of the class; its module cannot be imported)"
  },
  {
   "property": "C79",
   "status": "partial",
   "theorems": [
    "C79_order_refuted"
   ],
   "note": "REFUTED by C79_order_refuted: AttributeError"
  },
  {
   "property": "C80",
   "status": "partial",
   "theorems": [
    "C80_no_noise_refuted"
   ],
   "note": "REFUTED by C80_no_noise_refuted; with noise: C54"
  },
  {
   "property": "C81",
   "status": "partial",
   "theorems": [
    "C81_dimension_refuted"
   ],
   "note": "REFUTED by C81_dimension_refuted: dim=3 off the circle, dim>=4 ValueError; dim=2: C56_gaussians_partial"
  },
  {
   "property": "C82",
   "status": "partial",
   "theorems": [
    "C82_unknown_dataset_refuted",
    "C82_names_partial"
   ],
   "note": "REFUTED by C82_unknown_dataset_refuted (None is returned); documented names: C82_names_partial"
  },
  {
   "property": "C83",
   "status": "proved",
   "theorems": [
    "C83_linear_invariant",
    "C83_constant_rate",
    "C83_constant_field"
   ],
   "note": "every built-in solver; constant rates and fields for the outputs that are not interpolated (tsit5: rate within 1e-80)"
  },
  {
   "property": "C84",
   "status": "proved",
   "theorems": [
    "C84_equilibrium",
    "C84_returns"
   ],
   "note": "returned states for all options; termination for adaptive solvers on increasing grids"
  },
  {
   "property": "C85",
   "status": "proved",
   "theorems": [
    "C85_affine_fixed"
   ],
   "note": "fixed-step solvers, exceptions included"
  },
  {
   "property": "C86",
   "status": "partial",
   "theorems": [
    "C86_batch_fixed",
    "C86_batch_adaptive_refuted"
   ],
   "note": "REFUTED by C86_batch_adaptive_refuted: dopri5 solves y' = y/t alone from 0 but never returns on the batch (0, 1); fixed-step solvers: C86_batch_fixed"
  },
  {
   "property": "C87",
   "status": "proved",
   "theorems": [
    "C87_reorder"
   ],
   "note": "see the hypotheses of C87_reorder"
  },
  {
   "property": "C88",
   "status": "partial",
   "theorems": [
    "C88_shift_adaptive",
    "C88_shift_fixed",
    "C88_shift_fixed_refuted"
   ],
   "note": "REFUTED by C88_shift_fixed_refuted: euler works on [0, 1] and raises AssertionError on [1e6, 1e6+1]; adaptive solvers on increasing grids: C88_shift_adaptive; fixed-step solvers on grids without close times: C88_shift_fixed"
  },
  {
   "property": "C89",
   "status": "proved",
   "theorems": [
    "C89_neuralsde",
    "C89_is_sdeint"
   ],
   "note": "flattened states; SDEFunc dispatch included"
  },
  {
   "property": "C90",
   "status": "partial",
   "theorems": [
    "C90_default_bm_refuted"
   ],
   "note": "REFUTED by C90_default_bm_refuted: bm=None is called, TypeError; with a Brownian motion: C89_neuralsde"
  },
  {
   "property": "C91",
   "status": "partial",
   "theorems": [
    "C91_sensitivity_refuted"
   ],
   "note": "REFUTED by C91_sensitivity_refuted: NotImplementedError for everything but 'autograd' (for which see C89)"
  },
  {
   "property": "C92",
   "status": "partial",
   "theorems": [
    "C92_depthcat_refuted"
   ],
   "note": "REFUTED by C92_depthcat_refuted: TypeError, SDEFunc never sets the attribute t"
  },
  {
   "property": "C93",
   "status": "proved",
   "theorems": [
    "C93_textbook",
    "C93_scalar"
   ],
   "note": "sin, cos, tanh of Coq's reals"
  },
  {
   "property": "C94",
   "status": "partial",
   "theorems": [
    "C94_width_refuted"
   ],
   "note": "REFUTED by C94_width_refuted: four columns give five (Lorenz), three give two (VanDerPol); right widths: C93_textbook"
  },
  {
   "property": "C95",
   "status": "proved",
   "theorems": [
    "C95_lorenz_equilibria",
    "C95_lorenz_rest",
    "C95_lorenz_shape",
    "C95_vdp"
   ],
   "note": ""
  },
  {
   "property": "C96",
   "status": "partial",
   "theorems": [
    "C96_usable_partial",
    "C96_usable_refuted"
   ],
   "note": "REFUTED by C96_usable_refuted for the nine classes whose time parameter is called s; Lorenz and VanDerPol: C96_usable_partial"
  },
  {
   "property": "C97",
   "status": "proved",
   "theorems": [
    "C97_fourier",
    "C97_linear_layer",
    "C97_bounded"
   ],
   "note": "StiffFourierSystem is the same code with more harmonics"
  },
  {
   "property": "C98",
   "status": "proved",
   "theorems": [
    "C98_bounded"
   ],
   "note": "any number of hidden layers"
  },
  {
   "property": "C99",
   "status": "partial",
   "theorems": [
    "C99_arguments_refuted",
    "C99_sizes_partial"
   ],
   "note": "REFUTED by C99_arguments_refuted: layers and activation are ignored; dim and hdim: C99_sizes_partial"
  },
  {
   "property": "C100",
   "status": "partial",
   "theorems": [
    "C100_templates_refuted"
   ],
   "note": "REFUTED by C100_templates_refuted: super(BaseExplicit, DiffEqSolver) raises TypeError"
  },
  {
   "property": "C101",
   "status": "partial",
   "theorems": [
    "C101_named_methods_partial",
    "C101_module_methods_refuted"
   ],
   "note": "REFUTED by C101_module_methods_refuted: solver objects are dropped; names: C101_named_methods_partial"
  },
  {
   "property": "C102",
   "status": "proved",
   "theorems": [
    "C102_robust",
    "C102_constants"
   ],
   "note": "explicit constants for every tableau; values per solver in C102_constants"
  },
  {
   "property": "C103",
   "status": "partial",
   "theorems": [
    "C103_order_partial",
    "C103_rk4_first_order_partial",
    "C103_rk4_time_refuted"
   ],
   "note": "REFUTED by C103_rk4_time_refuted: RungeKutta4 is only first order for fields with explicit time (C103_rk4_first_order_partial); Euler, Midpoint, and RungeKutta4 without explicit time: C103_order_partial"
  },
  {
   "property": "C104",
   "status": "proved",
   "theorems": [
    "C104_dopri5_order"
   ],
   "note": "derivatives of the solution and of the Jacobian along it, and the quadratic remainder of the field, are hypotheses (smooth_solution)"
  },
  {
   "property": "C105",
   "status": "proved",
   "theorems": [
    "C105_only_calls",
    "C105_only_calls_reversed",
    "C105_only_calls_hybrid"
   ],
   "note": "for every NumOps arithmetic; forward, reversed and hybrid solves"
  },
  {
   "property": "C106",
   "status": "partial",
   "theorems": [
    "C106_tolerance_refuted",
    "C106_reliable_estimate_partial"
   ],
   "note": "REFUTED by C106_tolerance_refuted: polynomial right-hand sides in t that vanish at all calls; C106_reliable_estimate_partial: true if the estimate bounds the local error up to a factor, and then linear in the number of steps"
  },
  {
   "property": "C107",
   "status": "proved",
   "theorems": [
    "C107_one_state_per_time",
    "C107_spaced_grids",
    "C107_ieee"
   ],
   "note": "RndOps: every operation of the model is followed by a rounding; IEEE formats through Flocq's round (no overflow). Euler, Midpoint, RungeKutta4; float16 is excluded by u <= 1e-6"
  },
  {
   "property": "C108",
   "status": "proved",
   "theorems": [
    "C108_euler_rounded"
   ],
   "note": "Euler, explicit constants; the returned states are assumed bounded by B"
  },
  {
   "property": "C109",
   "status": "proved",
   "theorems": [
    "C109_parareal_rate"
   ],
   "note": "mszero; flows over one interval as in C30; the Lipschitz constants of the flows are hypotheses"
  },
  {
   "property": "C110",
   "status": "proved",
   "theorems": [
    "C110_additive_noise",
    "C110_oscillation"
   ],
   "note": "diagonal shapes, diffusion constant in time and state; C110_oscillation bounds w by the modulus of continuity of the path"
  },
  {
   "property": "C111",
   "status": "proved",
   "theorems": [
    "C111_no_nan",
    "C111_nan_state",
    "C111_overflow_accepted"
   ],
   "note": "in binary64 (FloatOps, through Flocq), without interpolation and seminorm; C111_overflow_accepted shows that infinities can be returned"
  },
  {
   "property": "C112",
   "status": "proved",
   "theorems": [
    "C112_dense_order"
   ],
   "note": "same smoothness hypotheses as C104; real arithmetic with the decimal weights of the code"
  },
  {
   "property": "C113",
   "status": "proved",
   "theorems": [
    "C113_conv",
    "C113_shift",
    "C113_idle_coefficients"
   ],
   "note": "exact arithmetic; conv2d of torch modelled by index formula"
  },
  {
   "property": "C114",
   "status": "proved",
   "theorems": [
    "C114_adjoint_first_order",
    "C114_gradient_error",
    "C114_solvers"
   ],
   "note": "exact arithmetic; vector-Jacobian products of autograd are a hypothesis (they transpose the derivative); no integral loss term; the constant C is explicit in the proof, existential in the statement"
  },
  {
   "property": "C115",
   "status": "proved",
   "theorems": [
    "C115_same_as_odeint",
    "C115_trajectory",
    "C115_trajectory_reversed",
    "C115_order_checked"
   ],
   "note": "exact arithmetic, one-dimensional (unbatched) states; the times of a decreasing grid come back negated (C06)"
  },
  {
   "property": "C116",
   "status": "partial",
   "theorems": [
    "C116_leapfrog_second_order",
    "C116_reversed_second_order",
    "C116_reversed_velocity_refuted"
   ],
   "note": "REFUTED by C116_reversed_velocity_refuted for decreasing grids started from the velocity f(t0, x0): the first step is off by at least h^2/2. Proved with explicit constant for increasing grids and any error delta of the initial velocity (C116_leapfrog_second_order), and for decreasing grids started from the velocity -f(t0, x0) (C116_reversed_second_order)"
  },
  {
   "property": "C117",
   "status": "partial",
   "theorems": [
    "C117_leapfrog_reversible",
    "C117_round_trip_refuted"
   ],
   "note": "REFUTED by C117_round_trip_refuted for the state as returned: in reversed time the velocity has to be negated by the caller. Proved when the velocity of the final state is negated (C117_leapfrog_reversible)"
  },
  {
   "property": "C118",
   "status": "partial",
   "theorems": [
    "C118_adaptive_same_as_odeint",
    "C118_return_all_eval_refuted",
    "C118_reversed_first_slope_refuted",
    "C118_half_slope_refuted",
    "C118_adaptive_leapfrog_refuted"
   ],
   "note": "REFUTED by C118_return_all_eval_refuted (argument ignored), C118_reversed_first_slope_refuted (first slope taken from the wrong field at the wrong time), C118_half_slope_refuted (order 1 fails with two or more positions) and C118_adaptive_leapfrog_refuted (never returns). Proved: increasing grids with order other than 1 agree with odeint (C118_adaptive_same_as_odeint)"
  },
  {
   "property": "C119",
   "status": "proved",
   "theorems": [
    "C119_chain_rule",
    "C119_parameter_blocks",
    "C119_unused"
   ],
   "note": "exact arithmetic; fixed-step solvers. With adaptive solvers the initial step size uses the norm of the whole adjoint state, so the steps do depend on the tracked parameters"
  },
  {
   "property": "C120",
   "status": "partial",
   "theorems": [
    "C120_parameter_error_refuted",
    "C120_unchecked_components"
   ],
   "note": "REFUTED by C120_parameter_error_refuted: the argument seminorm is never read and the adjoint always uses the seminorm, the parameter gradient has the same error of 4 percent for the tolerances 1e-3, 1e-6 and 1e-9. Proved: the acceptance test does not depend on the parameter components (C120_unchecked_components)"
  },
  {
   "property": "C121",
   "status": "partial",
   "theorems": [
    "C121_tracked",
    "C121_optimizable_params_refuted"
   ],
   "note": "REFUTED by C121_optimizable_params_refuted: optimizable_params are silently dropped if the field has parameters, own ones or ones registered by an earlier problem (also the dummy). Proved: C121_tracked"
  },
  {
   "property": "C122",
   "status": "partial",
   "theorems": [
    "C122_import_order_refuted",
    "C122_hybrid_import_refuted",
    "C122_imports_succeed",
    "C122_bindings",
    "C122_submodules",
    "C122_first_import_decides"
   ],
   "note": "REFUTED by C122_import_order_refuted (after importing torchdyn.numerics first, SDEProblem calls a module: TypeError) and C122_hybrid_import_refuted (torchdyn.models.hybrid never imports: LSDEFunc does not exist). Proved for all sequences: every other module imports, every other name is order-independent, the first import alone decides about sdeint, and every loaded module is an attribute of its package except odeint and sdeint, which are the functions (C122_submodules)"
  },
  {
   "property": "C123",
   "status": "partial",
   "theorems": [
    "C123_dict_states_refuted",
    "C123_custom_solver",
    "C123_lost_key_refuted"
   ],
   "note": "REFUTED by C123_dict_states_refuted (solver names read x.dtype, all solvers read x.device: AttributeError for every dictionary) and C123_lost_key_refuted (a dropped key silently gets a shorter trajectory). Proved: C123_custom_solver, for every fixed-step solver that overrides sync_device_dtype and keeps keys and sizes"
  },
  {
   "property": "C124",
   "status": "partial",
   "theorems": [
    "C124_polynomial_integrals",
    "C124_rk4_refuted"
   ],
   "note": "REFUTED for rk4 by C124_rk4_refuted (its stages are evaluated at wrong times: y' = t gives 1/4 instead of 1/2 after one unit step). Proved for euler, midpoint, dopri5 at the stated degrees and for rk4 at degree 0: C124_polynomial_integrals"
  },
  {
   "property": "C125",
   "status": "proved",
   "theorems": [
    "C125_linear_system",
    "C125_linear_fixed"
   ],
   "note": "C125_linear_system for all four methods and both loops, C125_linear_fixed with the exact grid spacings"
  },
  {
   "property": "C126",
   "status": "proved",
   "theorems": [
    "C126_decay",
    "C126_stability_limit",
    "C126_oscillator",
    "C126_oscillator_energy"
   ],
   "note": "C126_decay, C126_stability_limit, C126_oscillator, C126_oscillator_energy"
  },
  {
   "property": "C127",
   "status": "proved",
   "theorems": [
    "C127_ito_mean"
   ],
   "note": "C127_ito_mean"
  },
  {
   "property": "C128",
   "status": "partial",
   "theorems": [
    "C128_heun_mean",
    "C128_milstein_mean",
    "C128_milstein_refuted"
   ],
   "note": "REFUTED for milstein_stratonovich by C128_milstein_refuted (average 3 instead of 5/2 after one unit step of dX = X dt + X o dW: the support point of the derivative-free correction contains the drift). Proved for eulerHeun: C128_heun_mean; the exact recursion of milstein_stratonovich: C128_milstein_mean"
  },
  {
   "property": "C129",
   "status": "proved",
   "theorems": [
    "C129_second_moment",
    "C129_mean_square_stability"
   ],
   "note": "C129_second_moment, C129_mean_square_stability"
  },
  {
   "property": "C130",
   "status": "partial",
   "theorems": [
    "C130_constant_divergence",
    "C130_euler_density",
    "C130_refuted"
   ],
   "note": "REFUTED by C130_refuted (euler, g(x) = x on [0; 1]: samples move by z -> 2 z, but the log-density falls by 1, not ln 2). Proved: the log-density entry is exact for the continuous flow of every field of constant divergence and every built-in solver (C130_constant_divergence); for one-dimensional flows and euler the error is at most 2 L^2 times the sum of the squared spacings (C130_euler_density)"
  },
  {
   "property": "C131",
   "status": "partial",
   "theorems": [
    "C131_euler_nonnegative",
    "C131_euler_limit",
    "C131_midpoint_refuted"
   ],
   "note": "REFUTED for midpoint by C131_midpoint_refuted (f = max(-1, 4 - 20 t) y, one step of length 1 takes 1 to -2). Proved for euler: C131_euler_nonnegative, and the limit lambda h <= 1 is sharp: C131_euler_limit"
  },
  {
   "property": "C132",
   "status": "proved",
   "theorems": [
    "C132_euler_contraction",
    "C132_euler_nonexpansive"
   ],
   "note": "C132_euler_contraction, C132_euler_nonexpansive"
  },
  {
   "property": "C133",
   "status": "partial",
   "theorems": [
    "C133_log",
    "C133_line_search_refuted"
   ],
   "note": "REFUTED for alpha and phi by C133_line_search_refuted (never logged). Everything else proved: C133_log"
  },
  {
   "property": "C134",
   "status": "partial",
   "theorems": [
    "C134_permanent_log",
    "C134_failure_refuted"
   ],
   "note": "REFUTED by C134_failure_refuted (the keys before the missing one are already extended). Proved: C134_permanent_log"
  },
  {
   "property": "C135",
   "status": "partial",
   "theorems": [
    "C135_rounding",
    "C135_named",
    "C135_problem_refuted",
    "C135_problem_partial"
   ],
   "note": "REFUTED for ODEProblem and NeuralODE by C135_problem_refuted (their solvers are built with float32 coefficients: relative errors 2^-25, 3/2^27, -7/2^29 at all tolerances). Proved for odeint with a name: C135_named; the coefficients are correctly rounded: C135_rounding; what holds for problems: C135_problem_partial"
  },
  {
   "property": "C136",
   "status": "partial",
   "theorems": [
    "C136_precise_partial",
    "C136_half_refuted"
   ],
   "note": "REFUTED by C136_half_refuted (after one half precision solve the coefficients keep 11 bits). Proved for histories of float32 and float64: C136_precise_partial"
  },
  {
   "property": "C137",
   "status": "partial",
   "theorems": [
    "C137_quadrature",
    "C137_same_states",
    "C137_constant",
    "C137_neuralode",
    "C137_adaptive_refuted"
   ],
   "note": "REFUTED for the adaptive solvers by C137_adaptive_refuted (the loss takes part in the error control: with a loss 1/t dopri5 never returns although the states are constant). Proved: the first column is the quadrature along the returned states, all solvers (C137_quadrature); the states are unchanged for the fixed-step solvers (C137_same_states); constant losses (C137_constant); the field of a NeuralODE has this form (C137_neuralode)"
  },
  {
   "property": "C138",
   "status": "partial",
   "theorems": [
    "C138_gradient",
    "C138_euler",
    "C138_shape_refuted",
    "C138_path_checked",
    "C138_decreasing_refuted"
   ],
   "note": "REFUTED for decreasing t_span by C138_decreasing_refuted (the spline has its knots at the negated times and is extrapolated) and for states with other than two axes by C138_shape_refuted. Proved for increasing grids and states of shape (k, d): C138_gradient, C138_euler"
  },
  {
   "property": "C139",
   "status": "partial",
   "theorems": [
    "C139_raises_refuted",
    "C139_exchanged_partial"
   ],
   "note": "REFUTED by C139_raises_refuted (always raises, the arguments of torchcde are exchanged); the validation would pass otherwise: C139_exchanged_partial"
  },
  {
   "property": "C140",
   "status": "partial",
   "theorems": [
    "C140_parameters_refuted",
    "C140_plain",
    "C140_train_refuted",
    "C140_train",
    "C140_equal_refuted"
   ],
   "note": "REFUTED by C140_parameters_refuted, C140_train_refuted (TypeError: the classes are unhashable) and C140_equal_refuted (callbacks of one class are equal). Proved for trees without callbacks (C140_plain) and for a callback as the root of train() and to() (C140_train)"
  },
  {
   "property": "C141",
   "status": "partial",
   "theorems": [
    "C141_time_lost_refuted",
    "C141_final_time",
    "C141_endpoints"
   ],
   "note": "REFUTED by C141_time_lost_refuted: the step that was to end at a requested time is replaced by the event, but the checkpoint counter has advanced. Proved: every solve that returns with j_span >= 2 reaches the last time (C141_final_time), and with persistent events it starts at the first and ends exactly at the last one (C141_endpoints)"
  },
  {
   "property": "C142",
   "status": "partial",
   "theorems": [
    "C142_spurious_event_refuted",
    "C142_no_event_partial"
   ],
   "note": "REFUTED by C142_spurious_event_refuted for every atol, rtol: the error of a step that triggers an event, and of the bisection steps, is never compared with the tolerances. Proved: no jump if no solver step of any size, accepted or not, fires a callback (C142_no_event_partial)"
  },
  {
   "property": "C143",
   "status": "proved",
   "theorems": [
    "C143_rules",
    "C143_fixed_step",
    "C143_gradient"
   ],
   "note": "Real numbers with derivatives; every grid and save_at, including reversed time and the exceptions of save_at"
  },
  {
   "property": "C144",
   "status": "partial",
   "theorems": [
    "C144_event_detached",
    "C144_run",
    "C144_event_gradient_refuted",
    "C144_default_refuted"
   ],
   "note": "REFUTED by C144_event_gradient_refuted (reals) and C144_default_refuted (binary64, default tolerances): the bisection runs under torch.no_grad, so the state before the jump loses its history. Proved: what an event iteration passes on (C144_event_detached), for all fields, events and solvers"
  },
  {
   "property": "C145",
   "status": "proved",
   "theorems": [
    "C145_hypersolver_error",
    "C145_hyper_euler"
   ],
   "note": "Real numbers, maximum norm, explicit constants; every separated increasing grid"
  },
  {
   "property": "C146",
   "status": "partial",
   "theorems": [
    "C146_reversed_network",
    "C146_hyper_euler_partial",
    "C146_reversed_refuted"
   ],
   "note": "REFUTED by C146_reversed_refuted: time is reversed by negating the field and t_span, which the network does not see. Proved: the reversed solve uses the network (-1)^(order+1) g(-t, x) (C146_reversed_network); HyperEuler with a network without time steps negatively (C146_hyper_euler_partial)"
  },
  {
   "property": "C147",
   "status": "partial",
   "theorems": [
    "C147_backward_raises_refuted",
    "C147_forward_partial"
   ],
   "note": "REFUTED by C147_backward_raises_refuted for every field, in any arithmetic: the adjoint solver defaults to the hypersolver, and its network gets the augmented state. Proved: the forward pass is that of the hypersolver (C147_forward_partial); with sensitivity='autograd' the gradients are exact (C143)"
  },
  {
   "property": "C148",
   "status": "proved",
   "theorems": [
    "C148_odeint",
    "C148_hybrid"
   ],
   "note": "By parametricity of the model in the number system (L_Rel.v); the field, solver and callbacks are assumed to compute the same values with and without derivatives"
  },
  {
   "property": "C149",
   "status": "partial",
   "theorems": [
    "C149_same_dtype_partial",
    "C149_list_refuted"
   ],
   "note": "REFUTED by C149_list_refuted: line 415 gives the list the default dtype and torch.isclose raises for different dtypes, so lists of floats with a float64 t_span and lists of integers with a floating point t_span always raise. Proved: the list is as good as a tensor when the dtypes agree (C149_same_dtype_partial)"
  },
  {
   "property": "C150",
   "status": "partial",
   "theorems": [
    "C150_fixed_partial",
    "C150_adaptive_refuted",
    "C150_hybrid_refuted"
   ],
   "note": "REFUTED by C150_adaptive_refuted and C150_hybrid_refuted: the initial step size is converted to the dtype of t0, becomes 0 and stays 0, and the solve never ends. Proved: fixed-step solves are not affected (C150_fixed_partial)"
  },
  {
   "property": "C151",
   "status": "partial",
   "theorems": [
    "C151_fixed",
    "C151_keeps_partial",
    "C151_hybrid_partial",
    "C151_values",
    "C151_dtype_refuted",
    "C151_times"
   ],
   "note": "REFUTED by C151_dtype_refuted: dopri5 promotes a float32 state to float64 on a float64 t_span (clipped steps are tensors with an axis), and a float16 or bfloat16 state to float32 on any t_span (the float32 step size factors have an axis). Proved: fixed-step solvers keep every dtype (C151_fixed); dopri5 and tsit5 keep the dtype of x if it holds float32 and the dtype of t_span, with and without events (C151_keeps_partial, C151_hybrid_partial); Euler's method and the midpoint rule call the field at times of the dtype of t_span only (C151_times)"
  },
  {
   "property": "C152",
   "status": "partial",
   "theorems": [
    "C152_fixed_partial",
    "C152_rk4_refuted",
    "C152_dopri5_refuted",
    "C152_tsit5_refuted",
    "C152_scalar_refuted"
   ],
   "note": "REFUTED by C152_rk4_refuted, C152_dopri5_refuted, C152_tsit5_refuted, C152_scalar_refuted: rk4 and dopri5 multiply with the row a[0], a tensor with an axis, and dopri5 and tsit5 with step sizes that have an axis, so that stacking the states raises RuntimeError. Proved: the statement for Euler and Midpoint (C152_fixed_partial)"
  },
  {
   "property": "C153",
   "status": "partial",
   "theorems": [
    "C153_leaf",
    "C153_values_partial",
    "C153_gradient_refuted"
   ],
   "note": "REFUTED by C153_gradient_refuted and, in general, by C153_leaf: every state returned is the initial state or has derivative 0, because the step returns an nn.Parameter. Proved: the values returned are those of the solve without gradients (C153_values_partial)"
  },
  {
   "property": "C154",
   "status": "partial",
   "theorems": [
    "C154_parareal",
    "C154_parareal_guess",
    "C154_backward_values_partial",
    "C154_backward_refuted",
    "C154_implicit_short_guess",
    "C154_implicit_leaf",
    "C154_implicit_refuted"
   ],
   "note": "REFUTED for MSBackward by C154_backward_refuted (the product with the Jacobian is computed without create_graph and has no derivative) and for ParallelImplicitEuler by C154_implicit_refuted and, in general, C154_implicit_leaf (it returns an nn.Parameter). Proved: the statement for MSZero with fixed-step methods and hypersolvers (C154_parareal, C154_parareal_guess); the values returned with MSBackward do not depend on gradients being recorded (C154_backward_values_partial)"
  },
  {
   "property": "C155",
   "status": "partial",
   "theorems": [
    "C155_step_partial",
    "C155_single_partial",
    "C155_adaptive_refuted"
   ],
   "note": "REFUTED by C155_adaptive_refuted: adapt_step is under torch.no_grad while init_step is not, so the first step size is differentiated and the others are not; for x' = 1 + t^5/10^5 the gradient is 1 and the derivative is 0.988889. Proved: single steps differentiate correctly in state, parameters, time, step size and first stage (C155_step_partial); solves that take one step have exact gradients (C155_single_partial); the values do not depend on gradients being recorded (C148)"
  },
  {
   "property": "C156",
   "status": "partial",
   "theorems": [
    "C156_fixed",
    "C156_loop_partial",
    "C156_adaptive_refuted",
    "C156_fixed_refuted"
   ],
   "note": "REFUTED by C156_adaptive_refuted: init_step's formula h1 = (0.01 / max(d1, d2))^(1/(order+1)) and its constants 1e-5, 1e-6, 1e-15 are not invariant under a change of the unit of time, so the first step, and with it the states, depend on the unit; and by C156_fixed_refuted: euler over [0, 1] works but over [0, 1e-9] raises AssertionError, because the loop compares times with torch.isclose (absolute tolerance 1e-8). Proved: fixed-step solves return the same states whenever both grids are separated with respect to torch.isclose (C156_fixed); given the converted first step, the whole adaptive loop gives the converted result (C156_loop_partial)"
  },
  {
   "property": "C157",
   "status": "proved",
   "theorems": [
    "C157_forward",
    "C157_backward"
   ],
   "note": "for grids that torch.isclose separates (other grids raise AssertionError, see C04); C157_backward: decreasing t_span, whose returned times are negated (C06)"
  },
  {
   "property": "C158",
   "status": "partial",
   "theorems": [
    "C158_own_partial",
    "C158_uncontrolled_partial",
    "C158_control_refuted",
    "C158_update_refuted",
    "C158_trajectory_refuted",
    "C158_results_partial",
    "C158_fresh_partial"
   ],
   "note": "REFUTED by C158_control_refuted: the control of DataControl modules is overwritten by every forward or trajectory call, and the backward passes of both adjoints call the field with the control it has then; after node([1]), node([2]) the backward pass of the first call returns 3 instead of 2 (the noise of CNFs with Hutchinson estimators is held in the same way); by C158_trajectory_refuted for a trajectory call in between; and by C158_update_refuted for parameters changed in between, which autograd would reject. Proved: the results of forward and trajectory calls do not depend on earlier calls (C158_results_partial); gradients are correct if only harmless calls come in between (C158_own_partial), in particular for all calls but updates when the field has no control (C158_uncontrolled_partial); the gradients of the fresh module are right for fields that are affine in the state (C158_fresh_partial)"
  },
  {
   "property": "C159",
   "status": "partial",
   "theorems": [
    "C159_fixed_control_partial",
    "C159_control_refuted"
   ],
   "note": "REFUTED by C159_control_refuted: the control is detached (neuralde.py line 121), so for x' = u, u = x(0), node(x) = 2 x has gradient 1. Proved: the gradients are the derivatives when the control is held fixed (C159_fixed_control_partial)"
  },
  {
   "property": "C160",
   "status": "partial",
   "theorems": [
    "C160_zero_entry_refuted",
    "C160_absolute_partial"
   ],
   "note": "REFUTED by C160_zero_entry_refuted: the scaled error of an entry that is zero and stays zero is 0/0 when atol = 0, the error ratio is NaN, every step is rejected and t stays where it is: dopri5 and tsit5 run out of every number of iterations, for all such fields, states, grids and rtol. Proved: for positive finite atol and finite rtol the scaled error of a zero entry is 0 (C160_absolute_partial)"
  },
  {
   "property": "C161",
   "status": "partial",
   "theorems": [
    "C161_no_clash_partial",
    "C161_parameter_refuted",
    "C161_overwrite_refuted",
    "C161_value_refuted"
   ],
   "note": "REFUTED by C161_parameter_refuted (a parameter, submodule or property named t makes every call raise TypeError or AttributeError), C161_overwrite_refuted (values and buffers named t hold the time of the last call afterwards) and C161_value_refuted (x' = -x/t with a time constant in the attribute t is computed with the current time). Proved: if only library modules have an attribute t, every sequence of calls returns the values that are meant, counts one evaluation per call and leaves other modules alone (C161_no_clash_partial)"
  },
  {
   "property": "C162",
   "status": "proved",
   "theorems": [
    "C162_symplectic",
    "C162_odeint",
    "C162_start"
   ],
   "note": "C162_symplectic, C162_odeint (states with position and velocity), C162_start (velocity started by the field)"
  },
  {
   "property": "C163",
   "status": "partial",
   "theorems": [
    "C163_trajectories_partial",
    "C163_classes_refuted",
    "C163_dataset_refuted",
    "C163_fields_refuted",
    "C163_field_partial",
    "C163_boundary_refuted",
    "C163_signs_refuted",
    "C163_grid",
    "C163_static_partial"
   ],
   "note": "REFUTED by C163_classes_refuted (a third class, or fewer samples than the default 128, raises IndexError), C163_dataset_refuted (plot_3D_dataset scatters all points once for every label, so all are seen in the colour of the last one), C163_fields_refuted (plot_static_vector_field raises AttributeError for every NeuralODE, plot_traj_vf_1D NameError for every controlled one) and C163_boundary_refuted (plot_2d_boundary cannot reshape its predictions) and C163_signs_refuted (classes labelled -1 and 1 are drawn in the same colour). Proved: the grids of the plots are evenly spaced (C163_grid), the arrows of plot_static_vector_field would be right had models the attribute it reads (C163_static_partial), two classes and enough samples are drawn correctly (C163_trajectories_partial), as is the field of an uncontrolled one-dimensional NeuralODE (C163_field_partial)"
  },
  {
   "property": "C164",
   "status": "proved",
   "theorems": [
    "C164_gradient"
   ],
   "note": "C164_gradient; the Milstein solvers take the square root of the step size, hence the increasing grid"
  },
  {
   "property": "C165",
   "status": "partial",
   "theorems": [
    "C165_autograd_partial",
    "C165_interpolated",
    "C165_interpolated_refuted"
   ],
   "note": "REFUTED by C165_interpolated_refuted (4 expected, 2 returned) and, for every field, C165_interpolated: the interpolated adjoint calls grad without create_graph, so the derivative of its gradient only has the direct part. C165_autograd_partial: second derivatives through sensitivity='autograd' are exact. Not covered: sensitivity='adjoint', whose backward pass frees the graph it would have to differentiate."
  },
  {
   "property": "C166",
   "status": "partial",
   "theorems": [
    "C166_announced_partial",
    "C166_silent",
    "C166_silent_refuted",
    "C166_unrequested",
    "C166_unrequested_refuted",
    "C166_others",
    "C166_defaults",
    "C166_symplectic"
   ],
   "note": "REFUTED by C166_silent_refuted (t_stops has no effect on any solve and is never announced; C166_silent: the same for args, for interpolator, return_all_eval and seminorm with fixed-step solvers, for the interpolator with tsit5) and by C166_unrequested_refuted (ODEProblem with a fixed-step solver and its own defaults warns in every solve; C166_unrequested: the adjoint of NeuralODE warns once per interval, args produces the warning about save_at). C166_announced_partial: the exact conditions of all four warnings, and that the announced options indeed have no effect. C166_others: odeint_symplectic and sdeint. C166_defaults: a call with default options is quiet. C166_symplectic: the warning of odeint_symplectic, exactly."
  },
  {
   "property": "C167",
   "status": "proved",
   "theorems": [
    "C167_units",
    "C167_units_hybrid"
   ],
   "note": "C167_units, C167_units_hybrid: equality of the calls of the field and of the outcomes, exceptions included; exact arithmetic"
  },
  {
   "property": "C168",
   "status": "proved",
   "theorems": [
    "C168_rounding",
    "C168_total_error"
   ],
   "note": "C168_rounding; C168_total_error adds the error of the method (rk4: for fields without explicit time, see C103); no overflow; computed states bounded by B"
  },
  {
   "property": "C169",
   "status": "partial",
   "theorems": [
    "C169_time_state",
    "C169_clock",
    "C169_dopri5_step",
    "C169_rk4_classical",
    "C169_rk4_refuted"
   ],
   "note": "REFUTED for RungeKutta4 by C169_rk4_refuted (1/4 and 1/2 on x' = t): its stages evaluate the field at the wrong times. C169_time_state and C169_clock: true for Euler and Midpoint, with all options. C169_dopri5_step: true for every step of dopri5 (adaptive solves average the error over one more component, so their step sizes differ). C169_rk4_classical: the autonomous formulation makes RungeKutta4 the classical method, also for time-dependent fields."
  },
  {
   "property": "C170",
   "status": "proved",
   "theorems": [
    "C170_rotations",
    "C170_rotations_hybrid"
   ],
   "note": "C170_rotations, C170_rotations_hybrid. With rtol > 0 the tolerance of each entry depends on its size, so the orientation matters by design."
  },
  {
   "property": "C171",
   "status": "partial",
   "theorems": [
    "C171_linear_convergence",
    "C171_true_jacobian",
    "C171_termination",
    "C171_zero_root_refuted"
   ],
   "note": "REFUTED for roots at zero by C171_zero_root_refuted: with the default tolerances the relative test |dz| <= x_rtol |z| never holds, all iterations are used and no termination is logged although the iterates converge. C171_linear_convergence: linear convergence for every root. C171_true_jacobian: the inverse derivatives at the start are admissible initial inverse slopes. C171_termination: if no root is zero, the run ends by its tolerances, and further iterations do not change it."
  },
  {
   "property": "C172",
   "status": "proved",
   "theorems": [
    "C172_descent",
    "C172_convex_rate",
    "C172_limit",
    "C172_implicit_descent"
   ],
   "note": "C172_descent: decrease per step. C172_convex_rate: the O(1/t) rate for convex energies and the distance to minimisers. C172_limit: the step limit 2/L is sharp. The field is the model's gnf on a batch of one row, with grad_sum the gradient of the summed energy. C172_implicit_descent: implicit Euler decreases convex energies for every step size."
  },
  {
   "property": "C173",
   "status": "proved",
   "theorems": [
    "C173_energy_order",
    "C173_energy_dopri5",
    "C173_euler_growth"
   ],
   "note": "C173_energy_order: euler, midpoint, rk4 (rk4 has its full order because the field has no explicit time). C173_energy_dopri5: adaptive. C173_euler_growth: exact growth of the oscillator's energy. The field is the model's hnn on a batch of one row."
  },
  {
   "property": "C174",
   "status": "proved",
   "theorems": [
    "C174_contraction",
    "C174_equilibrium",
    "C174_accuracy"
   ],
   "note": "C174_contraction, C174_equilibrium, C174_accuracy. The optimiser (LBFGS) is any function that brings the objective of every step below eps^2; that LBFGS does so is an assumption of the statement. The field is evaluated at the old time (see C26), which costs the term K but not the order."
  },
  {
   "property": "C175",
   "status": "proved",
   "theorems": [
    "C175_distinct",
    "C175_order",
    "C175_reflection",
    "C175_limit"
   ],
   "note": "C175_distinct, C175_order, C175_reflection; C175_limit: the bound is sharp for euler (y' = -y: the step 1 merges all states, the step 2 reflects them). growth is evaluated for the three solvers in C102_constants."
  },
  {
   "property": "C176",
   "status": "partial",
   "theorems": [
    "C176_return_partial",
    "C176_rk4_refuted"
   ],
   "note": "REFUTED for rk4 by C176_rk4_refuted: y' = t forward and back over [0, 1] in m steps ends 1/(2m) off, first order instead of fourth (the wrong nodes of rk4, see C22). Proved: euler, midpoint, and rk4 for fields without explicit time (C176_return_partial)."
  },
  {
   "property": "C177",
   "status": "partial",
   "theorems": [
    "C177_ito_mean_partial",
    "C177_ito_square_partial",
    "C177_heun_mean_partial",
    "C177_milstein_half_order_partial",
    "C177_milstein_refuted"
   ],
   "note": "REFUTED for milstein_stratonovich by C177_milstein_refuted: for dX = X dt + X o dW the error of the mean is about sqrt(h) / 2 (the predictor state contains the drift, see C128). Proved: the mean for euler, milstein_ito and eulerHeun and the mean square for euler with explicit constants (C177_ito_mean_partial, C177_ito_square_partial, C177_heun_mean_partial); milstein_stratonovich converges with order one half (C177_milstein_half_order_partial)."
  },
  {
   "property": "C178",
   "status": "proved",
   "theorems": [
    "C178_requested_times",
    "C178_requested_times_back"
   ],
   "note": "tsit5 ignores the interpolator (C166), so the claim is about dopri5. The equality of the calls is proved for increasing grids, the equality of the states for both directions."
  },
  {
   "property": "C179",
   "status": "proved",
   "theorems": [
    "C179_adjoint_linear",
    "C179_interpolated_linear"
   ],
   "note": "For fixed-step adjoint solvers, as in the statement. An adaptive adjoint solver chooses its steps from the size of the adjoint, so its gradients add up only up to the tolerance; nothing is claimed for it."
  },
  {
   "property": "C180",
   "status": "partial",
   "theorems": [
    "C180_fixed_partial",
    "C180_adaptive_refuted"
   ],
   "note": "REFUTED for the adaptive solvers by C180_adaptive_refuted: for a continuous field that does not depend on the state, dopri5 with tolerances 10^-3 has a final state that jumps by more than 1/50 at the initial state 365/36, where the acceptance of the first step changes. Proved for the fixed-step solvers with Lipschitz fields (C180_fixed_partial)."
  },
  {
   "property": "C181",
   "status": "proved",
   "theorems": [
    "C181_evaluate",
    "C181_short",
    "C181_ends",
    "C181_mid"
   ],
   "note": "As in the statement, for t0 <> t1."
  },
  {
   "property": "C182",
   "status": "proved",
   "theorems": [
    "C182_make_norm",
    "C182_seminorm"
   ],
   "note": "As in the statement."
  },
  {
   "property": "C183",
   "status": "partial",
   "theorems": [
    "C183_euler_partial",
    "C183_rk4_partial",
    "C183_midpoint_refuted",
    "C183_rk4_refuted",
    "C183_adaptive_refuted"
   ],
   "note": "REFUTED for midpoint by C183_midpoint_refuted (its first stage has weight zero: for every step size a larger field can end strictly lower) and for dopri5 by C183_adaptive_refuted (two initial states of a field that does not depend on the state change places, by more than 1/50). For rk4 REFUTED in two dimensions by C183_rk4_refuted (every step size up to one), proved in one dimension with steps at most 1/(2L) (C183_rk4_partial). Proved for euler in all dimensions with steps at most 1/L (C183_euler_partial). The order of initial states of one scalar field under midpoint and rk4: C175_order."
  },
  {
   "property": "C184",
   "status": "partial",
   "theorems": [
    "C184_spheres_partial",
    "C184_moons_refuted",
    "C184_spirals_refuted",
    "C184_gaussians_refuted",
    "C184_gaussians_spiral_refuted"
   ],
   "note": "REFUTED by C184_moons_refuted (both coordinates of a point move by the same number, never negative), C184_spirals_refuted (never negative on one arm, the opposite perturbation on the other arm), C184_gaussians_refuted and C184_gaussians_spiral_refuted (all points of a Gaussian move by the same vector). Proved for generate_concentric_spheres with an even number of samples (C184_spheres_partial; odd numbers raise, C56)."
  },
  {
   "property": "C185",
   "status": "partial",
   "theorems": [
    "C185_fixed_partial",
    "C185_acceptance_partial",
    "C185_scaling_partial",
    "C185_adaptive_refuted"
   ],
   "note": "REFUTED for dopri5 by C185_adaptive_refuted: for a continuous field that does not depend on the state the solve with tolerances 10^-3 is exact, the solve with 0.999 * 10^-3 is off by more than a hundred times the tolerances. Proved: fixed-step solves do not depend on the tolerances (C185_fixed_partial), the number compared with one only grows when tolerances shrink, so acceptance is monotone for one trial step (C185_acceptance_partial), and it is inversely proportional to them (C185_scaling_partial)."
  },
  {
   "property": "C186",
   "status": "partial",
   "theorems": [
    "C186_form_partial",
    "C186_symplectic_refuted"
   ],
   "note": "REFUTED by C186_symplectic_refuted: after an odd number of steps the map reverses the sign of the form (in one dimension every area changes orientation), because the velocity is reflected in each step. Proved for all dimensions, gradients and grids: at the k-th time the form is multiplied by (-1)^k, so it is preserved at every even index (C186_form_partial)."
  },
  {
   "property": "C187",
   "status": "partial",
   "theorems": [
    "C187_superposition_fixed_partial",
    "C187_superposition_refuted"
   ],
   "note": "REFUTED for dopri5 by C187_superposition_refuted: for a field that does not depend on the state the mean of two solves differs from the solve from the mean of the states by more than 1/100 (tolerances 10^-3), because the steps depend on the state. Proved exactly for euler, midpoint and rk4 for all dimensions, coefficients, sources and grids (C187_superposition_fixed_partial)."
  },
  {
   "property": "C188",
   "status": "partial",
   "theorems": [
    "C188_plain_partial",
    "C188_reversed_refuted",
    "C188_grid_refuted"
   ],
   "note": "REFUTED by C188_grid_refuted: an inner time met by a step without clamping is returned twice, after a step of length zero (odeint never repeats a time), and by C188_reversed_refuted: in reversed time odeint_hybrid returns only the initial state, for every problem. Proved for every grid made of a start and a later (or equal) end time: same calls, same outcome (value, exception or still running), for any adaptive step function, interpolator, priority and event tolerance (C188_plain_partial)."
  },
  {
   "property": "C189",
   "status": "partial",
   "theorems": [
    "C189_fixed_refuted",
    "C189_last_refuted",
    "C189_zero_interval_refuted",
    "C189_start_partial"
   ],
   "note": "REFUTED: every fixed-step solver raises AssertionError on every grid with a repeated time (C189_fixed_refuted); with every adaptive solver a repetition of the last time changes neither calls nor outcome, so it is returned once (C189_last_refuted), in particular an interval of length zero gives one state (C189_zero_interval_refuted). Proved for the built-in adaptive solvers: a repeated first time is returned twice with the initial state (C189_start_partial)."
  },
  {
   "property": "C190",
   "status": "proved",
   "theorems": [
    "C190_restart"
   ],
   "note": "As in the statement."
  },
  {
   "property": "C191",
   "status": "proved",
   "theorems": [
    "C191_units"
   ],
   "note": "As in the statement; the case tau = 1 is the change of units of the state alone, c = 1 the scaling of Brownian motion."
  },
  {
   "property": "C192",
   "status": "proved",
   "theorems": [
    "C192_superposition"
   ],
   "note": "As in the statement."
  },
  {
   "property": "C193",
   "status": "partial",
   "theorems": [
    "C193_milstein_refuted",
    "C193_run_refuted",
    "C193_euler_partial"
   ],
   "note": "REFUTED by C193_milstein_refuted: in binary64 both Milstein solvers return only NaN after the initial state when the first step goes backwards, for every SDE, because they take the square root of the negative step (run in C193_run_refuted). Proved: euler and eulerHeun follow their schemes backwards over the reals (C193_euler_partial)."
  },
  {
   "property": "C194",
   "status": "partial",
   "theorems": [
    "C194_milstein_refuted",
    "C194_run_refuted",
    "C194_euler_partial"
   ],
   "note": "REFUTED by C194_milstein_refuted: in binary64 both Milstein solvers return only NaN after the initial state when the first time is repeated, for every SDE with additive noise and finite diffusion (0/0; run in C194_run_refuted). Proved over the reals: euler and eulerHeun return a repeated time, at any place, as often as requested and with the same state (C194_euler_partial)."
  },
  {
   "property": "C195",
   "status": "partial",
   "theorems": [
    "C195_parareal_partial",
    "C195_msbackward_refuted"
   ],
   "note": "REFUTED for the backward variant by C195_msbackward_refuted: one pass from a guess with the invariant 0 in every row returns a state with invariant -1 (the transposed Jacobian does not keep it). Proved for parareal (mszero): linear invariants and equilibria are kept in all returned states for every number of passes (C195_parareal_partial)."
  },
  {
   "property": "C196",
   "status": "proved",
   "theorems": [
    "C196_invariant",
    "C196_equilibrium"
   ],
   "note": "Over the reals, with increments of the size of the state (for scalar noise: equal entries, what broadcasting gives). Linear invariants: C196_invariant; equilibria: C196_equilibrium."
  },
  {
   "property": "C197",
   "status": "proved",
   "theorems": [
    "C197_invariant",
    "C197_equilibrium"
   ],
   "note": "Over the reals, for dopri5 and tsit5: C197_invariant, C197_equilibrium."
  },
  {
   "property": "C198",
   "status": "proved",
   "theorems": [
    "C198_blocks"
   ],
   "note": "For every arithmetic of the model (reals, binary64): C198_blocks. Batches follow by repetition."
  },
  {
   "property": "C199",
   "status": "proved",
   "theorems": [
    "C199_reorder"
   ],
   "note": "For every arithmetic of the model (reals, binary64): C199_reorder. Solver names that raise for the original SDE are outside the theorem."
  },
  {
   "property": "C200",
   "status": "proved",
   "theorems": [
    "C200_causal"
   ],
   "note": "Real arithmetic, where t + dt is the next grid time, and default save_at: C200_causal."
  },
  {
   "property": "C201",
   "status": "proved",
   "theorems": [
    "C201_invariant",
    "C201_equilibrium"
   ],
   "note": "odeint_symplectic with the fixed-step leapfrog solver, real arithmetic, default save_at: C201_invariant, C201_equilibrium."
  },
  {
   "property": "C202",
   "status": "proved",
   "theorems": [
    "C202_affine"
   ],
   "note": "odeint_symplectic with the fixed-step leapfrog solver, real arithmetic, default save_at: C202_affine."
  },
  {
   "property": "C203",
   "status": "proved",
   "theorems": [
    "C203_dependence"
   ],
   "note": "As in the statement, for the maximum norm, real arithmetic and default save_at: C203_dependence."
  },
  {
   "property": "C204",
   "status": "partial",
   "theorems": [
    "C204_additive_partial",
    "C204_multiplicative_refuted"
   ],
   "note": "REFUTED by C204_multiplicative_refuted: for dX = X dW an Euler-Maruyama step over which the path falls by more than 1 crosses, however short the step; additive noise, all solvers, L h <= 1: C204_additive_partial"
  },
  {
   "property": "C205",
   "status": "proved",
   "theorems": [
    "C205_causal"
   ],
   "note": "Increasing grids, real arithmetic, default save_at: C205_causal. Adaptive solvers are outside the statement (the initial step is chosen with a trial call that may lie beyond the first output)."
  },
  {
   "property": "C206",
   "status": "partial",
   "theorems": [
    "C206_fixed_partial",
    "C206_adaptive_refuted",
    "C206_adaptive_partial"
   ],
   "note": "REFUTED by C206_adaptive_refuted: for y' = 1 from 1000 over [0, 1] dopri5 and tsit5 call the field at time 10 to choose the initial step. Proved on increasing grids: C206_fixed_partial (euler, midpoint, rk4, leapfrog: no call outside) and C206_adaptive_partial (dopri5, tsit5: no call outside except the second one, which chooses the initial step)."
  }
 ]
}