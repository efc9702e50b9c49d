{
 "claims": [
  {
   "property": "C01",
   "status": "partial",
   "theorems": [
    "C01_lookup_independent_of_history",
    "C01_lookup_after_empty_lookup_refuted"
   ],
   "note": "Independence from earlier lookups proved for every non-poisoned lookup history; refuted for a trajectory that was queried while empty (the cached index becomes -1 and every later lookup throws)."
  },
  {
   "property": "C02",
   "status": "proved",
   "theorems": [
    "C02_interpolate_on_curve",
    "C02_interpolate_exact_at_nodes",
    "C02_interpolate_throws"
   ],
   "note": "Exact arithmetic over Q."
  },
  {
   "property": "C03",
   "status": "proved",
   "theorems": [
    "C03_trajectory_refines_recording",
    "C03_trajectory_eval_is_recorded_curve"
   ],
   "note": "Every editing history, refinement to a list-of-samples recording; index queries on empty trajectories excluded (see C01)."
  },
  {
   "property": "C04",
   "status": "proved",
   "theorems": [
    "C04_build_never_fails",
    "C04_phase_contains_time",
    "C04_intervals_cover",
    "C04_before_start_first_phase",
    "C04_after_end_last_phase",
    "C04_phase_start_end_times",
    "C04_total_duration",
    "C04_next_switch",
    "C04_switch_query_in_last_phase_refuted",
    "C04_empty_sequence_query_refuted",
    "C04_counts"
   ],
   "note": "Full lookup semantics; additionally shown: switch query in the last phase and any query on an empty sequence are undefined behaviour."
  },
  {
   "property": "C05",
   "status": "proved",
   "theorems": [
    "C05_pid_output_and_integral_bounded",
    "C05_pid_saturated_law",
    "C05_pid_saturated_law_with_derivative",
    "C05_pid_reset_restores_initial_behaviour",
    "C05_pid_closed_form_without_saturation",
    "C05_pid_bound_with_zero_dt_refuted"
   ],
   "note": "All histories over exact arithmetic (dt<>0 where the derivative part divides); binary64 witness that dt=0 lets a NaN through the saturation."
  },
  {
   "property": "C06",
   "status": "partial",
   "theorems": [
    "C06_report",
    "C06_composition",
    "C06_evaluations",
    "C06_handlers",
    "C06_exact_times",
    "C06_evaluation_times",
    "C06_copy_refuted",
    "C06_constructed"
   ],
   "note": "Any right-hand side, any scalar type (also floating point); times t0+k*dt in exact arithmetic. Refuted for copies of an integrator: their callbacks write into the original's log."
  },
  {
   "property": "C07",
   "status": "proved",
   "theorems": [
    "C07_euler_constant",
    "C07_rk4_cubic",
    "C07_rk4_linear",
    "C07_euler_linear",
    "C07_euler_order",
    "C07_rk4_order"
   ],
   "note": "Exact arithmetic; also shown that the orders are not higher."
  },
  {
   "property": "C08",
   "status": "proved",
   "theorems": [
    "C08_lu_solves",
    "C08_ldlt_solves",
    "C08_posdef_unique",
    "C08_any_invertible_refuted"
   ],
   "note": "Exact arithmetic over any real field, every dimension and any number of right-hand sides; 'no zero pivot' is stated as nonsingular leading blocks, and positive definite matrices are shown to qualify. Refuted for invertible matrices with a zero pivot (no pivoting in the code)."
  },
  {
   "property": "C09",
   "status": "proved",
   "theorems": [
    "C09_forward_affine",
    "C09_central_affine",
    "C09_central_quadratic",
    "C09_forward_quadratic_refuted",
    "C09_forward_error",
    "C09_central_error",
    "C09_linearizer",
    "C09_second_order",
    "C09_first_order"
   ],
   "note": "Exact reals; for affine functions only the differences of the perturbed coordinate need to be exact. One-sided differences are shown not to be exact on quadratics (C09_forward_quadratic_refuted is that sharpness result)."
  },
  {
   "property": "C10",
   "status": "partial",
   "theorems": [
    "C10_forward_euler",
    "C10_backward_euler",
    "C10_backward_euler_defined",
    "C10_tustin_actual",
    "C10_matrix_exponential_equilibrium",
    "C10_time_varying",
    "C10_tustin_refuted",
    "C10_matrix_exponential_refuted",
    "C10_symplectic_euler",
    "C10_symplectic_time_varying"
   ],
   "note": "Proved for forward, backward and symplectic Euler. Tustin is refuted (factor 1/2 missing, drift counted twice); matrix exponential refuted for singular A (no inverse). Eigen's QR inverse and exp are taken as exact."
  },
  {
   "property": "C11",
   "status": "proved",
   "theorems": [
    "C11_control_law",
    "C11_on_reference",
    "C11_update_refused",
    "C11_update_empty_refuted",
    "C11_discrete_law",
    "C11_extract",
    "C11_extract_empty_refuted"
   ],
   "note": "Exact rationals; holds after every history of updates and evaluations. Edge cases outside the property: update with an empty time array and extractControlTrajectory with an empty state trajectory are undefined behaviour (C11_update_empty_refuted, C11_extract_empty_refuted)."
  },
  {
   "property": "C12",
   "status": "proved",
   "theorems": [
    "C12_linspace_equally_spaced",
    "C12_timearray_uniform",
    "C12_empty_grid_rejected",
    "C12_linspace_end_exact_in_double_refuted"
   ],
   "note": "Exact arithmetic; binary64 witness that the accumulated end point misses b."
  },
  {
   "property": "C13",
   "status": "partial",
   "theorems": [
    "C13_single_active_iff_in_window",
    "C13_weight",
    "C13_linear_active_iff_in_window",
    "C13_periodic_active_iff_in_some_window",
    "C13_periodic_constructor_uninitialised_refuted",
    "C13_linear_value_in_unit_interval_refuted",
    "C13_gauss_loaded_decays",
    "C13_gauss_constructed_decays_refuted",
    "C13_barrier_derivatives",
    "C13_barrier_separates",
    "C13_barrier_loaded_is_active_refuted",
    "C13_periodic_load_checked",
    "C13_barrier_bounds"
   ],
   "note": "Window theorems for single, linear and loaded periodic activations and loaded Gaussian/constructed barrier; refuted: Gaussian built by constructor grows away from its centre, periodic built by constructor reads an uninitialised end time, linear values leave [0,1], loaded barrier is identically zero."
  },
  {
   "property": "C14",
   "status": "partial",
   "theorems": [
    "C14_controllability_matrix_partial",
    "C14_observability_refuted",
    "C14_observability_scalar_partial"
   ],
   "note": "Controllability matrix: proved for every dimension, with memory safety. Observability matrix: refuted, the computation writes out of bounds for every system with two or more states (finding); right for one state. Eigen's numerical rank threshold is modelled as the exact rank."
  },
  {
   "property": "C15",
   "status": "partial",
   "theorems": [
    "C15_multiple_partial",
    "C15_advanced_time",
    "C15_period_refuted",
    "C15_rounding_refuted"
   ],
   "note": "Proved when the period is a multiple of the step in exact arithmetic; refuted otherwise (remainder used as a time), and in double precision also for 0.3 s over 0.1 s."
  },
  {
   "property": "C16",
   "status": "proved",
   "theorems": [
    "C16_riccati_optimal",
    "C16_convex_problem",
    "C16_corrected_hessian",
    "C16_constrained_refused",
    "C16_fixed_correction_not_optimal_refuted"
   ],
   "note": "Every horizon, dimension and competitor over any real field; the eigen-decomposition and Cholesky routines are parameters assumed correct. Also shown: the fixed Hessian correction yields the minimiser of the corrected problem and not of the given one; a box-constrained problem is refused."
  },
  {
   "property": "C17",
   "status": "partial",
   "theorems": [
    "C17_gains_optimal_partial",
    "C17_gains_optimal_linearised_partial",
    "C17_lengths",
    "C17_checks_only_reject",
    "C17_given_weights_refuted",
    "C17_documented_sign_refuted",
    "C17_valid_weights_accepted_refuted"
   ],
   "note": "The gains minimise the cost whose input weight is R + 1e-5 I (the code always adds 1e-5 I). Refuted: optimality for the given weights, the documented sign u = -K(x-xref), and acceptance of all positive definite weights by the default checks."
  },
  {
   "property": "C18",
   "status": "proved",
   "theorems": [
    "C18_split_backward_pass"
   ],
   "note": "Every split point and every problem; the second half may be re-approximated in between."
  },
  {
   "property": "C19",
   "status": "proved",
   "theorems": [
    "C19_covariance_valid",
    "C19_update_optimal",
    "C19_predict"
   ],
   "note": "Every history of calls including model replacement, exact arithmetic; noise Jacobian invertible at updates."
  },
  {
   "property": "C20",
   "status": "partial",
   "theorems": [
    "C20_sigma_points",
    "C20_affine_cycle",
    "C20_fresh_filter_refuted"
   ],
   "note": "Mean, covariance and affine exactness proved once the weights are computed; refuted for a filter as constructed: no constructor or filter step computes the weights (uninitialised reads)."
  },
  {
   "property": "C21",
   "status": "partial",
   "theorems": [
    "C21_correction_partial",
    "C21_steady_state_gain_refuted"
   ],
   "note": "The correction is exactly characterised (predictor gain A P H' S^-1, R regularised); refuted: it is not the minimising gain for the predicted state. predict does not compile (three arguments for a four-argument method)."
  },
  {
   "property": "C22",
   "status": "proved",
   "theorems": [
    "C22_horizon_documented",
    "C22_horizon_monotone",
    "C22_unknown_mode_throws"
   ],
   "note": "All four modes, all elapsed times; unknown modes throw."
  },
  {
   "property": "C23",
   "status": "partial",
   "theorems": [
    "C23_timings_inside_horizon",
    "C23_recorded_delays_match",
    "C23_negative_delay_throws",
    "C23_recorded_delays_without_measuring_refuted",
    "C23_forward_window"
   ],
   "note": "All histories with monotone clocks; recorded delays match a stop watch when delay measurement is on; refuted when it is off (the absolute clock reading is recorded)."
  },
  {
   "property": "C24",
   "status": "proved",
   "theorems": [
    "C24_warm_start",
    "C24_truncate",
    "C24_whole_steps_unique"
   ],
   "note": "StateFeedbackPolicyHandler on rational time grids; trajectories as in the ct_core model."
  },
  {
   "property": "C25",
   "status": "partial",
   "theorems": [
    "C25_stages",
    "C25_policy_time_stamp_partial",
    "C25_predicted_time_close",
    "C25_first_stamp_without_measuring_refuted",
    "C25_stamp_without_prediction_refuted",
    "C25_prediction_controller_refuted",
    "C25_failed_solve_stamp_refuted",
    "C25_cold_start_truncation_refuted",
    "C25_new_strategy_ignored_refuted"
   ],
   "note": "Stamp and start state specified for every call history with the warm-start handler. Refuted parts: first stamp without delay measurement, stamp when prediction is off, controller used for the prediction, stamp after a failed solve, cold start with post-truncation (uninitialised read), replaced horizon strategy ignored."
  },
  {
   "property": "C26",
   "status": "partial",
   "theorems": [
    "C26_history",
    "C26_uniform",
    "C26_rescale",
    "C26_out_of_range",
    "C26_end_in_double_refuted"
   ],
   "note": "Over the reals the grid partitions the horizon after every history of grid calls, as specified; missing: in double the last grid point can lie below the horizon (refuted with N=49, T=1)."
  },
  {
   "property": "C27",
   "status": "partial",
   "theorems": [
    "C27_ranges",
    "C27_history",
    "C27_all_vectors",
    "C27_guess_sizes",
    "C27_endpoints_partial",
    "C27_interpolation_refuted",
    "C27_guess_separate"
   ],
   "note": "Layout, getters, setters and array guesses hold for all histories; missing: the end-point guess does not interpolate (refuted, integer division) and the guess is separate from the decision vector."
  },
  {
   "property": "C28",
   "status": "partial",
   "theorems": [
    "C28_linear_interpolates",
    "C28_zoh_holds",
    "C28_derivative_time",
    "C28_derivative_node",
    "C28_derivative_next_node",
    "C28_derivative_duration",
    "C28_linear_last_node_refuted"
   ],
   "note": "Values and all derivatives hold on every shot for both splines; missing: the linear spline is undefined at the last node (refuted)."
  },
  {
   "property": "C29",
   "status": "proved",
   "theorems": [
    "C29_container",
    "C29_dms"
   ],
   "note": "C29_container: for every list of constraints that report what they mean (values, bounds, sparse Jacobian of the reported sizes), assembly writes each constraint's values and bounds to the same consecutive rows, counts add up, and the triplets are exactly the stacked Jacobian without duplicates and in range. C29_dms: the constraint list of the shooting problem (initial state, continuity per shot, discretised path constraints after every history of valid calls) satisfies that hypothesis."
  },
  {
   "property": "C30",
   "status": "proved",
   "theorems": [
    "C30_continuity",
    "C30_blocks",
    "C30_derivative"
   ],
   "note": "For every number of shots, both spline types and every shot: the triplets of the continuity constraint are the matrix [-dX/ds_i, -dX/dq_i, I, -dX/dq_{i+1}] at the columns of the decision vector, no duplicates, in range (C30_continuity, C30_blocks), and this matrix is the derivative of the constraint values with respect to every entry of the decision vector when the shot delivers the sensitivities of its end state (C30_derivative)."
  },
  {
   "property": "C31",
   "status": "partial",
   "theorems": [
    "C31_rows",
    "C31_sparse_partial",
    "C31_general_refuted",
    "C31_uninitialised",
    "C31_terminal_flag_refuted"
   ],
   "note": "Rows (values, bounds, dense Jacobians) agree for every history; triplets are a sparse form of the dense Jacobian for all containers whose user-defined terms have at most one row or one column. Refuted in general: the inherited sparse interface of user-defined terms is column-major against a row-major pattern; terminal state Jacobians test the intermediate initialised flag."
  },
  {
   "property": "C32",
   "status": "partial",
   "theorems": [
    "C32_terms",
    "C32_values",
    "C32_reported",
    "C32_barrier_refuted",
    "C32_expansion",
    "C32_simple",
    "C32_simple_refuted"
   ],
   "note": "Proved for every analytical term (any weights, references, points; the smoothed absolute value needs a nonzero smoothing parameter). CostFunctionQuadraticSimple is right for symmetric weights and refuted otherwise; the state barrier throws instead of reporting derivatives."
  },
  {
   "property": "C33",
   "status": "partial",
   "theorems": [
    "C33_derivatives",
    "C33_value_actual",
    "C33_consistent_partial",
    "C33_terminal",
    "C33_refuted",
    "C33_ad_activation_refuted",
    "C33_ad_stale_refuted",
    "C33_ad_value"
   ],
   "note": "The reported derivatives are always those of the activation-weighted sum; the reported value uses the square of each activation, so the two agree when activations are 0 or 1 and are refuted for 1/2. AD terms ignore activations and terms added after initialize() are not evaluated."
  },
  {
   "property": "C34",
   "status": "partial",
   "theorems": [
    "C34_violation",
    "C34_obstacle",
    "C34_half_axes_refuted",
    "C34_inside_value_refuted",
    "C34_ordered",
    "C34_crossed_refuted"
   ],
   "note": "Proved for every history and row with lower <= upper (guaranteed by the constructors of the built-in terms). Refuted for crossed bounds, which user-defined terms may have: the two violations cancel. For obstacles the region is that of the inverse of the documented half axes (C34_half_axes_refuted)."
  },
  {
   "property": "C35",
   "status": "proved",
   "theorems": [
    "C35_rollout",
    "C35_defect_norm"
   ],
   "note": "Dynamics, feedback law and NaN tests are parameters; integrator sub-steps and the external termination flag are left out. The defect norm is over the reals."
  },
  {
   "property": "C36",
   "status": "partial",
   "theorems": [
    "C36_first_acceptable",
    "C36_never_worse",
    "C36_line_search",
    "C36_reported",
    "C36_strict_decrease_refuted"
   ],
   "note": "First acceptable step, NaN never accepted, merit never raised, failure leaves everything but the stored defects untouched (the caller zeroes them before searching): proved for exact rationals with NaN. With ARMIJO the decrease need not be strict (C36_strict_decrease_refuted). The test of Delta1/Delta2 takes them as given numbers."
  },
  {
   "property": "C37",
   "status": "partial",
   "theorems": [
    "C37_exactly_once_partial",
    "C37_first_call",
    "C37_sequential_result_partial",
    "C37_single_stage",
    "C37_stale_worker_refuted"
   ],
   "note": "For every number of workers and every interleaving (including spurious wake-ups) the call processes each index exactly once, provided no worker still carries work of an earlier call; unconditional for the first call. In general refuted: a late worker of the previous call takes over indices of the next one."
  },
  {
   "property": "C38",
   "status": "partial",
   "theorems": [
    "C38_parallel_rollout_partial",
    "C38_first_rollout",
    "C38_single_index"
   ],
   "note": "For every number of workers and every interleaving the parallel rollout leaves exactly the single-threaded trajectories, provided no worker still carries work of an earlier call (see C37); unconditional for the first call. Thread-local copies of the system are taken as interchangeable."
  },
  {
   "property": "C39",
   "status": "partial",
   "theorems": [
    "C39_result_partial",
    "C39_iff_sequential_accepts",
    "C39_full_step",
    "C39_unique_step",
    "C39_one_worker",
    "C39_workers_finish",
    "C39_larger_step_refuted",
    "C39_wakeup_lost_refuted",
    "C39_zero_iterations_hang_refuted"
   ],
   "note": "For every number of workers and every interleaving: a step is returned iff one is acceptable, and the trajectories are those of the returned step; the sequential answer for one worker, a unique acceptable step, or an acceptable full step. Refuted in general: a smaller step can overwrite the first acceptable one; the caller's wake-up can be lost; maxIterations = 0 never returns. Workers left over from an earlier search are not modelled."
  },
  {
   "property": "C40",
   "status": "partial",
   "theorems": [
    "C40_no_work_left_partial",
    "C40_worker_wakeup_lost_refuted",
    "C40_caller_wakeup_lost_refuted",
    "C40_lost_count_refuted"
   ],
   "note": "With at least two workers a call can only get stuck after all work is done and counted (C40_no_work_left_partial). The full property is refuted by three schedules: lost wake-up of the worker, lost wake-up of the caller, lost count by a late worker."
  },
  {
   "property": "C41",
   "status": "partial",
   "theorems": [
    "C41_iterations",
    "C41_lowest_merit",
    "C41_result_refuted",
    "C41_full_step_refuted",
    "C41_defects_forgotten_refuted"
   ],
   "note": "Iteration bound, stopping rule and non-increasing merit (for every sequence of LQ solutions, with line search) are proved. Refuted: the flag solve() returns is constantly true; line search type NONE may raise the cost; after a failed search the stored defects are zero."
  },
  {
   "property": "C42",
   "status": "proved",
   "theorems": [
    "C42_stages",
    "C42_dimensions_history",
    "C42_initial_guess",
    "C42_reported_horizon",
    "C42_configure_refuted"
   ],
   "note": "Exact rational arithmetic for T/dt; dimensions kept over every history of calls. Separate finding: configure() with another dt changes the horizon (C42_configure_refuted)."
  },
  {
   "property": "C43",
   "status": "partial",
   "theorems": [
    "C43_history",
    "C43_no_undefined",
    "C43_input_boxes",
    "C43_state_boxes",
    "C43_general",
    "C43_general_affine",
    "C43_terminal_partial",
    "C43_zero",
    "C43_too_many_refuted",
    "C43_unchecked_refuted",
    "C43_stale_refuted",
    "C43_terminal_refuted",
    "C43_target_refuted",
    "C43_general_set"
   ],
   "note": "For every history of calls the stored bounds are exactly the last accepted bounds shifted by the nominal value and nothing else is constrained; containers of box and general constraints are transferred correctly at every stage. Missing/refuted: more box rows than components write out of bounds, only the last index is checked, a container without boxes does not remove old ones, terminal general constraints are linearised at a stale state in the first iteration, target-state terms as box constraints lose the target."
  },
  {
   "property": "C44",
   "status": "partial",
   "theorems": [
    "C44_fresh",
    "C44_once",
    "C44_before_first_update_refuted",
    "C44_change_initial_refuted",
    "C44_reset_refuted"
   ],
   "note": "All honest callback histories; refuted: evaluation before the first update, after changing the initial state, and after resetting the update count."
  },
  {
   "property": "C45",
   "status": "partial",
   "theorems": [
    "C45_initial_state",
    "C45_control",
    "C45_cost_initial_state",
    "C45_cost_control",
    "C45_discrete_state_partial",
    "C45_discrete_control_partial",
    "C45_time_refuted"
   ],
   "note": "Proved for the shooting integrator: state, control and cost sensitivities, any normed space, any differentiable dynamics, Euler and RK4. For ct::core::SensitivityIntegrator proved for dynamics without explicit time dependence and refuted otherwise (linearised at a wrong time)."
  },
  {
   "property": "C46",
   "status": "partial",
   "theorems": [
    "C46_clone_partial",
    "C46_independent",
    "C46_lockstep_partial",
    "C46_alias_refuted",
    "C46_barrier_refuted",
    "C46_barrier_value",
    "C46_simple_partial",
    "C46_simple_refuted"
   ],
   "note": "Proved for cost functions of terms without state barriers: same values and derivatives, independence, and lock step under all calls when no term object is shared. Refuted for the state barrier term, for a term added twice, and for the terminal cost of CostFunctionQuadraticSimple before the next setCurrentStateAndControl."
  },
  {
   "property": "C47",
   "status": "partial",
   "theorems": [
    "C47_gradient_partial",
    "C47_object_after",
    "C47_unchanged_refuted",
    "C47_time_shift_refuted",
    "C47_one_sided_shift_refuted"
   ],
   "note": "The gradient is right when no time shift is set. Refuted: the object is left at the perturbed point, and a time shift is applied twice."
  },
  {
   "property": "C48",
   "status": "proved",
   "theorems": [
    "C48_step",
    "C48_determinant",
    "C48_volume",
    "C48_trajectory",
    "C48_symplectic",
    "C48_state_sensitivity",
    "C48_control_sensitivity"
   ],
   "note": "Symplectic Euler stepper (boost's symplectic_euler modelled from its documentation); sensitivities exact also for nonlinear systems."
  },
  {
   "property": "C49",
   "status": "partial",
   "theorems": [
    "C49_discretized_partial",
    "C49_linear_refuted",
    "C49_general_refuted"
   ],
   "note": "Proved for every number of shots and every history of containers, evaluations and queries with zero-order-hold controls, if general containers have no input non-zeros. Refuted otherwise: C49_general_refuted (a general container with input non-zeros writes past the Jacobian and index arrays, for every number of shots) and C49_linear_refuted (with piecewise linear controls every evaluation reads past the time grid at the last node). User-defined constraints of more than one row have a wrong sparse format (C31)."
  },
  {
   "property": "C50",
   "status": "partial",
   "theorems": [
    "C50_zoh",
    "C50_linear_refuted",
    "C50_linear_partial",
    "C50_stale_weights_refuted",
    "C50_value"
   ],
   "note": "Zero-order-hold weights reproduce the integral; piecewise-linear weights: refuted as written (read past the end), the trapezoid identity holds for the prefix the code completes; stale weights after a horizon change refuted."
  },
  {
   "property": "C51",
   "status": "partial",
   "theorems": [
    "C51_mechanical_partial",
    "C51_mechanical_refuted",
    "C51_mechanical_actual",
    "C51_frequency",
    "C51_set_dynamics",
    "C51_rest",
    "C51_dissipation"
   ],
   "note": "Proved for the frequency constructor and setDynamics. The mechanical constructor is right iff d = 0 or m*k = 1: the damping ratio is computed as d/(2mk) (C51_mechanical_refuted)."
  },
  {
   "property": "C52",
   "status": "partial",
   "theorems": [
    "C52_feasible_partial",
    "C52_change_refuted",
    "C52_container_update"
   ],
   "note": "The constraint compares with the constructor's initial state for every history; refuted: changing the initial state does not update it; the unused container update would."
  },
  {
   "property": "C53",
   "status": "partial",
   "theorems": [
    "C53_dare_residual",
    "C53_dare_gives_up",
    "C53_dare_large_tolerance_refuted"
   ],
   "note": "Fixed point residual below the tolerance for eps up to 1; refuted beyond: a tolerance above 1 returns without iterating."
  },
  {
   "property": "C54",
   "status": "partial",
   "theorems": [
    "C54_care_solution_partial",
    "C54_exact_convergence",
    "C54_lqr_gain_optimal_partial",
    "C54_failure_reported",
    "C54_diagonal_shortcut"
   ],
   "note": "Riccati equation, symmetry and Hamilton-Jacobi-Bellman optimality of the gain whenever the sign iteration ends in an exact involution and the linear system has full rank; no residual bound for approximate convergence, LAPACK variant not modelled."
  },
  {
   "property": "C55",
   "status": "partial",
   "theorems": [
    "C55_ukf_is_kalman_partial",
    "C55_ukf_process_noise_refuted"
   ],
   "note": "Proved without process noise; refuted with process noise (sigma points are not redrawn)."
  },
  {
   "property": "C56",
   "status": "partial",
   "theorems": [
    "C56_ukf_measurement_time_partial",
    "C56_ekf_measurement_time_refuted"
   ],
   "note": "Proved for the unscented filter; refuted for the extended filter (time 0 is always used)."
  },
  {
   "property": "C57",
   "status": "proved",
   "theorems": [
    "C57_isControllable_iff_reachable"
   ],
   "note": "Discrete-time reachability in any number of steps (Cayley-Hamilton); FullPivLU's rank is taken as the exact rank."
  },
  {
   "property": "C58",
   "status": "proved",
   "theorems": [
    "C58_controllability_gramian",
    "C58_observability_gramian"
   ],
   "note": "Exact arithmetic."
  },
  {
   "property": "C59",
   "status": "partial",
   "theorems": [
    "C59_terms",
    "C59_costfunction",
    "C59_last_wins",
    "C59_ignored_refuted",
    "C59_simple"
   ],
   "note": "Proved for quadratic and mixed terms and for cost functions made of them. Refuted: the product, smoothed-absolute and tracking terms ignore the update (mixed ignores the control reference), and CostFunctionQuadraticSimple evaluates against the old reference until the next setCurrentStateAndControl."
  },
  {
   "property": "C60",
   "status": "proved",
   "theorems": [
    "C60_gradient"
   ],
   "note": "All dimensions, shots and weights; hypothesis: the cost function object's own derivatives are right."
  },
  {
   "property": "C61",
   "status": "proved",
   "theorems": [
    "C61_terms",
    "C61_container"
   ],
   "note": "For every history; the user-supplied position Jacobian of obstacle terms and the Jacobians of user-defined terms are assumed to be derivatives."
  },
  {
   "property": "C62",
   "status": "proved",
   "theorems": [
    "C62_general",
    "C62_box",
    "C62_absent",
    "C62_zero"
   ],
   "note": "Exact value and zero-iff-feasible for box and general constraint errors; terminal constraints of the input box container are not part of the value."
  },
  {
   "property": "C63",
   "status": "proved",
   "theorems": [
    "C63_motion",
    "C63_negative_time",
    "C63_history",
    "C63_fastest"
   ],
   "note": "For all limits, targets and earlier uses: C63_motion (a motion within the limits that takes the returned time, monotone, holds the target), C63_fastest (no motion within the limits is faster), C63_history, C63_negative_time. Exact reals."
  },
  {
   "property": "C64",
   "status": "partial",
   "theorems": [
    "C64_samples_partial",
    "C64_arrives_refuted",
    "C64_arrives_partial"
   ],
   "note": "C64_samples_partial: the grid, every sample of every joint and holding after arrival. C64_arrives_partial: the last sample is the target when the sampling time divides the longest duration. C64_arrives_refuted: the number of samples is rounded to the nearest multiple, so the trajectory ends before the last joint arrives whenever that is below the longest duration."
  },
  {
   "property": "C65",
   "status": "partial",
   "theorems": [
    "C65_unique",
    "C65_representative",
    "C65_int_refuted",
    "C65_double_refuted",
    "C65_position_limits",
    "C65_velocity_limits",
    "C65_unique_passes"
   ],
   "note": "Proved over the reals for all joint counts and limits while the number of turns fits an int: C65_unique, C65_representative, C65_position_limits, C65_velocity_limits, C65_unique_passes. Refuted: C65_int_refuted (more turns overflow an int: undefined), C65_double_refuted (in double precision the result can be lower + 2 pi, outside the half-open range, and a second call changes it)."
  },
  {
   "property": "C66",
   "status": "partial",
   "theorems": [
    "C66_quaternion_vector",
    "C66_euler_vector",
    "C66_quaternion_state",
    "C66_euler_state",
    "C66_rotation",
    "C66_floating",
    "C66_fixbase",
    "C66_fixbase_state",
    "C66_symplectic",
    "C66_storage_refuted"
   ],
   "note": "Proved for all dimensions: vector -> state -> vector and state -> vector -> state for quaternion and Euler layouts, floating base with actuators, fixed base, symplectic layout; rotations survive a change of representation if kindr's conversions keep them (C66_rotation). Refuted: the pose constructor from an Eigen quaternion ignores the requested storage (C66_storage_refuted). FloatingBaseRobotState::fromStateVectorEulerXyz without actuators does not compile in the code and is not covered."
  },
  {
   "property": "C67",
   "status": "partial",
   "theorems": [
    "C67_force_partial",
    "C67_inactive_refuted",
    "C67_offset_refuted",
    "C67_normal_smoothing_refuted",
    "C67_undefined",
    "C67_weight",
    "C67_passive",
    "C67_dissipates"
   ],
   "note": "C67_force_partial: the documented force for active end-effectors with velocity smoothing, and without any smoothing for a plane through the origin; C67_undefined, C67_weight, C67_passive, C67_dissipates hold for all parameters. Refuted: C67_inactive_refuted (the force of an end-effector that is switched off is never written), C67_offset_refuted (without velocity smoothing contact is tested against height 0, not against the plane), C67_normal_smoothing_refuted (normal smoothing is cut off at height 0 without velocity smoothing)."
  },
  {
   "property": "C68",
   "status": "proved",
   "theorems": [
    "C68_euler_rates",
    "C68_state",
    "C68_control",
    "C68_selection"
   ],
   "note": "Exact reals, cos of the second Euler angle not 0: C68_euler_rates, C68_state (upper half exact in both modes), C68_control (every system with M a + h = S^T u, the Cholesky solve taken as an inverse), C68_selection. The numerical lower half is that of the base class (C09); kindr's rotation matrix is taken as Rx Ry Rz."
  },
  {
   "property": "C69",
   "status": "proved",
   "theorems": [
    "C69_point_velocity",
    "C69_orientation",
    "C69_jacobian_rates",
    "C69_contact_jacobian",
    "C69_contact_rates",
    "C69_contact_acceleration"
   ],
   "note": "C69_point_velocity, C69_orientation, C69_jacobian_rates for every serial chain and every motion; C69_contact_jacobian, C69_contact_rates, C69_contact_acceleration for every contact configuration. Robots are serial chains with joints numbered from the base (the generated code is modelled by that specification); getJacobianOriginDerivativeNumdiff is not modelled."
  },
  {
   "property": "C70",
   "status": "partial",
   "theorems": [
    "C70_answers",
    "C70_projector",
    "C70_rates_partial",
    "C70_rates_square",
    "C70_rates_refuted",
    "C70_svd_refuted"
   ],
   "note": "C70_answers: all histories of updates and questions (without the SVD variant). C70_projector: all Jacobians, rank deficient ones included. C70_rates_partial gives the true rates, C70_rates_square says when the reported ones are right. Refuted: C70_rates_refuted (the reported rates of inverse and projector lack a term, also without weighting), C70_svd_refuted (JdagerSVD after JdagerLDLT returns the weighted inverse and the other way round)."
  },
  {
   "property": "C71",
   "status": "partial",
   "theorems": [
    "C71_forward",
    "C71_sizes",
    "C71_inverse",
    "C71_inverse_forward",
    "C71_forces_refuted",
    "C71_fully_actuated_refuted"
   ],
   "note": "C71_forward, C71_inverse, C71_inverse_forward: all histories, numbers of joints and feet, and independent contacts, in exact arithmetic; Eigen's LDLT and the pseudo inverse are assumed to solve solvable systems (C71_example_solvers shows such solvers exist); the robot's inertia, bias forces and Jacobians are parameters. Refuted: C71_forces_refuted (reported forces are read with the contacts of the moment of asking, so they are attributed to other feet after a contact change), C71_fully_actuated_refuted (FloatingBaseFullyActuatedID ignores the given base acceleration)."
  },
  {
   "property": "C72",
   "status": "partial",
   "theorems": [
    "C72_torques_partial",
    "C72_shared_link_refuted",
    "C72_actuators",
    "C72_consistent_state",
    "C72_null_actuator_refuted",
    "C72_symplectic",
    "C72_copy",
    "C72_floating_partial",
    "C72_floating_copy_refuted",
    "C72_kinematic"
   ],
   "note": "Proved for all dimensions, states and robots: C72_torques_partial and C72_floating_partial (when no two end-effectors share a link), C72_actuators, C72_consistent_state, C72_symplectic (same system, permuted state), C72_copy, C72_kinematic. Refuted: C72_shared_link_refuted (of several end-effectors on one link only the last force acts), C72_null_actuator_refuted (the default constructor of a system with actuators leaves a null pointer), C72_floating_copy_refuted (copying a floating base system without contact model is undefined). Not modelled: actuators together with force inputs (does not compile), the generated dynamics (a parameter)."
  },
  {
   "property": "C73",
   "status": "partial",
   "theorems": [
    "C73_second_order",
    "C73_constructors",
    "C73_state_from_output",
    "C73_state_unique",
    "C73_series_elastic",
    "C73_rest_partial",
    "C73_unit_amplification_refuted"
   ],
   "note": "C73_second_order, C73_constructors, C73_state_from_output, C73_state_unique, C73_series_elastic for all joint counts, parameters and motions; C73_rest_partial for the constructors with gain 1. C73_unit_amplification_refuted: the constructors documented for unit amplification rest at w_n^2 times the command."
  },
  {
   "property": "C74",
   "status": "partial",
   "theorems": [
    "C74_joints_independent",
    "C74_same_parameters",
    "C74_unchecked",
    "C74_gains_refuted",
    "C74_clone_refuted",
    "C74_whole_body",
    "C74_selection",
    "C74_selection_sizes"
   ],
   "note": "C74_joints_independent (any scalar arithmetic, any history), C74_same_parameters, C74_whole_body, C74_selection, C74_selection_sizes; C74_unchecked says which calls are undefined. Refuted: C74_gains_refuted (setAllPIDGains also resets the control limits, the integrator limit and the time step to the defaults), C74_clone_refuted (clone throws)."
  },
  {
   "property": "C75",
   "status": "partial",
   "theorems": [
    "C75_rotations",
    "C75_reference_frame",
    "C75_ee_pose",
    "C75_ee_velocity",
    "C75_force_power",
    "C75_force_ee_power",
    "C75_world_frame",
    "C75_set_end_effector_refuted",
    "C75_base_orientation_refuted",
    "C75_quaternion_rate"
   ],
   "note": "Exact reals, kindr's conversions keep rotations: C75_rotations, C75_reference_frame, C75_ee_pose, C75_ee_velocity, C75_quaternion_rate, C75_force_power, C75_force_ee_power, C75_world_frame. Refuted: C75_set_end_effector_refuted (setEndEffector does nothing), C75_base_orientation_refuted (the documented recipe for world forces rotates them the wrong way)."
  },
  {
   "property": "C76",
   "status": "partial",
   "theorems": [
    "C76_base_target",
    "C76_base_dissipates",
    "C76_base_law",
    "C76_base_torque",
    "C76_lqr_law",
    "C76_lqr_equilibrium",
    "C76_lqr_linearisation",
    "C76_lqr_default",
    "C76_failed_design_refuted"
   ],
   "note": "C76_base_target, C76_base_law, C76_base_torque, C76_base_dissipates (translational part, desired state at rest), C76_lqr_law, C76_lqr_equilibrium, C76_lqr_linearisation, C76_lqr_default, over the reals. The torques of IDControllerFB are those of projected inverse dynamics, see C71. Refuted: C76_failed_design_refuted (a design that reports failure still replaces set-point, torques and gain)."
  },
  {
   "property": "C77",
   "status": "partial",
   "theorems": [
    "C77_active_mode",
    "C77_defined_everywhere",
    "C77_unknown_mode_refuted",
    "C77_controller",
    "C77_last_control_refuted",
    "C77_clone_independent",
    "C77_discrete_clone_partial",
    "C77_discrete_clone_refuted",
    "C77_clone_aliased_refuted",
    "C77_linear",
    "C77_discrete_linear"
   ],
   "note": "C77_active_mode, C77_defined_everywhere, C77_controller, C77_clone_independent (distinct subsystem objects), C77_discrete_clone_partial (no controller), C77_linear, C77_discrete_linear. Refuted: C77_unknown_mode_refuted, C77_last_control_refuted, C77_discrete_clone_refuted, C77_clone_aliased_refuted."
  },
  {
   "property": "C78",
   "status": "partial",
   "theorems": [
    "C78_intermediate",
    "C78_defined",
    "C78_terminal",
    "C78_terminal_at_end",
    "C78_initialize",
    "C78_bounds_after_initialize_refuted",
    "C78_clone",
    "C78_terminal_stale_refuted",
    "C78_clone_active_refuted"
   ],
   "note": "C78_intermediate, C78_defined, C78_terminal, C78_terminal_at_end, C78_initialize, C78_clone. Refuted: C78_terminal_stale_refuted, C78_clone_active_refuted, C78_bounds_after_initialize_refuted."
  },
  {
   "property": "C79",
   "status": "partial",
   "theorems": [
    "C79_propagate",
    "C79_symplectic",
    "C79_consecutive",
    "C79_type_ignored_refuted",
    "C79_type_crash_refuted",
    "C79_stale_system_refuted",
    "C79_copy_refuted",
    "C79_symplectic_controls_refuted",
    "C79_symplectic_substates_refuted"
   ],
   "note": "proved for histories in which the system is set after the integration type (then for explicit and symplectic types); refuted: setIntegrationType alone has no effect, crashes or integrates a stale system, copying is undefined behaviour, symplectic types record wrong controls or nothing"
  },
  {
   "property": "C80",
   "status": "partial",
   "theorems": [
    "C80_threads",
    "C80_linear",
    "C80_refused",
    "C80_setup",
    "C80_sensitivity_partial",
    "C80_sensitivity_refuted"
   ],
   "note": "propagation, records, refusals and linear systems proved for all histories with explicit integrators; the kind of sensitivity is proved only while useSensitivityIntegrator stays the same, and refuted otherwise"
  },
  {
   "property": "C81",
   "status": "partial",
   "theorems": [
    "C81_pattern",
    "C81_values_partial",
    "C81_upper_refuted",
    "C81_inverse_kinematics",
    "C81_range"
   ],
   "note": "pattern proved for all programs; values proved when every constraint term reports positions on or below the diagonal; refuted for terms that also report positions above it; the inverse kinematics program satisfies the condition"
  },
  {
   "property": "C82",
   "status": "partial",
   "theorems": [
    "C82_error",
    "C82_minimum",
    "C82_gradient_partial",
    "C82_hessian",
    "C82_hessian_at_target",
    "C82_target",
    "C82_evaluator",
    "C82_evaluator_gradient_partial",
    "C82_position_weights_refuted",
    "C82_rotation_weights_refuted"
   ],
   "note": "cost, minimum, target, evaluator histories and Hessian proved for all inputs; the gradient is proved for symmetric position weights and equal rotation weights while the error is less than half a turn, and refuted for other weights"
  },
  {
   "property": "C83",
   "status": "partial",
   "theorems": [
    "C83_cost_and_general",
    "C83_box_count_changed",
    "C83_whole_problem_partial",
    "C83_new_object_refuted",
    "C83_freed_object_refuted",
    "C83_new_bound_refuted",
    "C83_shorter_horizon_refuted",
    "C83_longer_horizon_refuted",
    "C83_same_problem_again_refuted"
   ],
   "note": "dimensions, dynamics, cost, general constraints and counts proved for every history, the bounds of the box constraints only when the counts changed or the object, horizon and absent bounds stayed the same: the rest is refuted (stale pointers and masks)"
  },
  {
   "property": "C84",
   "status": "proved",
   "theorems": [
    "C84_jacobians",
    "C84_rigid_body",
    "C84_C",
    "C84_shipped",
    "C84_far_state_refuted"
   ],
   "note": "stated for states of norm below 1e20: beyond it the code returns zero dynamics (recorded as a finding)"
  },
  {
   "property": "C85",
   "status": "partial",
   "theorems": [
    "C85_solve",
    "C85_getCoefficient",
    "C85_least_squares",
    "C85_exact",
    "C85_through_origin_refuted"
   ],
   "note": "solving, coefficients and least squares proved for all inputs; recovery of the plane proved for planes that do not contain the origin, refuted for those that do"
  },
  {
   "property": "C86",
   "status": "partial",
   "theorems": [
    "C86_prediction",
    "C86_derivative_partial",
    "C86_disturbance",
    "C86_disturbed_controller",
    "C86_clone_refuted",
    "C86_set_controller_refuted",
    "C86_shared_system_refuted",
    "C86_time_refuted",
    "C86_step_number_refuted",
    "C86_accumulated_time_refuted",
    "C86_scheme_refuted"
   ],
   "note": "prediction proved for systems used by one process model; derivative proved for the Euler integrator with forward Euler at whole multiples of the step; disturbances proved for any number of steps; shared systems, other times, other integrators, copies of input disturbed systems and setController after CTSystemModel refuted"
  },
  {
   "property": "C87",
   "status": "partial",
   "theorems": [
    "C87_matrix",
    "C87_matrix_entry_refuted",
    "C87_texts",
    "C87_matrix_unscaled",
    "C87_line_search_check",
    "C87_solver_check_partial",
    "C87_dms_check_partial",
    "C87_nan_refuted",
    "C87_threads_refuted",
    "C87_names_refuted",
    "C87_unknown_exits_refuted",
    "C87_line_search_refuted",
    "C87_ipopt_frequency_refuted",
    "C87_solver_type_refuted",
    "C87_ukf_parameters_refuted",
    "C87_ukf_matrix",
    "C87_ukf_namespace_refuted",
    "C87_solver_settings",
    "C87_line_search_partial",
    "C87_names_partial",
    "C87_exit",
    "C87_mpc_settings",
    "C87_mpc_mode_refuted",
    "C87_dms_settings",
    "C87_dms_complete"
   ],
   "note": "Scalars, matrices, MPC, multiple shooting and NLP settings are proved to be what the file says. The full claim is false: names are only loaded up to the first missing one, an incomplete line search block is half loaded, an unknown name ends the process, the mode of MPC and the print frequency of IPOPT are never read, the parameters of the unscented filter are read as truth values and its matrices at a path that does not exist, unreadable matrix entries become zero, and the checks accept NaN and thread counts that are not positive."
  },
  {
   "property": "C88",
   "status": "partial",
   "theorems": [
    "C88_value",
    "C88_control",
    "C88_gradient_states",
    "C88_gradient_controls",
    "C88_terminal_time_refuted"
   ],
   "note": "Value, control and every segment of the gradient are proved. The claim fails for terminal costs that depend on time: the terminal cost is evaluated at time 0 instead of the end of the horizon."
  },
  {
   "property": "C89",
   "status": "partial",
   "theorems": [
    "C89_constructed",
    "C89_refused_problem",
    "C89_refused_settings",
    "C89_history",
    "C89_replace_refuted",
    "C89_configure_refuted",
    "C89_horizon_refuted",
    "C89_two_horizons_refuted",
    "C89_unknown_solver_refuted",
    "C89_no_shots_refuted",
    "C89_simple_linear_refuted",
    "C89_stale_linearisation_refuted"
   ],
   "note": "construction and refusals proved for all problems and workable settings, the effect of all later histories of calls proved; replacing cost, dynamics, linearisation, constraints or settings has no effect (C89_replace_refuted, C89_configure_refuted), the shots keep the horizon of the settings (C89_horizon_refuted, C89_two_horizons_refuted), unknown NLP solver, no shots, simple cost with linear controls are undefined behaviour, new dynamics keep the old linearisation"
  },
  {
   "property": "C90",
   "status": "partial",
   "theorems": [
    "C90_ctransform_revolute",
    "C90_ctransform_prismatic",
    "C90_compute_Ia",
    "C90_inertia_history",
    "C90_energy",
    "C90_psd",
    "C90_buildRotationMatrix",
    "C90_tensor_and_transform",
    "C90_cross_matrices",
    "C90_bias",
    "C90_bias_z_partial",
    "C90_bias_z_refuted",
    "C90_transformInertia"
   ],
   "note": "Everything over the reals, for all inputs. Partial because the overload of vxIv for a rotation about z reads the wrong entry of the inertia (C90_bias_z_refuted); its other five components are proved right in C90_bias_z_partial."
  },
  {
   "property": "C91",
   "status": "proved",
   "theorems": [
    "C91_inverse_dynamics",
    "C91_forward_dynamics",
    "C91_each_undoes_the_other",
    "C91_gravity_and_velocity_terms"
   ],
   "note": "Over the reals, generic in the number of links; the model is the block of statements the generator repeats per link. The wrong component found in C90 is not read by these functions."
  },
  {
   "property": "C92",
   "status": "proved",
   "theorems": [
    "C92_hypotheses_of_C91",
    "C92_inverted_pendulum",
    "C92_double_pendulum",
    "C92_energy"
   ],
   "note": "Over the reals, decimal literals taken exactly. The Lagrangian is that of the two planar links; the derivatives are Coquelicot's."
  },
  {
   "property": "C93",
   "status": "partial",
   "theorems": [
    "C93_inertia_matrix",
    "C93_factor_and_inverse",
    "C93_forward_dynamics",
    "C93_double_pendulum"
   ],
   "note": "Over real scalars, for serial arms; the branched floating base robot HyQ and its sparse factor are not modelled. The concrete transforms are instantiated for the double pendulum here and for HyA in C94; for the Irb4600 the link transforms are hypotheses (a rotation and a displacement)."
  },
  {
   "property": "C94",
   "status": "partial",
   "theorems": [
    "C94_mounting",
    "C94_physical",
    "C94_dynamics",
    "C94_quadrotor_load_refuted"
   ],
   "note": "Proved for HyA over real scalars. The last sentence is false of the quadrotor with load (C94_quadrotor_load_refuted). The Irb4600 and HyQ models are not instantiated. Homogeneous transforms and Jacobians of HyA are separate."
  },
  {
   "property": "C95",
   "status": "partial",
   "theorems": [
    "C95_link_pose",
    "C95_force_transform",
    "C95_end_effector",
    "C95_jacobian",
    "C95_base_link_refuted",
    "C95_direction_refuted"
   ],
   "note": "Proved for HyA over real scalars, except the last two sentences: link 0 does not get the identity (C95_base_link_refuted) and the end effector transform goes from end effector to base (C95_direction_refuted). Jacobians of other frames and transforms that no numbered function returns are not modelled."
  },
  {
   "property": "C96",
   "status": "partial",
   "theorems": [
    "C96_closest",
    "C96_hya",
    "C96_reaches",
    "C96_close_to",
    "C96_close_in_base",
    "C96_irb",
    "C96_optimised",
    "C96_origin_refuted",
    "C96_limits_refuted"
   ],
   "note": "Exact reals; the ikfast solvers, IPOPT, kindr's comparison of quaternions and the random generator are parameters. Refuted: the optimising solver checks neither the joint limits nor the success of the optimisation, and its position tolerance is relative, so that a target at the base's origin is only accepted if met exactly."
  },
  {
   "property": "C97",
   "status": "partial",
   "theorems": [
    "C97_jit",
    "C97_copy_sparsity_refuted",
    "C97_empty_update_refuted",
    "C97_copy_llvm_refuted",
    "C97_values",
    "C97_jacobians",
    "C97_time_refuted",
    "C97_constructor_refuted",
    "C97_no_constraints_refuted"
   ],
   "note": "Proved for all histories: C97_values (values in order of addition, aligned bounds, exception until initialised, through clones), C97_jacobians (dense and sparse derivatives), C97_jit (compiled derivatives follow the function last given). Missing: time is fixed at zero, the constructor taking a state yields undefined behaviour, a stage without constraints throws, and copies of compiled derivatives lose their sparsity pattern; each is refuted by a theorem."
  },
  {
   "property": "C98",
   "status": "partial",
   "theorems": [
    "C98_quantised",
    "C98_identifier_refuted",
    "C98_vector_refuted",
    "C98_reset_refuted"
   ],
   "note": "Proved for the first identifier: C98_quantised. Missing: other identifiers, vectors of more than one entry and use after a reset read beyond the end of a vector (C98_identifier_refuted, C98_vector_refuted, C98_reset_refuted)."
  },
  {
   "property": "C99",
   "status": "partial",
   "theorems": [
    "C99_completes",
    "C99_stops",
    "C99_max_steps",
    "C99_kill_before_refuted",
    "C99_recorder_array_refuted",
    "C99_tolerances_refuted"
   ],
   "note": "Proved: C99_completes, C99_stops, C99_max_steps. Missing: a kill requested before an integration is discarded, arrays handed to a recorder are never written and error tolerances never reach the adaptive steppers; each is refuted by a theorem. Adaptive integration itself (boost odeint) is not modelled."
  },
  {
   "property": "C100",
   "status": "partial",
   "theorems": [
    "C100_pose",
    "C100_angle",
    "C100_reference",
    "C100_pose_history",
    "C100_position",
    "C100_position_clone_refuted",
    "C100_generated",
    "C100_gradient"
   ],
   "note": "refuted: clones of the position term lose name and time activation; value, angle law, references, generated terms and gradients proved"
  },
  {
   "property": "C101",
   "status": "partial",
   "theorems": [
    "C101_dynamics",
    "C101_energy",
    "C101_velocities",
    "C101_shared_refuted",
    "C101_torques",
    "C101_joints_refuted"
   ],
   "note": "Proved: C101_dynamics, C101_energy, C101_velocities, C101_torques. Missing: after another model that shares the Jacobian was updated, reported velocities mix two states (C101_shared_refuted), and the selection matrix exists for twelve joints only (C101_joints_refuted). Positions and the specialisation without outputs are not modelled."
  },
  {
   "property": "C102",
   "status": "partial",
   "theorems": [
    "C102_start",
    "C102_controls",
    "C102_short_log",
    "C102_fifth_order_refuted",
    "C102_duration_refuted"
   ],
   "note": "Proved: for complete logs the Euler and Runge-Kutta sensitivities with respect to the initial state and both control parameters are the derivatives of every simulated state (chain rule along all curves, any number of steps, incomplete last cycles dropped); a log of times that is too short is read past its end. Refuted: the fifth order integration type ends the process with status 0 in two of the computations and throws in the third; the duration sensitivities are always empty."
  },
  {
   "property": "C103",
   "status": "partial",
   "theorems": [
    "C103_replace_all",
    "C103_replaced",
    "C103_endless_refuted",
    "C103_replace_once",
    "C103_files",
    "C103_no_placeholder",
    "C103_captured_refuted",
    "C103_pattern",
    "C103_dense",
    "C103_linearizer",
    "C103_sparse_refuted",
    "C103_hessian"
   ],
   "note": "Proved: replacement ends with the left-to-right substitution when the name is apart from the placeholder (a semantic condition with a computable criterion, met by usual names and all numbers), and whenever it ends no placeholder is left; the written files; the exception for missing placeholders; positions and order of the entries for dense patterns and the linearizers; symmetric Hessians. Refuted: a name that contains its placeholder is replaced without end; a name that contains another placeholder is changed; a pattern with a left out entry hands fewer indices to the differentiation than entries asked for. CppAD itself is not modelled."
  },
  {
   "property": "C104",
   "status": "partial",
   "theorems": [
    "C104_pool",
    "C104_handed",
    "C104_unready",
    "C104_derivatives",
    "C104_unasked",
    "C104_stored",
    "C104_success_refuted",
    "C104_leak_refuted",
    "C104_default_refuted",
    "C104_warm_refuted"
   ],
   "note": "Pool, memory handed over, derivative layout and storing of results are proved. Refuted: solve returns true for every status (also infeasible), every reconfiguration leaks fifteen arrays, a default constructed solver cannot be destroyed without undefined behaviour, and a warm start begins at the old initial guess while the states prepareWarmStart writes are overwritten."
  },
  {
   "property": "C105",
   "status": "partial",
   "theorems": [
    "C105_steady",
    "C105_equilibrium",
    "C105_interpolation",
    "C105_ends",
    "C105_short",
    "C105_last_actuator_refuted",
    "C105_cut_refuted"
   ],
   "note": "Proved for the steady pose, its equilibrium, the interpolated states and controls, the ends and rejected lengths. Refuted: with actuator dynamics the last actuator state is computed from the torque of the state before it, and a guess with more points than stages is cut off before the last pose."
  },
  {
   "property": "C106",
   "status": "partial",
   "theorems": [
    "C106_joint_vel",
    "C106_pseudo",
    "C106_manipulability",
    "C106_condition",
    "C106_tall_refuted"
   ],
   "note": "Proved for exact arithmetic and any thin singular value decomposition. Refuted for Jacobians with more rows than columns: their singular values do not fit the vector they are assigned to, so singular values, condition number and manipulability from singular values are undefined there."
  },
  {
   "property": "C107",
   "status": "partial",
   "theorems": [
    "C107_loaded",
    "C107_again_refuted",
    "C107_rejected",
    "C107_weights",
    "C107_ends",
    "C107_name_refuted",
    "C107_gap_refuted",
    "C107_scaling_refuted"
   ],
   "note": "Proved for the analytical cost function, for rejected files, termination and weights. Refuted: the automatically differentiated cost function keeps its earlier terms when loading again, names in the file are ignored, terms after a missing number are left out, and loadMatrixCF without a term ignores the common factor."
  }
 ]
}