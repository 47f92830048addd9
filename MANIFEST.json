{
 "claims": [
  {
   "property": "C01",
   "status": "proved",
   "theorems": [
    "C01_manual_reaches_targets",
    "C01_manual_grid",
    "C01_unknown_constant",
    "C01_names_distinct"
   ],
   "note": "Targets and case count for every arithmetic; the even grid over the reals."
  },
  {
   "property": "C02",
   "status": "partial",
   "theorems": [
    "C02_default_case_count_refuted",
    "C02_at_least_two"
   ],
   "note": "REFUTED: with one case (the default of manual and product steps) the step returns normally at its start. Proved from two cases on."
  },
  {
   "property": "C03",
   "status": "proved",
   "theorems": [
    "C03_manual_stops",
    "C03_manual_terminates"
   ],
   "note": ""
  },
  {
   "property": "C04",
   "status": "partial",
   "theorems": [
    "C04_warm_start",
    "C04_warm_start_numpy_flag_refuted"
   ],
   "note": "Proved over the reals when the solver reports failure with the object False and distances stay below 9e99. REFUTED for a falsy non-False flag (numpy.False_ from SLSQP)."
  },
  {
   "property": "C05",
   "status": "proved",
   "theorems": [
    "C05_bisection_targets",
    "C05_bisection_schedule",
    "C05_bisection_monotone"
   ],
   "note": "Targets for every arithmetic; schedule and monotone order over the reals."
  },
  {
   "property": "C06",
   "status": "proved",
   "theorems": [
    "C06_bounded_failures",
    "C06_first_failure"
   ],
   "note": ""
  },
  {
   "property": "C07",
   "status": "partial",
   "theorems": [
    "C07_bisection_finishes_refuted",
    "C07_bisection_ends"
   ],
   "note": "REFUTED: a solver converging on every other call keeps the step running forever. Proved when finitely many calls fail."
  },
  {
   "property": "C08",
   "status": "partial",
   "theorems": [
    "C08_manual_rerun",
    "C08_bisection_rerun_refuted",
    "C08_product_rerun_refuted"
   ],
   "note": "Proved for manual steps. REFUTED for bisection and product steps."
  },
  {
   "property": "C09",
   "status": "proved",
   "theorems": [
    "C09_product_grid",
    "C09_every_point_once",
    "C09_product_ends",
    "C09_product_terminates"
   ],
   "note": ""
  },
  {
   "property": "C10",
   "status": "proved",
   "theorems": [
    "C10_sparse"
   ],
   "note": ""
  },
  {
   "property": "C11",
   "status": "proved",
   "theorems": [
    "C11_chained"
   ],
   "note": ""
  },
  {
   "property": "C12",
   "status": "partial",
   "theorems": [
    "C12_product_all_converged_refuted",
    "C12_product_only_first"
   ],
   "note": "REFUTED: a product step returns normally although its last case failed. Proved: it raises only when its first case fails."
  },
  {
   "property": "C13",
   "status": "proved",
   "theorems": [
    "C13_add_step_known",
    "C13_add_step_unknown",
    "C13_add_step_sequence"
   ],
   "note": ""
  },
  {
   "property": "C61",
   "status": "proved",
   "theorems": [
    "C61_all_converge"
   ],
   "note": ""
  },
  {
   "property": "C14",
   "status": "proved",
   "theorems": [
    "C14_momentum_shift_round_trip",
    "C14_default_index",
    "C14_inverse_reads_time_column",
    "C14_no_costates_raises"
   ],
   "note": "An empty time costate comes back as zeros. Finding: a trajectory without costates makes the map raise."
  },
  {
   "property": "C15",
   "status": "partial",
   "theorems": [
    "C15_eps_trig_round_trip_refuted",
    "C15_round_trip_halves",
    "C15_recovered_within_bounds"
   ],
   "note": "REFUTED: the forward map divides by the full range instead of half of it, so the round trip halves the distance of the control to the middle of its bounds (proved for every trajectory). Recovered controls lie within the bounds: proved."
  },
  {
   "property": "C16",
   "status": "partial",
   "theorems": [
    "C16_normalize_time",
    "C16_round_trip_from_zero",
    "C16_round_trip_refuted"
   ],
   "note": "REFUTED for trajectories that do not start at time zero: the inverse returns t - t0. Everything else proved, and the round trip for t0 = 0."
  },
  {
   "property": "C17",
   "status": "proved",
   "theorems": [
    "C17_differential_control_round_trip"
   ],
   "note": ""
  },
  {
   "property": "C18",
   "status": "partial",
   "theorems": [
    "C18_geometric_round_trip_refuted",
    "C18_one_control_loses_last_costate",
    "C18_two_controls_rejected"
   ],
   "note": "REFUTED: with one control the last costate is replaced by zero, with two or more controls the map raises (both proved for every trajectory)."
  },
  {
   "property": "C19",
   "status": "partial",
   "theorems": [
    "C19_squash_round_trip",
    "C19_adjoints_never_removed",
    "C19_adjoints_removed_refuted"
   ],
   "note": "States and costates: proved. REFUTED: the adjoint parameters are never removed by this mapper."
  },
  {
   "property": "C20",
   "status": "proved",
   "theorems": [
    "C20_differential_chain",
    "C20_algebraic_chain",
    "C20_times_without_shift"
   ],
   "note": "With the momentum shift (the default) exact in any arithmetic; without it the times are shifted by t0. EpsTrig mappers are excluded (C15)."
  },
  {
   "property": "C21",
   "status": "partial",
   "theorems": [
    "C21_argument_unchanged_refuted",
    "C21_normalised_chain_preserves_argument",
    "C21_in_place_chain"
   ],
   "note": "REFUTED for indirect methods; proved for chains ending with time normalisation."
  },
  {
   "property": "C22",
   "status": "partial",
   "theorems": [
    "C22_control_minimises_hamiltonian",
    "C22_no_candidate_raises",
    "C22_nan_candidate_refuted"
   ],
   "note": "Proved for real values; REFUTED when the first candidate has a NaN Hamiltonian."
  },
  {
   "property": "C23",
   "status": "partial",
   "theorems": [
    "C23_scaling_round_trip",
    "C23_every_component_scaled",
    "C23_automatic_factor_refuted"
   ],
   "note": "Proved for non-zero factors; REFUTED for automatically computed factors (a zero reference value)."
  },
  {
   "property": "C62",
   "status": "proved",
   "theorems": [
    "C62_reduction_round_trip",
    "C62_varying_constant_refuted"
   ],
   "note": "Proved under the stated condition, which the second theorem shows to be needed."
  },
  {
   "property": "C24",
   "status": "proved",
   "theorems": [
    "C24_product",
    "C24_bind_applies_left_first",
    "C24_lshift",
    "C24_power_applies_n_times",
    "C24_negative_power_raises",
    "C24_associative",
    "C24_identity_unit"
   ],
   "note": ""
  },
  {
   "property": "C41",
   "status": "proved",
   "theorems": [
    "C41_flag_exact",
    "C41_passes_bounded",
    "C41_acyclic_succeeds",
    "C41_value_unchanged"
   ],
   "note": "sympy subs with a dict is modelled as sequential substitution in the order sympy sorts the pairs; the theorems hold for every order."
  },
  {
   "property": "C63",
   "status": "proved",
   "theorems": [
    "C63_last_declaration_wins",
    "C63_num_cases_locked_while_running",
    "C63_num_cases_after_reset"
   ],
   "note": ""
  },
  {
   "property": "C25",
   "status": "partial",
   "theorems": [
    "C25_one_sided_path_refuted",
    "C25_one_sided_terminal_refuted",
    "C25_one_sided_path_ignored",
    "C25_utm_adds_penalties",
    "C25_eps_trig_bounds_control",
    "C25_misplaced_epstrig_rejected",
    "C25_unknown_method_rejected"
   ],
   "note": "REFUTED for constraints with one bound: on the path they are dropped without any effect (proved for every problem), at the boundaries they become equalities with zero. Proved for two-sided constraints."
  },
  {
   "property": "C26",
   "status": "proved",
   "theorems": [
    "C26_constraint_stage"
   ],
   "note": "The remaining constraints carry the substitutions made by EpsTrig."
  },
  {
   "property": "C30",
   "status": "partial",
   "theorems": [
    "C30_quantities_eliminated",
    "C30_activator_refuted"
   ],
   "note": "Proved for every expression of the problem except the activators of constraints; REFUTED for those: they keep the quantity name and EpsTrig puts it back in the cost."
  },
  {
   "property": "C27",
   "status": "proved",
   "theorems": [
    "C27_zero_exactly_in_the_middle",
    "C27_increases_with_distance",
    "C27_unbounded_at_the_limits"
   ],
   "note": ""
  },
  {
   "property": "C28",
   "status": "proved",
   "theorems": [
    "C28_exactly_the_admissible_controls"
   ],
   "note": ""
  },
  {
   "property": "C29",
   "status": "partial",
   "theorems": [
    "C29_two_conditions_refuted",
    "C29_single_condition",
    "C29_weight_limit",
    "C29_switch_limit",
    "C29_switches_eliminated"
   ],
   "note": "REFUTED for alternatives with several conditions: the weight is a sum of sigmoids, so it tends to the number of conditions that hold instead of 0 or 1. Proved for one condition per alternative, with the exact limit in general."
  },
  {
   "property": "C31",
   "status": "partial",
   "theorems": [
    "C31_hamiltonian_is_cost_plus_costates_times_dynamics",
    "C31_energy_balance",
    "C31_hamiltonian_constant",
    "C31_geometric_with_parameters_refuted"
   ],
   "note": "Proved for the traditional method and for the geometric method on problems without parameters; REFUTED for the geometric method with parameters (C33). Trajectories are differentiable curves; the linear solver of the geometric method is any function meeting lu_ok."
  },
  {
   "property": "C33",
   "status": "partial",
   "theorems": [
    "C33_same_without_parameters",
    "C33_with_parameters_shifted",
    "C33_with_parameters_refuted",
    "C33_unknown_method_zero_rates"
   ],
   "note": "Proved without parameters. REFUTED with parameters: the slice takes the last n entries, so each costate gets the derivative of another variable and the multipliers of the parameters get none."
  },
  {
   "property": "C65",
   "status": "proved",
   "theorems": [
    "C65_first_variation_vanishes"
   ],
   "note": "Traditional method, or geometric method without parameters (the other case is refuted under C33). The integrand of the variation is assumed continuous."
  },
  {
   "property": "C32",
   "status": "partial",
   "theorems": [
    "C32_count",
    "C32_square",
    "C32_without_normalisation_refuted",
    "C32_quadratures_refuted"
   ],
   "note": "Exact count proved for every option and size. Square with time normalisation and without user quadratures or constraint parameters; REFUTED without time normalisation (one condition too many) and with quadratures (no condition for their initial values). Reduction by symmetries is not in the pipeline model."
  },
  {
   "property": "C34",
   "status": "partial",
   "theorems": [
    "C34_residual_rate",
    "C34_stationary_everywhere",
    "C34_geometric_residual_rate",
    "C34_explicit_time_refuted",
    "C34_geometric_without_shift_refuted"
   ],
   "note": "Proved for the traditional law when time does not appear explicitly, and for the geometric law after MomentumShift and without parameters. REFUTED when time appears explicitly without MomentumShift, and for the geometric law without MomentumShift."
  },
  {
   "property": "C35",
   "status": "partial",
   "theorems": [
    "C35_solutions_correspond",
    "C35_quadratures_not_scaled",
    "C35_parameter_multipliers_refuted"
   ],
   "note": "Proved for states, costates and path cost. REFUTED for quadratures and the multipliers of parameters, whose equations are not multiplied by the duration."
  },
  {
   "property": "C36",
   "status": "partial",
   "theorems": [
    "C36_accepts_exactly_antisymmetric",
    "C36_standard_form_accepted",
    "C36_degenerate_accepted_refuted"
   ],
   "note": "Exact characterisation of what is accepted; REFUTED for degenerate antisymmetric arrays, which are accepted."
  },
  {
   "property": "C37",
   "status": "proved",
   "theorems": [
    "C37_gradient",
    "C37_one_form",
    "C37_twice_zero",
    "C37_rejections"
   ],
   "note": ""
  },
  {
   "property": "C38",
   "status": "partial",
   "theorems": [
    "C38_names_unique",
    "C38_rejection_leaves_problem",
    "C38_fresh_name_accepted",
    "C38_constraint_parameter_refuted",
    "C38_scale_refuted",
    "C38_failed_constant_refuted",
    "C38_replaced_independent_refuted"
   ],
   "note": "Uniqueness proved for every call sequence without constraint_parameter; rejected single declarations change nothing. REFUTED for constraint_parameter (unchecked), scale (partial effect) and constants whose value is no number (name stays taken)."
  },
  {
   "property": "C39",
   "status": "partial",
   "theorems": [
    "C39_plain_names_unaffected",
    "C39_shared_table_refuted"
   ],
   "note": "REFUTED: the name table is shared, generated names are refused afterwards. Proved for names that do not start with an underscore and are not \"hamiltonian\", for every list of transformations."
  },
  {
   "property": "C40",
   "status": "partial",
   "theorems": [
    "C40_copies_always_reported",
    "C40_consistent_accepted",
    "C40_reported_once",
    "C40_second_check_refuted"
   ],
   "note": "Proved for checks on copies (as solve does) and for consistent problems. REFUTED for repeated checks of one object: only the first reports."
  },
  {
   "property": "C42",
   "status": "partial",
   "theorems": [
    "C42_unpack_pack",
    "C42_pack_unpack",
    "C42_short_vector",
    "C42_ignored_quadratures_refuted"
   ],
   "note": "Proved for every size when the quadrature count used for unpacking is the one packed. REFUTED when the guess has quadratures without a quadrature function: the vector contains them, unpacking assumes none."
  },
  {
   "property": "C43",
   "status": "proved",
   "theorems": [
    "C43_zero_exactly_at_solutions"
   ],
   "note": ""
  },
  {
   "property": "C44",
   "status": "proved",
   "theorems": [
    "C44_stops",
    "C44_converged_means_small",
    "C44_step_defined"
   ],
   "note": "No assumption on residual, Jacobian, linear algebra or comparisons; the iterates are exactly damped Newton steps."
  },
  {
   "property": "C45",
   "status": "partial",
   "theorems": [
    "C45_minimize_bound",
    "C45_minimize_refuted",
    "C45_constrained_flag",
    "C45_constrained",
    "C45_fsolve_flag",
    "C45_fsolve_solution_rejected_refuted",
    "C45_fsolve_refuted",
    "C45_root_raises",
    "C45_root_refuted",
    "C45_armijo",
    "C45_choose"
   ],
   "note": "Proved for the default Armijo method and for constrained minimisation under the solver contract. REFUTED for unconstrained minimize (squared norm), fsolve (error taken at the guess) and root."
  },
  {
   "property": "C46",
   "status": "partial",
   "theorems": [
    "C46_message",
    "C46_boundary_refuted"
   ],
   "note": "Agreement proved whenever the flag comes with an error below the tolerance. REFUTED at an error equal to the tolerance."
  },
  {
   "property": "C47",
   "status": "partial",
   "theorems": [
    "C47_arcs_tile",
    "C47_stitched",
    "C47_early_stop_refuted"
   ],
   "note": "Tiling and stitching proved for arcs whose integration reached their end. REFUTED when an integration stops early, which the propagator does not check."
  },
  {
   "property": "C48",
   "status": "proved",
   "theorems": [
    "C48_quadratures_continuous"
   ],
   "note": ""
  },
  {
   "property": "C49",
   "status": "partial",
   "theorems": [
    "C49_never_both",
    "C49_pool_refuted"
   ],
   "note": "REFUTED: serial and pool code call the derivative function with different numbers of arguments; for every function at most one of them succeeds."
  },
  {
   "property": "C50",
   "status": "partial",
   "theorems": [
    "C50_shooting_uses_last_set",
    "C50_spbvp_other_functions",
    "C50_spbvp_refuted"
   ],
   "note": "Proved for Shooting, and for derivative and boundary functions of SPBVP. REFUTED for the quadrature function of SPBVP."
  },
  {
   "property": "C66",
   "status": "proved",
   "theorems": [
    "C66_same_trajectories",
    "C66_hamiltonian_autonomous",
    "C66_hamiltonian_constant",
    "C66_controls_stationary"
   ],
   "note": "Hamiltonian constant for the traditional method and for the geometric one without parameters (see C31, C33); stationarity for the traditional method."
  },
  {
   "property": "C67",
   "status": "proved",
   "theorems": [
    "C67_control_stationary",
    "C67_least_stationary",
    "C67_no_solution",
    "C67_linear_solver_sound"
   ],
   "note": "sympy.solve enters through the contract solve_sound; a verified solver for affine systems meets it."
  },
  {
   "property": "C51",
   "status": "partial",
   "theorems": [
    "C51_grid",
    "C51_ends",
    "C51_reverse_fails",
    "C51_reverse_refuted",
    "C51_rounding_refuted"
   ],
   "note": "Proved for forward propagation in exact arithmetic. REFUTED for reverse propagation (IndexError on every such interval) and for doubles (overshoot on [1,1.3] with step 0.1, rejected by the integrator)."
  },
  {
   "property": "C52",
   "status": "partial",
   "theorems": [
    "C52_nodes",
    "C52_outside",
    "C52_rounding_refuted",
    "C52_reverse_loses",
    "C52_reverse_refuted"
   ],
   "note": "Proved for increasing trajectories in exact arithmetic with distinct limits. REFUTED for doubles (nodes not increasing) and for every trajectory propagated backwards (one node, no error)."
  },
  {
   "property": "C64",
   "status": "proved",
   "theorems": [
    "C64_stored",
    "C64_segment",
    "C64_outside"
   ],
   "note": "Linear interpolation. Stored values for any rounding; segments in exact arithmetic."
  },
  {
   "property": "C68",
   "status": "partial",
   "theorems": [
    "C68_rows",
    "C68_arity",
    "C68_quick_refuted",
    "C68_quick_interior_refuted"
   ],
   "note": "Proved for reconstruct. REFUTED for quick_reconstruct: it calls the quadrature function with one more argument, so never both work, and it stores zeros at interior points."
  },
  {
   "property": "C53",
   "status": "proved",
   "theorems": [
    "C53_weights",
    "C53_grid",
    "C53_rejected",
    "C53_one",
    "C53_several",
    "C53_num_diff",
    "C53_short_orders_refuted"
   ],
   "note": "Exact real arithmetic. Weights, the one-argument and the several-argument generated functions. C53_short_orders_refuted records a finding outside the statement: a one-entry order list for a two-argument function is broadcast to both."
  },
  {
   "property": "C69",
   "status": "partial",
   "theorems": [
    "C69_first_order",
    "C69_first_exact",
    "C69_second_exact",
    "C69_second_refuted",
    "C69_several_fails",
    "C69_several_refuted"
   ],
   "note": "Proved for the first-order formula of one argument; the second-order formula is exact up to degree two. REFUTED: the second-order formula is only accurate to first order in the step, and with two or more arguments the first-order function always raises TypeError."
  },
  {
   "property": "C54",
   "status": "partial",
   "theorems": [
    "C54_built",
    "C54_mismatch",
    "C54_knots",
    "C54_inside",
    "C54_smooth",
    "C54_third",
    "C54_ends",
    "C54_last_fails",
    "C54_before_first",
    "C54_last_abscissa_refuted",
    "C54_outside_refuted"
   ],
   "note": "Proved for every table with increasing abscissas at every point from the first abscissa up to, not including, the last: values at knots, derivatives, C2 joins, natural ends. np.linalg.solve enters by its contract, with an executable instance. REFUTED: the last tabulated abscissa cannot be evaluated (IndexError), and left of the table the evaluation silently uses the last segment."
  },
  {
   "property": "C55",
   "status": "partial",
   "theorems": [
    "C55_names",
    "C55_total",
    "C55_wrong_number",
    "C55_swapped_refuted",
    "C55_repeated_refuted",
    "C55_function_name_refuted",
    "C55_identifier",
    "C55_expression_refuted",
    "C55_tables"
   ],
   "note": "Proved for plain names (no d, digit or underscore) with each argument at one position, and for tables whose name does not start with a digit. REFUTED in general: f(x,y) and f(y,x) share df_dx, f(x,x) mixes both partial derivatives, a user function called df_dx is taken for the derivative, and expression arguments give names that are not identifiers."
  },
  {
   "property": "C56",
   "status": "partial",
   "theorems": [
    "C56_settings_used",
    "C56_created",
    "C56_no_history",
    "C56_rejected",
    "C56_static",
    "C56_static_normalised",
    "C56_constructor_ignores",
    "C56_constructor_refuted",
    "C56_param_ignored",
    "C56_solve_no_parameters",
    "C56_control_empty",
    "C56_param_refuted",
    "C56_failed_setup_refuted",
    "C56_failed_mode_kept",
    "C56_static_refuted"
   ],
   "note": "Proved for mode, direction, time, states, costates and quadratures given through guess_generator or setup, independent of the history; rejected settings characterised exactly. REFUTED: settings given to the constructor are lost, param_guess and a float control_guess have no effect, a rejected setup has already changed the generator, and in static mode of a time-dependent problem the second guess is mapped twice."
  },
  {
   "property": "C57",
   "status": "proved",
   "theorems": [
    "C57_matched",
    "C57_short_rows_refuted"
   ],
   "note": "For distinct names and one column per state. C57_short_rows_refuted shows that the column hypothesis is needed."
  },
  {
   "property": "C58",
   "status": "partial",
   "theorems": [
    "C58_jacobian",
    "C58_control_law",
    "C58_exists",
    "C58_one_sided_refuted",
    "C58_no_parameters_refuted",
    "C58_control_refuted"
   ],
   "note": "Proved for every problem with at least one condition at each end, at least one dynamical parameter, and no boundary condition on a control: every row and column of every block, including quadratures. REFUTED for every split: without initial or without terminal conditions, or without dynamical parameters, no Jacobian is produced (exceptions); with a control in a boundary condition it is wrong or cannot be evaluated."
  },
  {
   "property": "C70",
   "status": "partial",
   "theorems": [
    "C70_jacobian",
    "C70_control_law_refuted",
    "C70_spelling_refuted",
    "C70_direct_refuted"
   ],
   "note": "Proved for every problem without a control law (differential control). REFUTED with a control law: the derivative of the law is left out; reached by writing Algebraic with a capital letter. In the direct method the Jacobian is compiled without the control argument."
  },
  {
   "property": "C71",
   "status": "partial",
   "theorems": [
    "C71_fun_jacobian",
    "C71_bc_jacobian",
    "C71_quadrature_refuted",
    "C71_quadrature_always"
   ],
   "note": "Proved for every problem without quadratures. REFUTED with quadratures: both Jacobian functions raise ValueError on every call."
  },
  {
   "property": "C59",
   "status": "partial",
   "theorems": [
    "C59_round_trip",
    "C59_not_opened",
    "C59_crash_points",
    "C59_crash_refuted",
    "C59_unserialisable_refuted"
   ],
   "note": "Round trip proved for every combination of arguments and every serialiser meeting the stated contract (an executable one is shown). REFUTED for crashes: the file is truncated before it is written, so at every crash point between opening and the last byte neither the old nor the new contents can be read; a value that cannot be serialised has the same effect."
  },
  {
   "property": "C60",
   "status": "partial",
   "theorems": [
    "C60_normal",
    "C60_sequential",
    "C60_bad_cpus",
    "C60_every_failure_leaks",
    "C60_exception_refuted",
    "C60_inputs_refuted"
   ],
   "note": "Proved: a run that returns creates and closes the pool exactly once and does not use it afterwards; with one process there is no pool; too few processes are rejected first. REFUTED: every failure other than closing the pool or saving leaves the pool open, and a missing problem, missing maps or an unknown method is rejected only after the pool exists."
  },
  {
   "property": "C72",
   "status": "partial",
   "theorems": [
    "C72_indirect",
    "C72_diffyg",
    "C72_direct",
    "C72_rejected",
    "C72_same_problem",
    "C72_direct_case_refuted"
   ],
   "note": "Proved for all spellings of the indirect method names, including that the transformed problem is the same. REFUTED: direct is compared exactly, so Direct is rejected."
  },
  {
   "property": "C73",
   "status": "partial",
   "theorems": [
    "C73_returns",
    "C73_saved",
    "C73_without_saving",
    "C73_save_failure_refuted"
   ],
   "note": "Proved when nothing is saved. REFUTED when saving raises: the exception leaves solve and the result is lost."
  },
  {
   "property": "C74",
   "status": "partial",
   "theorems": [
    "C74_functions",
    "C74_solutions",
    "C74_trajectory",
    "C74_user_function_refuted"
   ],
   "note": "Proved for every problem that is dimensionally consistent (arguments of user functions are pure numbers), including the choice among several control laws, and for the trajectory that scale_sol returns. REFUTED for user functions and tables of a dimensional argument: they are evaluated at the scaled argument without rescaling."
  },
  {
   "property": "C75",
   "status": "partial",
   "theorems": [
    "C75_indirect",
    "C75_direct",
    "C75_elimination",
    "C75_parameter_normalized_refuted",
    "C75_parameter_geometric_refuted"
   ],
   "note": "Proved for all transformation sequences of both methods when activators have the units of the cost, without parameters or quadratures under NormalizeTime and without parameters in the geometric method. REFUTED with parameters: NormalizeTime does not multiply the adjoint rate of a parameter by the duration; the geometric method gives the costates rates of parameters. Not covered: geometric differential control without momentum shift, MishchenkoFomenko reduction."
  },
  {
   "property": "C76",
   "status": "partial",
   "theorems": [
    "C76_indirect",
    "C76_declared",
    "C76_zero_reference_refuted"
   ],
   "note": "Proved under the hypotheses of C75 and positive reference values. REFUTED for zero reference values: the factor is zero."
  },
  {
   "property": "C77",
   "status": "partial",
   "theorems": [
    "C77_conserved",
    "C77_time_refuted",
    "C77_parameters_rejected"
   ],
   "note": "Proved for every problem without parameters, every field that does not mention costates. REFUTED in general: the translation in time that MomentumShift adds looks only at the equations of motion, not at the path cost, so with a time-dependent path cost a quantity is recorded that is not conserved. With parameters, Dualize raises ValueError."
  },
  {
   "property": "C78",
   "status": "partial",
   "theorems": [
    "C78_reduction",
    "C78_combination_refuted"
   ],
   "note": "Proved for any number of declared translations of single states (fields 1 in one component, 0 elsewhere), both directions, with and without NormalizeTime. REFUTED for a translation along two states at once: the equation of the new quadrature keeps the removed state, so the reduced problem is not closed. Contracts of LUsolve, integrate and solve are hypotheses, met by executable instances."
  },
  {
   "property": "C79",
   "status": "partial",
   "theorems": [
    "C79_used",
    "C79_recorded",
    "C79_symmetries_only",
    "C79_declared_refuted",
    "C79_algebraic_rejected"
   ],
   "note": "Proved without declared constants of motion. REFUTED with a declared constant of motion: the first recorded one is never used; the Hamiltonian is used in its place. With algebraic control a reduction step raises, whatever the problem."
  },
  {
   "property": "C80",
   "status": "proved",
   "theorems": [
    "C80_trajectories"
   ],
   "note": "Same hypotheses as C78_reduction: declared translations of single states, geometric method, differential control, momentum shift; contracts of LUsolve, integrate and solve are hypotheses met by executable instances."
  },
  {
   "property": "C81",
   "status": "proved",
   "theorems": [
    "C81_collocation",
    "C81_missing_quadratures_refuted"
   ],
   "note": "solve_bvp is any function of what it is handed. For guesses with the shapes of the problem; C81_missing_quadratures_refuted shows this hypothesis is needed: for a problem with quadratures and a guess without them every call of the boundary function raises TypeError."
  },
  {
   "property": "C82",
   "status": "partial",
   "theorems": [
    "C82_nodes",
    "C82_control_refuted"
   ],
   "note": "Proved for states, quadratures and costates. REFUTED for controls: the control of the guess is kept, so on a refined mesh it has the wrong number of rows (the mapper recomputes it later only when there is a control law)."
  },
  {
   "property": "C83",
   "status": "proved",
   "theorems": [
    "C83_scaled_collocation",
    "C83_unscaled_collocation"
   ],
   "note": "Exact real arithmetic; the collocation answer is assumed to consist of samples of an exact solution of what it was handed (good_result 0). Approximate answers: C81. Problems must be dimensionally consistent when scaling is on (C74, C75)."
  },
  {
   "property": "C84",
   "status": "partial",
   "theorems": [
    "C84_functions",
    "C84_no_parameters_refuted"
   ],
   "note": "Proved with unknown parameters. REFUTED without: the boundary Jacobian function returns three arrays where solve_bvp unpacks two."
  },
  {
   "property": "C85",
   "status": "proved",
   "theorems": [
    "C85_algebraic",
    "C85_differential",
    "C85_geometric"
   ],
   "note": "Composition of the adjoint theorems (C65), control theorems (C34, C67), time normalisation, squashing, and the compiled functions. Exact real arithmetic and exact solutions; no unknown parameters or quadratures; the expressions must be defined along the curve. The problem handed to Dualize is the problem of the user after regularisation of bounds and switches (C86 for plain problems)."
  },
  {
   "property": "C86",
   "status": "proved",
   "theorems": [
    "C86_time_as_state",
    "C86_user_problem"
   ],
   "note": "Names are assumed distinct and the new name of the independent variable unused."
  },
  {
   "property": "C87",
   "status": "proved",
   "theorems": [
    "C87_curve",
    "C87_algebraic",
    "C87_differential",
    "C87_geometric"
   ],
   "note": "Composition of C85 and C86 with the inverse mappers built by the same steps. Exact real arithmetic and exact solutions; the expressions must be defined along the curve; costs without the independent variable unless it is made a state (see C88); names distinct. C87_curve: every solution stands for such a curve."
  },
  {
   "property": "C88",
   "status": "partial",
   "theorems": [
    "C88_reported",
    "C88_exact",
    "C88_time_cost_refuted",
    "C88_penalty_refuted"
   ],
   "note": "Proved: the reported cost is initial + terminal cost at the end points plus the quadrature of the path cost over the samples, and for path costs quadratic in time it is the exact cost (Simpson rule of scipy 1.11 and later). REFUTED for costs that mention the independent variable when the momentum shift is switched off: the boundary value problem is solved, then the inverse mapping raises. REFUTED with path constraints: the reported cost contains the regularisation penalty."
  },
  {
   "property": "C89",
   "status": "partial",
   "theorems": [
    "C89_returned",
    "C89_maps_back",
    "C89_targets",
    "C89_residuals",
    "C89_duration_positive_refuted"
   ],
   "note": "Proved for converged cases of positive duration along which the formulas are defined (tidy: no division by zero on the curves the samples can stand for), for every solver that is exact when it reports success (the solver is a function of its arguments that may differ from call to call). REFUTED without the hypothesis on the duration: nothing in the generated problem keeps it positive, and a converged trajectory may run backwards in time (witness: a run of the whole model whose returned times go from 0 to -1)."
  },
  {
   "property": "C90",
   "status": "partial",
   "theorems": [
    "C90_mapped",
    "C90_returned",
    "C90_stays_inside",
    "C90_outside_refuted"
   ],
   "note": "Proved: equations, boundary conditions, EpsTrig bounds, stationarity and report of the regularised cost, and that a UTM path constraint on states met once is met always. EpsTrig constraints must restrict one control each, bounds and activators may mention states, constants and time; formulas are assumed defined along the solution (tidy). REFUTED without the hypothesis that a UTM constraint is met somewhere: the barrier is periodic, and with boundary values outside the bounds an exact solution stays outside."
  },
  {
   "property": "C91",
   "status": "partial",
   "theorems": [
    "C91_mapped",
    "C91_settings",
    "C91_first",
    "C91_first_total",
    "C91_solve",
    "C91_solve_bounded",
    "C91_scalar_control_refuted",
    "C91_bounded_control_refuted",
    "C91_stopped_refuted"
   ],
   "note": "Proved for settings whose control guess is an array where the control becomes a state or is bounded by EpsTrig, and integrators that reach the end. REFUTED for the default control guess 0.1: it is spread over dae_num_states = 0 entries, so with differential control the guess has too few columns and with a bounded control an IndexError is raised. REFUTED for an integration that stops early: its status is not examined and the guess ends before 1."
  },
  {
   "property": "C92",
   "status": "proved",
   "theorems": [
    "C92_exact",
    "C92_algebraic",
    "C92_differential",
    "C92_collocation",
    "C92_scaled_collocation"
   ],
   "note": "C92_exact shows that the notions without errors are those of C85 to C87. Errors in the rates are covered for algebraic control without time as a state (with time as a state the clock itself drifts, so delta = 0 is required there); errors in the boundary conditions are covered in all cases. That solve_bvp meets its promise (good_result) is a hypothesis about scipy."
  },
  {
   "property": "C93",
   "status": "partial",
   "theorems": [
    "C93_first_variation",
    "C93_stationary",
    "C93_refuted"
   ],
   "note": "REFUTED by C93_refuted (a parameter in the terminal cost: s = 4/3 for 3/5 units of time solves the boundary value problem, yet the cost changes at the rate 4/15). C93_first_variation gives the first variation exactly; C93_stationary is the strongest true variant: the duration is one or the ends do not depend on the parameters. The geometric method with parameters is refuted under C33; differential control with parameters is not covered."
  },
  {
   "property": "C94",
   "status": "proved",
   "theorems": [
    "C94_matched",
    "C94_conditions"
   ],
   "note": "C94_matched: the constants after the helper. C94_conditions: the residuals of conditions x - x_0, x - x_f at the first guess are zero. solve_ivp is a parameter assumed to reach the end of the interval and to return rows of the right width (ivp_ok, ivp_wide); problems of users with quadratures, switches or reduction are outside."
  },
  {
   "property": "C95",
   "status": "proved",
   "theorems": [
    "C95_same",
    "C95_solve"
   ],
   "note": "C95_same: the pipeline on p with switches and on the problem q without (same names; values of q at rho = values of p at rho with the switches filled in) end in the same boundary value problem and mappers. C95_solve: what solve returns for p. Assumes what C91_solve_bounded assumes (honest collocation, linear algebra, domains of definition) and names of switches apart from states, controls, constants and names starting with _. Quantities and unknown parameters are outside."
  },
  {
   "property": "C96",
   "status": "proved",
   "theorems": [
    "C96_solve"
   ],
   "note": "From the raw declaration u through Sympify and ApplyQuantities to the returned trajectories. Assumes what C95_solve assumes of the preprocessed problem, quantities defined once, acyclic and under names of their own, trigonometric bounds on controls and activators without quantities (subs_all does not reach activators). Unknown parameters are outside."
  },
  {
   "property": "C97",
   "status": "partial",
   "theorems": [
    "C97_levels",
    "C97_no_file",
    "C97_progress",
    "C97_label",
    "C97_default_refuted"
   ],
   "note": "Proved when a file level is given. REFUTED without a log file (file_level NOTSET, the state after import beluga): the level of the logger becomes NOTSET, so the level of the root logger (WARNING) decides and INFO messages are not shown although display_level is INFO; C97_no_file says exactly which are shown."
  },
  {
   "property": "C98",
   "status": "partial",
   "theorems": [
    "C98_item",
    "C98_iterate",
    "C98_iterate_all",
    "C98_empty",
    "C98_slice",
    "C98_wrap",
    "C98_empty_refuted",
    "C98_ragged_refuted",
    "C98_interpolation_refuted"
   ],
   "note": "Proved for trajectories with samples whose arrays have equal lengths or are empty: items, loops, slices. REFUTED: a loop over a trajectory without samples never ends (C98_empty: every index returns empty arrays); arrays of different lengths end the loop early without an error; Trajectory(gamma) is gamma itself and forgets an interpolation set by set_interpolate_function."
  },
  {
   "property": "C99",
   "status": "partial",
   "theorems": [
    "C99_called",
    "C99_law",
    "C99_known",
    "C99_jacobian",
    "C99_direct",
    "C99_linear_solver",
    "C99_time_refuted",
    "C99_circle_refuted"
   ],
   "note": "Proved with the momentum shift (the default of the indirect method) or without explicit time, for switches without circular definitions, and for a linear and a nonlinear solver that invent no symbols (C99_linear_solver: such solvers exist); C99_direct: rates and path cost of the direct method; C99_known and C99_jacobian: with differential control the analytical Jacobians of every generated problem are the derivatives of its rates. Bounds of trigonometric constraints contain no controls or switches. REFUTED without these: with do_momentum_shift=False and explicit time the name of time is no argument (every call raises NameError); a switch defined through itself keeps its name."
  },
  {
   "property": "C100",
   "status": "partial",
   "theorems": [
    "C100_cost",
    "C100_columns",
    "C100_end_cost",
    "C100_quadratures",
    "C100_parameters",
    "C100_parameters_refuted",
    "C100_end_control_refuted",
    "C100_never_returned",
    "C100_run_fails",
    "C100_helper",
    "C100_end_never_returned"
   ],
   "note": "The cost is computed for every trajectory without quadratures if the end costs mention no controls (C100_cost). REFUTED with unknown parameters: their multipliers are quadratures of the boundary value problem (C100_quadratures), no mapper removes them, and the cost function raises on every trajectory that has them, for every such problem and all options (C100_parameters), so that no run of beluga.solve returns such a trajectory, whatever the solver and the steps (C100_never_returned, C100_run_fails). REFUTED for end costs that mention controls: every trajectory raises (C100_end_cost) and no run returns a trajectory (C100_end_never_returned), although all functions of the boundary value problem can be called."
  }
 ]
}