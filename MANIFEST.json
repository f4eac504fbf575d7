{
 "claims": [
  {
   "property": "C01",
   "status": "proved",
   "theorems": [
    "C01_binary64_Var_ge",
    "C01_binary64_Var_le",
    "C01_binary64_non_finite",
    "C01_Var_ge",
    "C01_Var_le"
   ],
   "note": ""
  },
  {
   "property": "C02",
   "status": "proved",
   "theorems": [
    "C02_binary64_ClampX",
    "C02_ClampX_projection"
   ],
   "note": ""
  },
  {
   "property": "C03",
   "status": "proved",
   "theorems": [
    "C03_binary64_ShiftTo_origin",
    "C03_ShiftTo",
    "C03_ShiftTo_compose",
    "C03_ShiftToVec"
   ],
   "note": ""
  },
  {
   "property": "C04",
   "status": "proved",
   "theorems": [
    "C04_Setup_accepts_iff_consistent",
    "C04_negative_index_never_solves"
   ],
   "note": ""
  },
  {
   "property": "C05",
   "status": "proved",
   "theorems": [
    "C05_blocks_tile",
    "C05_block_writes"
   ],
   "note": ""
  },
  {
   "property": "C06",
   "status": "proved",
   "theorems": [
    "C06_binary64_iteration",
    "C06_binary64_run",
    "C06_Solve_interior",
    "C06_only_factorization_fails",
    "C06_iteration_keeps_interior"
   ],
   "note": ""
  },
  {
   "property": "C07",
   "status": "proved",
   "theorems": [
    "C07_binary64_step_length",
    "C07_binary64_underflow_refuted",
    "C07_step_length"
   ],
   "note": ""
  },
  {
   "property": "C08",
   "status": "proved",
   "theorems": [
    "C08_iteration",
    "C08_full_system",
    "C08_update_solves_newton_system",
    "C08_reduced_matrix",
    "C08_reduced_matrix_no_inequalities"
   ],
   "note": ""
  },
  {
   "property": "C09",
   "status": "proved",
   "theorems": [
    "C09_binary64_cancellation_refuted",
    "C09_reported_errors",
    "C09_residual_blocks"
   ],
   "note": ""
  },
  {
   "property": "C10",
   "status": "proved",
   "theorems": [
    "C10_upper_triangle_ignored",
    "C10_null_space_upper_triangle_ignored"
   ],
   "note": ""
  },
  {
   "property": "C11",
   "status": "proved",
   "theorems": [
    "C11_binary64_max",
    "C11_binary64_nan_dropped",
    "C11_max_is_least_upper_bound"
   ],
   "note": ""
  },
  {
   "property": "C12",
   "status": "proved",
   "theorems": [
    "C12_binary64_tolerance_test",
    "C12_satisfied_means_satisfied",
    "C12_Solve_run",
    "C12_componentwise"
   ],
   "note": ""
  },
  {
   "property": "C13",
   "status": "proved",
   "theorems": [
    "C13_iteration_count",
    "C13_bad_parameters_throw"
   ],
   "note": ""
  },
  {
   "property": "C14",
   "status": "proved",
   "theorems": [
    "C14_certificate",
    "C14_satisfied_is_near_optimal"
   ],
   "note": ""
  },
  {
   "property": "C15",
   "status": "proved",
   "theorems": [
    "C15_binary64_initial_guess",
    "C15_initial_guess",
    "C15_naive_guess",
    "C15_guess_outcomes"
   ],
   "note": ""
  },
  {
   "property": "C16",
   "status": "proved",
   "theorems": [
    "C16_fixed_decrease",
    "C16_next_mu",
    "C16_mu_positive",
    "C16_logged_schedule"
   ],
   "note": ""
  },
  {
   "property": "C17",
   "status": "proved",
   "theorems": [
    "C17_mu_affine_offset",
    "C17_probe_wrong_refuted"
   ],
   "note": ""
  },
  {
   "property": "C18",
   "status": "proved",
   "theorems": [
    "C18_one_iteration_exact",
    "C18_equality_only_solve",
    "C18_returns_after_one_iteration"
   ],
   "note": ""
  },
  {
   "property": "C19",
   "status": "proved",
   "theorems": [
    "C19_dual_residual",
    "C19_infeasibility_contracts"
   ],
   "note": ""
  },
  {
   "property": "C20",
   "status": "proved",
   "theorems": [
    "C20_null_space_minimiser"
   ],
   "note": ""
  },
  {
   "property": "C21",
   "status": "proved",
   "theorems": [
    "C21_termination_states",
    "C21_no_equality_constraints_throws",
    "C21_failure_keeps_variables",
    "C21_dependent_rows_undefined"
   ],
   "note": ""
  },
  {
   "property": "C22",
   "status": "proved",
   "theorems": [
    "C22_QuadraticError_is_cost",
    "C22_QuadraticError",
    "C22_UpdateHessian_entries",
    "C22_UpdateHessian_gauss_newton",
    "C22_UpdateJacobian"
   ],
   "note": ""
  },
  {
   "property": "C23",
   "status": "proved",
   "theorems": [
    "C23_ErrorVector",
    "C23_UpdateHessian",
    "C23_UpdateJacobian",
    "C23_UpdateHessian_any_size",
    "C23_UpdateJacobian_any_size",
    "C23_duplicate_index_refuted"
   ],
   "note": ""
  },
  {
   "property": "C24",
   "status": "proved",
   "theorems": [
    "C24_linearised_qp",
    "C24_convex"
   ],
   "note": ""
  },
  {
   "property": "C25",
   "status": "proved",
   "theorems": [
    "C25_linearisation_errors",
    "C25_errors_carried_over"
   ],
   "note": ""
  },
  {
   "property": "C26",
   "status": "proved",
   "theorems": [
    "C26_directional_derivative",
    "C26_merit_derivative",
    "C26_kink_missed_refuted"
   ],
   "note": ""
  },
  {
   "property": "C27",
   "status": "proved",
   "theorems": [
    "C27_binary64_merit_does_not_increase",
    "C27_success_passed_armijo",
    "C27_sufficient_decrease"
   ],
   "note": ""
  },
  {
   "property": "C28",
   "status": "proved",
   "theorems": [
    "C28_binary64_step_sizes",
    "C28_line_search_log",
    "C28_step_sizes",
    "C28_armijo_steps"
   ],
   "note": ""
  },
  {
   "property": "C29",
   "status": "proved",
   "theorems": [
    "C29_quadratic",
    "C29_cubic_interpolates",
    "C29_cubic_minimum"
   ],
   "note": ""
  },
  {
   "property": "C30",
   "status": "proved",
   "theorems": [
    "C30_quadratic_backtracks",
    "C30_cubic_backtracks",
    "C30_cubic_gives_up_on_parabola",
    "C30_first_cubic_is_proper"
   ],
   "note": ""
  },
  {
   "property": "C31",
   "status": "proved",
   "theorems": [
    "C31_variables_move_only_on_success",
    "C31_no_success_keeps_initial_guess"
   ],
   "note": ""
  },
  {
   "property": "C32",
   "status": "proved",
   "theorems": [
    "C32_binary64_merit_never_increases",
    "C32_binary64_cost_never_increases",
    "C32_merit_never_increases",
    "C32_cost_never_increases"
   ],
   "note": ""
  },
  {
   "property": "C33",
   "status": "proved",
   "theorems": [
    "C33_binary64_penalty_never_decreases",
    "C33_penalty_update",
    "C33_penalty_never_decreases",
    "C33_penalty_exactly"
   ],
   "note": ""
  },
  {
   "property": "C34",
   "status": "proved",
   "theorems": [
    "C34_binary64_lambda_in_range",
    "C34_lambda_update",
    "C34_lambda_in_range",
    "C34_lambda_direction"
   ],
   "note": ""
  },
  {
   "property": "C35",
   "status": "proved",
   "theorems": [
    "C35_termination_states",
    "C35_tolerance_holds_at_result"
   ],
   "note": ""
  },
  {
   "property": "C36",
   "status": "proved",
   "theorems": [
    "C36_log_complete_and_ordered"
   ],
   "note": ""
  },
  {
   "property": "C37",
   "status": "proved",
   "theorems": [
    "C37_callback_protocol"
   ],
   "note": ""
  },
  {
   "property": "C38",
   "status": "proved",
   "theorems": [
    "C38_multipliers_logged",
    "C38_inner_solver_settings",
    "C38_solver_selection"
   ],
   "note": ""
  },
  {
   "property": "C39",
   "status": "proved",
   "theorems": [
    "C39_binary64_stall",
    "C39_stall_without_equalities",
    "C39_stall"
   ],
   "note": ""
  },
  {
   "property": "C40",
   "status": "proved",
   "theorems": [
    "C40_binary64_consecutive_failures_bounded",
    "C40_binary64_zero_never_ramps_refuted",
    "C40_consecutive_failures_bounded",
    "C40_zero_never_ramps_refuted"
   ],
   "note": ""
  },
  {
   "property": "C41",
   "status": "proved",
   "theorems": [
    "C41_equality_derivative",
    "C41_null_space_descent",
    "C41_interior_point_descent",
    "C41_exact_interior_point_descent",
    "C41_converged_qp_descent",
    "C41_never_positive_derivative"
   ],
   "note": ""
  },
  {
   "property": "C42",
   "status": "proved",
   "theorems": [
    "C42_qp_solution_feasible",
    "C42_violation_contracts",
    "C42_iterates_in_box",
    "C42_binary64_rounding_refuted"
   ],
   "note": ""
  },
  {
   "property": "C43",
   "status": "proved",
   "theorems": [
    "C43_counters",
    "C43_satisfied_tol_states"
   ],
   "note": ""
  },
  {
   "property": "C44",
   "status": "proved",
   "theorems": [
    "C44_json_names",
    "C44_unknown_names_accepted",
    "C44_names_distinct"
   ],
   "note": ""
  },
  {
   "property": "C45",
   "status": "proved",
   "theorems": [
    "C45_round_trip",
    "C45_injective"
   ],
   "note": ""
  },
  {
   "property": "C46",
   "status": "proved",
   "theorems": [
    "C46_finite_outputs_survive",
    "C46_non_finite_outputs_throw",
    "C46_probe_fields_are_nan",
    "C46_interior_point_logs_unreadable"
   ],
   "note": ""
  },
  {
   "property": "C47",
   "status": "proved",
   "theorems": [
    "C47_most_recent_events",
    "C47_nothing_lost_below_limit",
    "C47_size",
    "C47_text_lists_events",
    "C47_scope_event"
   ],
   "note": ""
  },
  {
   "property": "C48",
   "status": "proved",
   "theorems": [
    "C48_every_schedule",
    "C48_all_done",
    "C48_mutual_exclusion",
    "C48_submissions_race_free",
    "C48_reading_races",
    "C48_no_deadlock"
   ],
   "note": ""
  },
  {
   "property": "C49",
   "status": "proved",
   "theorems": [
    "C49_binary64_params_checked",
    "C49_construction",
    "C49_params_checked",
    "C49_invalid_params_throw",
    "C49_zero_initial_penalty_refuted",
    "C49_nonpositive_penalty_throws",
    "C49_logged_penalty_positive"
   ],
   "note": ""
  },
  {
   "property": "C50",
   "status": "proved",
   "theorems": [
    "C50_storage_irrelevant",
    "C50_nonlinear_storage_irrelevant"
   ],
   "note": ""
  },
  {
   "property": "C51",
   "status": "proved",
   "theorems": [
    "C51_solve_returns"
   ],
   "note": ""
  },
  {
   "property": "C52",
   "status": "proved",
   "theorems": [
    "C52_reduced_system_nonsingular",
    "C52_dependent_rows_singular",
    "C52_regular_qp_always_solved",
    "C52_regular_solve_always_returns",
    "C52_damped_solve_always_returns"
   ],
   "note": ""
  },
  {
   "property": "C53",
   "status": "proved",
   "theorems": [
    "C53_multiplier_summary"
   ],
   "note": ""
  },
  {
   "property": "C54",
   "status": "proved",
   "theorems": [
    "C54_backtracking_succeeds",
    "C54_iteration_never_stuck",
    "C54_unconstrained_never_stuck"
   ],
   "note": ""
  },
  {
   "property": "C55",
   "status": "proved",
   "theorems": [
    "C55_first_order_tol_means_stationary"
   ],
   "note": ""
  },
  {
   "property": "C56",
   "status": "proved",
   "theorems": [
    "C56_zero_gradient_start",
    "C56_stationary_start"
   ],
   "note": ""
  },
  {
   "property": "C57",
   "status": "proved",
   "theorems": [
    "C57_linear_least_squares_solved"
   ],
   "note": ""
  },
  {
   "property": "C58",
   "status": "proved",
   "theorems": [
    "C58_no_probe_lines",
    "C58_binary64_probe",
    "C58_binary64_no_probe_lines",
    "C58_no_escape_without_colour",
    "C58_colour_is_decoration",
    "C58_report_structure",
    "C58_probe_lines",
    "C58_colours",
    "C58_report_readable"
   ],
   "note": ""
  },
  {
   "property": "C59",
   "status": "proved",
   "theorems": [
    "C59_solve_ignores_history",
    "C59_reused_like_new",
    "C59_evaluate",
    "C59_well_posed"
   ],
   "note": ""
  },
  {
   "property": "C60",
   "status": "proved",
   "theorems": [
    "C60_exception_leaves_an_iterate",
    "C60_callback_sees_the_iterate"
   ],
   "note": ""
  },
  {
   "property": "C61",
   "status": "proved",
   "theorems": [
    "C61_trace_of_a_solve"
   ],
   "note": ""
  },
  {
   "property": "C62",
   "status": "proved",
   "theorems": [
    "C62_invocations"
   ],
   "note": ""
  },
  {
   "property": "C63",
   "status": "proved",
   "theorems": [
    "C63_infeasible_never_satisfied",
    "C63_complementarity_tol_not_positive"
   ],
   "note": ""
  },
  {
   "property": "C64",
   "status": "proved",
   "theorems": [
    "C64_satisfied_answers_agree",
    "C64_distance_to_solution"
   ],
   "note": ""
  },
  {
   "property": "C65",
   "status": "proved",
   "theorems": [
    "C65_same_functions_same_solve",
    "C65_only_the_model_matters",
    "C65_cost_order_irrelevant",
    "C65_stacking_irrelevant",
    "C65_zero_term_irrelevant"
   ],
   "note": ""
  },
  {
   "property": "C66",
   "status": "proved",
   "theorems": [
    "C66_only_known_keys_matter",
    "C66_documents_accepted",
    "C66_undefined_only_if_key_missing",
    "C66_missing_key_is_undefined"
   ],
   "note": ""
  },
  {
   "property": "C67",
   "status": "proved",
   "theorems": [
    "C67_work_bounded",
    "C67_default_work",
    "C67_default_interior_point_parameters",
    "C67_default_nonlinear_parameters",
    "C67_defaults_accepted",
    "C67_defaults_binary64"
   ],
   "note": ""
  },
  {
   "property": "C68",
   "status": "proved",
   "theorems": [
    "C68_log_continuous",
    "C68_each_iteration",
    "C68_infeasibility_product",
    "C68_returned_infeasibility"
   ],
   "note": ""
  },
  {
   "property": "C69",
   "status": "proved",
   "theorems": [
    "C69_constraint_order",
    "C69_constraint_order_user",
    "C69_unsatisfiable_order_matters"
   ],
   "note": ""
  },
  {
   "property": "C70",
   "status": "proved",
   "theorems": [
    "C70_pose_group",
    "C70_rigid_motion",
    "C70_ToMatrix"
   ],
   "note": ""
  },
  {
   "property": "C71",
   "status": "proved",
   "theorems": [
    "C71_composition",
    "C71_no_links"
   ],
   "note": ""
  },
  {
   "property": "C72",
   "status": "proved",
   "theorems": [
    "C72_derivatives"
   ],
   "note": ""
  },
  {
   "property": "C73",
   "status": "proved",
   "theorems": [
    "C73_link_constructor",
    "C73_every_rotation_accepted",
    "C73_first_update"
   ],
   "note": ""
  },
  {
   "property": "C74",
   "status": "proved",
   "theorems": [
    "C74_any_history",
    "C74_wrong_size",
    "C74_nothing_active",
    "C74_links_not_noticed",
    "C74_binary64_nan"
   ],
   "note": ""
  },
  {
   "property": "C75",
   "status": "proved",
   "theorems": [
    "C75_trace_is_json",
    "C75_names_not_escaped"
   ],
   "note": ""
  },
  {
   "property": "C76",
   "status": "proved",
   "theorems": [
    "C76_inequality_order_irrelevant"
   ],
   "note": ""
  },
  {
   "property": "C77",
   "status": "proved",
   "theorems": [
    "C77_outgrown_evaluate",
    "C77_dimension_changed",
    "C77_more_rows",
    "C77_outgrown_solve",
    "C77_fewer_rows"
   ],
   "note": ""
  },
  {
   "property": "C78",
   "status": "proved",
   "theorems": [
    "C78_numbering_irrelevant",
    "C78_numbering_irrelevant_when_factorised",
    "C78_factorisation_irrelevant",
    "C78_singular_failure_ignores_numbering"
   ],
   "note": ""
  },
  {
   "property": "C79",
   "status": "proved",
   "theorems": [
    "C79_numbering_irrelevant",
    "C79_numbering_irrelevant_when_both_return",
    "C79_factorisation_irrelevant",
    "C79_exact_factorisations_fail_alike",
    "C79_null_space_numbering_irrelevant",
    "C79_null_space_factorisation_irrelevant"
   ],
   "note": ""
  },
  {
   "property": "C80",
   "status": "proved",
   "theorems": [
    "C80_successes_bounded",
    "C80_iterations_bounded",
    "C80_enough_iterations",
    "C80_unconstrained_solve_satisfied",
    "C80_damped_unconstrained_solve_satisfied"
   ],
   "note": ""
  },
  {
   "property": "C81",
   "status": "proved",
   "theorems": [
    "C81_polynomial_never_gives_up",
    "C81_invalid_alpha_only_if_flat",
    "C81_line_search_succeeds",
    "C81_solve_gives_up_only_if_flat",
    "C81_binary64_cancellation_refuted"
   ],
   "note": ""
  },
  {
   "property": "C82",
   "status": "proved",
   "theorems": [
    "C82_relative_tol_bounds_slope",
    "C82_relative_tol_means_stationary",
    "C82_relative_tol_near_minimum_refuted"
   ],
   "note": ""
  },
  {
   "property": "C83",
   "status": "proved",
   "theorems": [
    "C83_equality_constrained_solve_satisfied",
    "C83_penalty_bounded_by_multipliers",
    "C83_penalty_bounded_by_logged_multipliers",
    "C83_enough_iterations"
   ],
   "note": ""
  },
  {
   "property": "C84",
   "status": "proved",
   "theorems": [
    "C84_exact_factorisations_exist",
    "C84_exact_for_every_problem",
    "C84_every_unconstrained_problem_solved",
    "C84_every_regular_equality_problem_solved"
   ],
   "note": ""
  },
  {
   "property": "C85",
   "status": "proved",
   "theorems": [
    "C85_multiplier_bound",
    "C85_controllable_solve_satisfied",
    "C85_bound_exists",
    "C85_controllable_enough_iterations",
    "C85_affine_controllable",
    "C85_affine_enough_iterations"
   ],
   "note": ""
  },
  {
   "property": "C86",
   "status": "proved",
   "theorems": [
    "C86_ownership",
    "C86_call_throws_iff_empty",
    "C86_make_residual",
    "C86_moved_from_throws",
    "C86_usable_handle",
    "C86_constructor",
    "C86_constructor_null",
    "C86_usable_problem",
    "C86_solve_moved_from",
    "C86_dynamic_hessian",
    "C86_dynamic_unusable",
    "C86_solve_usable"
   ],
   "note": ""
  },
  {
   "property": "C87",
   "status": "proved",
   "theorems": [
    "C87_format_string",
    "C87_assertion",
    "C87_what",
    "C87_message_identifies",
    "C87_library_throws_default_error",
    "C87_messages_distinct"
   ],
   "note": ""
  },
  {
   "property": "C88",
   "status": "proved",
   "theorems": [
    "C88_first_order_tol_means_stationary",
    "C88_linear_least_squares_in_a_box"
   ],
   "note": ""
  },
  {
   "property": "C89",
   "status": "proved",
   "theorems": [
    "C89_short_steps_converge",
    "C89_iterations_needed",
    "C89_converges"
   ],
   "note": ""
  },
  {
   "property": "C90",
   "status": "proved",
   "theorems": [
    "C90_related_problems",
    "C90_origin_irrelevant"
   ],
   "note": ""
  },
  {
   "property": "C91",
   "status": "proved",
   "theorems": [
    "C91_local_quadratic_convergence",
    "C91_bound_closed_form",
    "C91_enough_steps",
    "C91_converges_from_nearby"
   ],
   "note": ""
  },
  {
   "property": "C92",
   "status": "proved",
   "theorems": [
    "C92_local_convergence",
    "C92_linear_rate",
    "C92_superlinear",
    "C92_regular_zero_damped"
   ],
   "note": ""
  },
  {
   "property": "C93",
   "status": "proved",
   "theorems": [
    "C93_curved_constraint_refuted",
    "C93_affine_constraints",
    "C93_linear_rate",
    "C93_exact_steps_exist",
    "C93_any_accuracy"
   ],
   "note": ""
  }
 ]
}