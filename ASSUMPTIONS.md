# Print Assumptions, per theorem

Generated by tools/assumptions.py from the built tree.

## Closed under the global context (107 theorems)

`Props_Constraint.C03_ShiftToVec`, `QPTrace.C04_Setup_accepts_iff_consistent`, `QPTrace.C04_negative_index_never_solves`, `QPBlocks.C05_blocks_tile`, `QPBlocks.C05_block_writes`, `QPFrame.C10_upper_triangle_ignored`, `QPFrame.C10_null_space_upper_triangle_ignored`, `QPTrace.C12_Solve_run`, `QPTrace.C13_iteration_count`, `QPTrace.C13_bad_parameters_throw`, `NSProps.C21_no_equality_constraints_throws`, `NSProps.C21_failure_keeps_variables`, `LinProps.C22_QuadraticError_is_cost`, `ResProps.C23_ErrorVector`, `ResProps.C23_UpdateHessian`, `ResProps.C23_UpdateJacobian`, `ResProps.C23_UpdateHessian_any_size`, `ResProps.C23_UpdateJacobian_any_size`, `LinProps.C25_linearisation_errors`, `NLSProps.C25_errors_carried_over`, `LSProps.C27_success_passed_armijo`, `LSProps.C28_line_search_log`, `NLSTrace.C31_variables_move_only_on_success`, `NLSTrace.C31_no_success_keeps_initial_guess`, `NLSProps.C33_penalty_update`, `NLSProps.C34_lambda_update`, `NLSProps.C35_termination_states`, `NLSProps.C35_tolerance_holds_at_result`, `NLSTrace.C36_log_complete_and_ordered`, `NLSTrace.C37_callback_protocol`, `NLSLog.C38_inner_solver_settings`, `NLSTrace.C38_solver_selection`, `NLSProps.C39_stall_without_equalities`, `Props_Structs.C43_counters`, `Props_Structs.C43_satisfied_tol_states`, `JsonProps.C44_json_names`, `JsonProps.C44_unknown_names_accepted`, `Props_Structs.C44_names_distinct`, `JsonProps.C45_round_trip`, `JsonProps.C45_injective`, `JsonProps.C46_finite_outputs_survive`, `JsonProps.C46_non_finite_outputs_throw`, `NLSLog.C46_probe_fields_are_nan`, `NLSLog.C46_interior_point_logs_unreadable`, `TracingProps.C47_most_recent_events`, `TracingProps.C47_nothing_lost_below_limit`, `TracingProps.C47_size`, `TracingProps.C47_text_lists_events`, `TracingProps.C47_scope_event`, `TracingProps.C48_every_schedule`, `TracingProps.C48_all_done`, `TracingProps.C48_mutual_exclusion`, `TracingProps.C48_submissions_race_free`, `TracingProps.C48_reading_races`, `TracingProps.C48_no_deadlock`, `NLSReal.C49_construction`, `NLSTrace.C49_nonpositive_penalty_throws`, `NLSTrace.C49_logged_penalty_positive`, `QPReuse.C50_storage_irrelevant`, `QPReuse.C50_nonlinear_storage_irrelevant`, `Budget.C58_no_probe_lines`, `ReportProps.C58_no_escape_without_colour`, `ReportProps.C58_colour_is_decoration`, `ReportProps.C58_report_structure`, `ReportProps.C58_probe_lines`, `ReportProps.C58_colours`, `ReportProps.C58_report_readable`, `NLSHistory.C59_solve_ignores_history`, `NLSHistory.C59_reused_like_new`, `NLSHistory.C59_evaluate`, `NLSHistory.C60_exception_leaves_an_iterate`, `NLSHistory.C60_callback_sees_the_iterate`, `NLSHistory.C61_trace_of_a_solve`, `NLSHistory.C62_invocations`, `NLSSame.C65_same_functions_same_solve`, `JsonRead.C66_only_known_keys_matter`, `JsonRead.C66_documents_accepted`, `JsonRead.C66_undefined_only_if_key_missing`, `JsonRead.C66_missing_key_is_undefined`, `Budget.C67_work_bounded`, `Budget.C67_default_work`, `QPLog.C68_log_continuous`, `TraceText.C75_trace_is_json`, `TraceText.C75_names_not_escaped`, `NLSEdit.C77_outgrown_evaluate`, `NLSEdit.C77_dimension_changed`, `NLSEdit.C77_more_rows`, `NLSEdit.C77_outgrown_solve`, `ResidualHandleProps.C86_ownership`, `ResidualHandleProps.C86_call_throws_iff_empty`, `ResidualHandleProps.C86_make_residual`, `ResidualHandleProps.C86_moved_from_throws`, `ResidualHandleProps.C86_usable_handle`, `ResidualHandleProps.C86_constructor`, `ResidualHandleProps.C86_constructor_null`, `ResidualHandleProps.C86_usable_problem`, `ResidualHandleProps.C86_solve_moved_from`, `ResidualHandleProps.C86_dynamic_hessian`, `ResidualHandleProps.C86_dynamic_unusable`, `ResidualHandleProps.C86_solve_usable`, `AssertionProps.C87_format_string`, `AssertionProps.C87_assertion`, `AssertionProps.C87_what`, `AssertionProps.C87_message_identifies`, `AssertionProps.C87_library_throws_default_error`, `AssertionProps.C87_messages_distinct`, `NLSShift.C90_related_problems`

## `ClassicalDedekindReals.sig_forall_dec`, `FunctionalExtensionality.functional_extensionality_dep` (2 theorems)

`NLSQuadratic.C91_bound_closed_form`, `NLSQuadratic.C91_enough_steps`

## `ClassicalDedekindReals.sig_forall_dec`, `ClassicalDedekindReals.sig_not_dec`, `FunctionalExtensionality.functional_extensionality_dep` (161 theorems)

`Props_Constraint.C01_Var_ge`, `Props_Constraint.C01_Var_le`, `Props_Constraint.C02_ClampX_projection`, `Props_Constraint.C03_ShiftTo`, `Props_Constraint.C03_ShiftTo_compose`, `QPSolve.C06_Solve_interior`, `QPSolve.C06_only_factorization_fails`, `QPStep.C06_iteration_keeps_interior`, `QPAlpha.C07_step_length`, `QPIter.C08_iteration`, `QPIter.C08_full_system`, `QPNewton.C08_update_solves_newton_system`, `QPNewton.C08_reduced_matrix`, `QPNewton.C08_reduced_matrix_no_inequalities`, `QPAlpha.C09_reported_errors`, `QPAlpha.C09_residual_blocks`, `Props_Structs.C11_max_is_least_upper_bound`, `QPSolve.C12_satisfied_means_satisfied`, `QPUnique.C12_componentwise`, `QPSolve.C14_certificate`, `QPSolve.C14_satisfied_is_near_optimal`, `QPInit.C15_initial_guess`, `QPInit.C15_naive_guess`, `QPInit.C15_guess_outcomes`, `QPBarrier.C16_fixed_decrease`, `QPBarrier.C16_next_mu`, `QPBarrier.C16_mu_positive`, `QPBarrier.C16_logged_schedule`, `QPBarrier.C17_mu_affine_offset`, `QPBarrier.C17_probe_wrong_refuted`, `QPBarrier.C18_one_iteration_exact`, `QPBarrier.C18_equality_only_solve`, `QPDirect.C18_returns_after_one_iteration`, `QPDirect.C19_dual_residual`, `QPStep.C19_infeasibility_contracts`, `NSProps.C20_null_space_minimiser`, `NSProps.C21_dependent_rows_undefined`, `MeritProps.C22_QuadraticError`, `ResProps.C22_UpdateHessian_entries`, `ResProps.C22_UpdateHessian_gauss_newton`, `ResProps.C22_UpdateJacobian`, `ResProps.C23_duplicate_index_refuted`, `LinProps.C24_linearised_qp`, `LinProps.C24_convex`, `MeritProps.C26_directional_derivative`, `MeritProps.C26_merit_derivative`, `MeritProps.C26_kink_missed_refuted`, `LSProps.C27_sufficient_decrease`, `LSProps.C28_step_sizes`, `NLSRelTol.C28_armijo_steps`, `InterpProps.C29_quadratic`, `InterpProps.C29_cubic_interpolates`, `InterpProps.C29_cubic_minimum`, `InterpProps.C30_quadratic_backtracks`, `InterpProps.C30_cubic_backtracks`, `InterpProps.C30_cubic_gives_up_on_parabola`, `InterpProps.C30_first_cubic_is_proper`, `NLSReal.C32_merit_never_increases`, `NLSReal.C32_cost_never_increases`, `NLSReal.C33_penalty_never_decreases`, `Penalty.C33_penalty_exactly`, `NLSReal.C34_lambda_in_range`, `NLSReal.C34_lambda_direction`, `Multipliers.C38_multipliers_logged`, `NLSReal.C39_stall`, `NLSReal.C40_consecutive_failures_bounded`, `NLSReal.C40_zero_never_ramps_refuted`, `Penalty.C41_equality_derivative`, `Penalty.C41_null_space_descent`, `Penalty.C41_interior_point_descent`, `Penalty.C41_exact_interior_point_descent`, `Penalty.C41_converged_qp_descent`, `Penalty.C41_never_positive_derivative`, `NLSBox.C42_qp_solution_feasible`, `NLSBox.C42_violation_contracts`, `NLSBox.C42_iterates_in_box`, `NLSReal.C49_params_checked`, `NLSReal.C49_invalid_params_throw`, `NLSReal.C49_zero_initial_penalty_refuted`, `NLSTotal.C51_solve_returns`, `QPRegular.C52_reduced_system_nonsingular`, `QPRegular.C52_dependent_rows_singular`, `QPRegular.C52_regular_qp_always_solved`, `QPRegular.C52_regular_solve_always_returns`, `QPRegular.C52_damped_solve_always_returns`, `Multipliers.C53_multiplier_summary`, `LSSuccess.C54_backtracking_succeeds`, `Optimality.C54_iteration_never_stuck`, `Optimality.C54_unconstrained_never_stuck`, `Optimality.C55_first_order_tol_means_stationary`, `NLSInequality.C56_zero_gradient_start`, `Optimality.C56_stationary_start`, `Optimality.C57_linear_least_squares_solved`, `NLSHistory.C59_well_posed`, `QPUnique.C63_infeasible_never_satisfied`, `QPUnique.C63_complementarity_tol_not_positive`, `QPUnique.C64_satisfied_answers_agree`, `QPUnique.C64_distance_to_solution`, `NLSSame.C65_only_the_model_matters`, `NLSSame.C65_cost_order_irrelevant`, `NLSSame.C65_stacking_irrelevant`, `NLSSame.C65_zero_term_irrelevant`, `Budget.C67_default_interior_point_parameters`, `Budget.C67_default_nonlinear_parameters`, `QPLog.C68_each_iteration`, `QPLog.C68_infeasibility_product`, `QPLog.C68_returned_infeasibility`, `QPPerm.C69_constraint_order`, `QPPerm.C69_constraint_order_user`, `QPPerm.C69_unsatisfiable_order_matters`, `ChainProps.C70_pose_group`, `ChainProps.C70_rigid_motion`, `ChainProps.C70_ToMatrix`, `ChainDeriv.C71_composition`, `ChainDeriv.C71_no_links`, `ChainDeriv.C72_derivatives`, `ChainCache.C73_link_constructor`, `ChainCache.C73_every_rotation_accepted`, `ChainJacobian.C73_first_update`, `ChainCache.C74_any_history`, `ChainCache.C74_wrong_size`, `ChainCache.C74_nothing_active`, `ChainCache.C74_links_not_noticed`, `NLSPerm.C76_inequality_order_irrelevant`, `NLSEdit.C77_fewer_rows`, `QPRelabel.C78_numbering_irrelevant`, `QPRelabel.C78_numbering_irrelevant_when_factorised`, `QPRelabel.C78_factorisation_irrelevant`, `RelabelCases.C78_singular_failure_ignores_numbering`, `NLSRelabelCases.C79_exact_factorisations_fail_alike`, `NLSRate.C80_successes_bounded`, `NLSRate.C80_iterations_bounded`, `NLSRate.C80_enough_iterations`, `NLSRate.C80_unconstrained_solve_satisfied`, `NLSRate.C80_damped_unconstrained_solve_satisfied`, `LSPoly.C81_polynomial_never_gives_up`, `LSPoly.C81_invalid_alpha_only_if_flat`, `LSPoly.C81_line_search_succeeds`, `NLSRate.C81_solve_gives_up_only_if_flat`, `NLSRelTol.C82_relative_tol_bounds_slope`, `NLSRelTol.C82_relative_tol_means_stationary`, `NLSConstrained.C83_penalty_bounded_by_multipliers`, `NLSConstrained.C83_penalty_bounded_by_logged_multipliers`, `NLSConstrained.C83_enough_iterations`, `Factorisations.C84_exact_factorisations_exist`, `Factorisations.C84_exact_for_every_problem`, `Factorisations.C84_every_unconstrained_problem_solved`, `NLSRegular.C85_multiplier_bound`, `NLSRegular.C85_bound_exists`, `NLSRegular.C85_controllable_enough_iterations`, `NLSRegular.C85_affine_controllable`, `NLSRegular.C85_affine_enough_iterations`, `NLSInequality.C88_first_order_tol_means_stationary`, `NLSInequality.C88_linear_least_squares_in_a_box`, `QPPath.C89_short_steps_converge`, `QPPath.C89_converges`, `NLSShift.C90_origin_irrelevant`, `NLSQuadratic.C91_local_quadratic_convergence`, `NLSLocal.C92_superlinear`, `LocalCases.C93_curved_constraint_refuted`, `NLSLocal.C93_exact_steps_exist`

## `ClassicalDedekindReals.sig_forall_dec`, `ClassicalDedekindReals.sig_not_dec`, `Classical_Prop.classic`, `FunctionalExtensionality.functional_extensionality_dep` (49 theorems)

`FloatProps.C01_binary64_Var_ge`, `FloatProps.C01_binary64_Var_le`, `FloatProps.C01_binary64_non_finite`, `FloatProps.C02_binary64_ClampX`, `FloatProps.C03_binary64_ShiftTo_origin`, `FloatQP.C06_binary64_iteration`, `FloatQP.C06_binary64_run`, `FloatProps.C07_binary64_step_length`, `FloatProps.C07_binary64_underflow_refuted`, `FloatCases.C09_binary64_cancellation_refuted`, `FloatProps.C11_binary64_max`, `FloatProps.C11_binary64_nan_dropped`, `FloatProps.C12_binary64_tolerance_test`, `FloatQP.C15_binary64_initial_guess`, `NSProps.C21_termination_states`, `FloatNLS.C27_binary64_merit_does_not_increase`, `FloatNLS.C28_binary64_step_sizes`, `FloatNLS.C32_binary64_merit_never_increases`, `FloatNLS.C32_binary64_cost_never_increases`, `FloatNLS.C33_binary64_penalty_never_decreases`, `FloatNLS.C34_binary64_lambda_in_range`, `FloatNLS.C39_binary64_stall`, `FloatNLS.C40_binary64_consecutive_failures_bounded`, `FloatNLS.C40_binary64_zero_never_ramps_refuted`, `RelTolCases.C42_binary64_rounding_refuted`, `FloatNLS.C49_binary64_params_checked`, `Budget.C58_binary64_probe`, `Budget.C58_binary64_no_probe_lines`, `Budget.C67_defaults_accepted`, `Budget.C67_defaults_binary64`, `ChainCache.C74_binary64_nan`, `NLSRelabel.C79_numbering_irrelevant`, `NLSRelabel.C79_numbering_irrelevant_when_both_return`, `NLSRelabel.C79_factorisation_irrelevant`, `NSRelabel.C79_null_space_numbering_irrelevant`, `NSRelabel.C79_null_space_factorisation_irrelevant`, `RelTolCases.C81_binary64_cancellation_refuted`, `RelTolCases.C82_relative_tol_near_minimum_refuted`, `NLSConstrained.C83_equality_constrained_solve_satisfied`, `Factorisations.C84_every_regular_equality_problem_solved`, `NLSRegular.C85_controllable_solve_satisfied`, `QPPath.C89_iterations_needed`, `NLSQuadraticLocal.C91_converges_from_nearby`, `NLSLocal.C92_local_convergence`, `NLSLocal.C92_linear_rate`, `NLSLocal.C92_regular_zero_damped`, `NLSLocal.C93_affine_constraints`, `NLSLocal.C93_linear_rate`, `NLSLocal.C93_any_accuracy`
