#!/usr/bin/env python3
"""Source of MANIFEST.json. Run:  python3 tools/manifest.py > MANIFEST.json"""
import json
C = []
def c(prop, status, theorems, note=""):
    C.append(dict(property=prop, status=status, theorems=theorems, note=note))
c("C01","proved",["C01_filter_acceptance_is_nondomination","C01_nan_refuted"],
  "binary64 coordinates incl. infinities; refuted for NaN coordinates by witness")
c("C02","proved",["C02_filter_rejection_permanent","C02_clear_accepts_everything","C02_filter_antichain"],"")
c("C03","proved",["C03_cache_hit_not_stale","C03_cross_thread_refuted"],
  "single thread and fewer than 2^32 changes; refuted across threads by witness")
c("C04","proved",["C04_cache_capacity","C04_recent_results_survive","C04_size_zero_never_hits","C04_invalidate_duplicate_refuted"],
  "survival for non-NaN scalar dependencies; InvalidateResult leaves older duplicates (witness)")
c("C05","proved",["C05_tag_identifies_state","C05_wraparound_refuted"],"false after 2^32 changes (witness)")
c("C06","proved",["C06_no_dangling_access","C06_observers_symmetric","C06_no_leaked_result"],"")
c("C07","proved",["C07_no_access_after_delete","C07_deleted_with_last_pointer","C07_no_leak_without_cycles","C07_assignment_effect","C07_unreachable_assignment_refuted"],
  "for histories whose assignments go to variables or members of reachable objects; without that hypothesis refuted by witness")
c("C08","proved",["C08_last_permitted_write_wins","C08_unclobberable_is_final","C08_refused_write_reported_refuted","C08_registered_case_insensitive_refuted"],
  "Set with a registry is case-sensitive in the name, and a refused overwrite returns true (witnesses)")
c("C09","proved",["C09_prefix_precedence_string","C09_prefix_precedence_number","C09_prefix_precedence_integer","C09_string_canonical","C09_enum_position","C09_bool_value","C09_get_changes_nothing"],"")
c("C10","proved",["C10_number_accepted_iff_in_range","C10_integer_accepted_iff_in_range","C10_string_accepted_iff_listed","C10_nan_refuted","C10_value_read_back_in_range_refuted"],
  "NaN and six-digit storage refuted by witness")
c("C11","proved",["C11_reading_terminates","C11_file_round_trip","C11_empty_quoted_value_refuted","C11_unterminated_name_refuted"],"")
c("C12","proved",["C12_integer_round_trip","C12_file_integer_wraps_refuted","C12_blank_text_refuted"],"")
c("C13","proved",["C13_csr_represents_matrix","C13_diagonal_excludes_gaps","C13_empty_matrix","C13_inner_gap_refuted"],
  "any outcome of std::sort, any number type; false with an empty inner row (witness)")
c("C14","proved",["C14_perturbation_in_range","C14_retries_bounded","C14_retries_bounded_doubling","C14_inertia_request_progresses","C14_endless_retries_refuted","C14_zero_regularization_refuted","C14_subnormal_refuted","C14_uninitialised_perturbation_refuted"],
  "binary64; histories in which a failed call ends the matrix; termination as long as each retry changes the perturbation; the cases in which it does not, and the unchecked ConsiderNewSystem result in SolveOnce, are refuted by witnesses with default options; value of delta_cd() is an input (pow)")
c("C15","proved",["C15_degeneracy_needs_three_observations","C15_conclusions_consistent","C15_one_matrix_suffices_refuted","C15_not_degenerate_is_final_refuted"],
  "delta_cd() positive and min_hessian_perturbation positive; finality refuted by witness")
c("C16","proved",["C16_success_means_converged","C16_converged_means_success","C16_nan_never_converged"],
  "error measures are an arbitrary environment; both directions over whole solves incl. restoration phases")
c("C17","proved",["C17_acceptable_means_consecutive","C17_stops_at_first_opportunity","C17_disabled_by_zero"],
  "the line search's own return to a stored acceptable point is the second way to this status and is named in the theorem")
c("C18","proved",["C18_iteration_limit","C18_limit_status","C18_terminates","C18_restoration_limit","C18_separate_resto_limit_refuted"],
  "passes of restoration phases included, for equal limits; refuted for a larger resto.max_iter (witness)")
c("C19","proved",["C19_mu_bounded_below","C19_mu_never_increases","C19_tau_range","C19_update_terminates","C19_update_passes","C19_update_outcome","C19_reset_on_change_refuted","C19_small_mu_init_refuted","C19_tau_below_one_refuted","C19_mu_positive_refuted"],
  "binary64, std::pow arbitrary; tau<1 needs mu>=2^-53, mu>0 needs a limit that does not underflow, no increase needs mu_init>=limit (witnesses); mu may change without a line-search reset (witness)")
c("C20","proved",["C20_fraction_to_boundary_real","C20_fraction_to_boundary_double","C20_stays_interior_double","C20_stays_interior_refuted"],
  "exactly the fraction-to-the-boundary rule over reals; error bound over binary64; overflow of tau/|d| refuted by witness")
c("C23","proved",["C23_operations_real","C23_storage_unobservable_real","C23_operations_double","C23_storage_unobservable_double","C23_axpy_double","C23_reductions_real","C23_dot_self_real","C23_extrema_double","C23_fresh_target_real","C23_add_two_vectors_defect_real","C23_add_two_vectors_refuted","C23_add_two_vectors_alias_refuted","C23_select_refuted","C23_axpy_infinity_refuted","C23_add_two_vectors_rounding_refuted","C23_sum_rounding_refuted","C23_copy_to_pos_refuted","C23_copy_to_pos_partial"],
  "whole programs on heaps of vectors; the excluded cases are refuted by witnesses; BLAS loops as left-to-right folds")
c("C24","proved",["C24_compound_is_concatenation_real","C24_compound_is_concatenation_double","C24_reductions_real","C24_extrema_double","C24_frac_double","C24_max_infinity_refuted","C24_amax_nan_refuted"],
  "nested compounds of any shape")
c("C21","proved",["C21_accepted_iff_rule","C21_step_satisfies_rule","C21_violation_limit","C21_filter_entries_from_iterates_refuted"],
  "acceptor for any call sequence, line search for any history of calls; evaluation results are an arbitrary environment; std::pow, log10 arbitrary; a filter entry need not come from an iterate of the solve (witness)")
c("C22","proved",["C22_resets_limited_refuted","C22_resets_need_accepted_steps","C22_zero_switches_off"],
  "the property is false of the code (counter never incremented): refuted for every bound; what holds instead is proved")
c("C37","proved",["C37_backtracking_ends","C37_backtracking_ends_min_step","C37_backtracking_ends_refuted"],
  "any problem, binary64; factor 0.9 refuted by a diverging run (proved for every fuel)")
c("C38","proved",["C38_watchdog_bounded","C38_watchdog_ends_well"],"")
c("C39","proved",["C39_soft_bounded","C39_soft_progress","C39_soft_return_satisfies_rule"],"")
c("C40","proved",["C40_acceptable_point"],"")
c("C25","proved",["C25_mult_real","C25_trans_mult_real","C25_mult_double","C25_trans_mult_double","C25_pick_after_place_real","C25_pick_after_place_double","C25_adjoint","C25_add_fused_real","C25_sinv_fused_real","C25_row_amax_real","C25_col_amax_real","C25_compressed_positions"],
  "positions different and in range; fused operations over exact reals, products also on doubles")
c("C26","proved",["C26_contradictory_variable","C26_accepted","C26_treatment","C26_variables","C26_bound_multipliers","C26_start_multipliers","C26_feasible_set","C26_relaxed_fixed_bounds_refuted"],
  "any number type for the maps, binary64 for the feasible set; all three treatments; relax_bounds leaves fixed variables with equal bounds (refutation); warm_start_same_structure and finite-difference derivatives not modelled")
c("C27","proved",["C27_contradictory_constraint","C27_constraints","C27_values","C27_returned","C27_start_multipliers"],
  "includes removal of dependent equality constraints given by the detector")
c("C28","proved",["C28_jacobian","C28_hessian","C28_added_rows","C28_in_range"],
  "any sparsity pattern with in-range indices, duplicates included, C and Fortran numbering")
c("C43","proved",["C43_make_parameter","C43_make_constraint"],
  "exact real arithmetic")
c("C41","proved",["C41_objective","C41_gradient","C41_constraints","C41_jacobian","C41_hessian","C41_failure_reported_partial","C41_failure_reported_refuted"],
  "user routines deterministic functions of the point; failure of eval_g is reported only at the first request for a point (proved; second request refuted for every problem)")
c("C42","proved",["C42_new_x_documented","C42_new_lambda","C42_new_x_previous_partial","C42_new_x_previous_refuted","C42_new_x_finite_difference_refuted","C42_new_x_documented_refuted"],
  "before finalisation; 'previous call' reading holds if the algorithm never returns to an older vector and derivatives are exact, else refuted")
c("C44","proved",["C44_gradient","C44_jacobian","C44_upper_bound","C44_lower_bound_refuted"],
  "any number type for the quotients, binary64 for the bound; column lists of the Jacobian taken from the triplets (C13)")
c("C29","proved",["C29_documented_status","C29_every_end_has_a_reason","C29_loop_never_ends_with_continue","C29_succeeded_only_if_converged","C29_succeeded_end_to_end","C29_finalize_status","C29_no_exception_escapes","C29_good_code_means_nothing_failed","C29_bad_number_in_summary","C29_codes","C29_reoptimize_lets_exceptions_escape_refuted","C29_contradicting_statuses_refuted","C29_build_phase_codes_refuted"],
  "all exits of OptimizeNLP: loop ends, exceptions in every phase; late failures can make code and finalize status disagree (refuted), ReOptimizeNLP lets one exception escape (refuted)")
c("C45","proved",["C45_multipliers_for_final_points","C45_time_limit_multipliers_refuted"],
  "holds for all statuses but the two time limits (refuted)")
c("C30","proved",["C30_start_point_inside","C30_good_start_kept","C30_strictly_inside_double_refuted"],
  "exact arithmetic: nearest point with the required distance; in doubles the point may stay on a bound when bounds are a few ulps apart (witness)")
c("C31","proved",["C31_relaxed_lower","C31_relaxed_upper","C31_strictly_larger_refuted"],
  "binary64; strict enlargement fails for large bounds (witness)")
c("C32","proved",["C32_slacks_positive","C32_slacks_exact","C32_bounds_follow_slacks","C32_zero_move_refuted","C32_second_request_refuted"],
  "binary64 for positivity, exact arithmetic for the new bounds; slack_move=0 and a second request of the trial slacks refuted by witnesses")
c("C46","proved",["C46_final_point_in_bounds","C46_without_relaxation_refuted"],"binary64")
c("C47","proved",["C47_multipliers_clamped","C47_switched_off"],"exact arithmetic")
c("C33","proved",["C33_round_trips","C33_returned_values","C33_gradient_of_scaled_objective","C33_jacobian_of_scaled_constraints","C33_hessian_of_scaled_lagrangian","C33_transposed_products","C33_stationarity_transparent","C33_bounds_transparent","C33_negative_factor_bounds_refuted","C33_no_scaling_exact","C33_objective_factor","C33_objective_factor_with_target","C33_constraint_factors","C33_factors_in_doubles","C33_factor_zero_refuted","C33_user_factors"],
  "exact arithmetic except C33_no_scaling_exact and C33_factors_in_doubles (binary64); derivatives are true derivatives (derivable_pt_lim along every direction); equilibration scaling (MC19) not modelled")
c("C48","proved",["C48_dual_infeasibility","C48_constraint_violation","C48_complementarity"],"exact arithmetic, maximum norms")
c("C49","proved",["C49_start_round_trip","C49_start_bound_multipliers","C49_warm_start_residual","C49_bound_multipliers_squared","C49_warm_start_with_x_scaling_refuted"],"exact arithmetic; the claim holds without variable scaling and is refuted with it")
c("C34","proved",["C34_contents","C34_next_message","C34_produce_output","C34_others_alone","C34_set_all_levels_refuted","C34_names_differ","C34_get_journal","C34_add_journal","C34_print_level","C34_output_file","C34_output_file_level_refuted","C34_initialize_fails","C34_suppress_all_output"],"formatting of arguments not modelled; every journal has its own stream")
c("C50","proved",["C50_text_over_lines","C50_line_length","C50_nothing_lost","C50_one_character_lines_refuted"],"texts without NUL characters")
c("C35","proved",["C35_one_history","C35_stored_pairs","C35_products"],"exact arithmetic; LAPACK's Cholesky factorisation assumed correct (an instance is constructed and proved correct); approximation in the whole space, BFGS, regular phase")
c("C51","proved",["C51_bfgs_formula","C51_positive_definite","C51_secant","C51_skip_and_reset","C51_restoration_secant_refuted"],"exact arithmetic; restoration-phase variant refuted by a concrete two-pair history")
c("C52","proved",["C52_secant","C52_symmetric","C52_bounded","C52_uninitialised_backup_refuted","C52_reset_undone"],"exact arithmetic; LAPACK's eigenvalue computation assumed correct; backup taken as empty at the start")
c("C36","proved",["C36_create_iff_valid","C36_problem_is_a_value","C36_no_leak","C36_data_of_creation","C36_scaling_of_last_set","C36_starting_point_of_solve","C36_solve_starts_iff","C36_created_can_be_solved_refuted"],"memory with addresses, refinement to a pointer-free machine; option setters delegate to C08-C12; created-but-unsolvable problems exist (refuted)")
c("C53","proved",["C53_callbacks_see_the_point","C53_results_arrive","C53_current_iterate_available","C53_wrong_flag_refuted","C53_callback_writing_x_refuted"],"values are copied only, so any number type; needs right new_x flags (see C42) and callbacks that do not write x")
c("C54","proved",["C54_product","C54_transposed_product","C54_dimensions","C54_symmetric","C54_adjoint","C54_missing_empty_block_refuted"],"exact arithmetic; operand and target are different objects; DenseGenMatrix/DenseSymMatrix not included")
c("C55","proved",["C55_add_fused","C55_scaled_fused","C55_identity_factor_refuted","C55_wide_diagonal_refuted"],"exact arithmetic")
c("C56","proved",["C56_general","C56_symmetric","C56_in_place","C56_structure","C56_from_vector","C56_into_vector","C56_round_trip","C56_zero_factor","C56_convertible","C56_symmetric_inside_general_refuted"],"entry values in exact arithmetic; structure, segments and vector copies for every number type")
c("C57","proved",["C57_function_values","C57_derivatives","C57_primal_infeasibility","C57_original_bounds","C57_asking_changes_nothing"],"exact arithmetic; objects are identified by tags as in C03-C06; any order of questions, new iterates, mu changes, bound changes and dropped cache entries")
c("C58","proved",["C58_lagrangian_gradient","C58_dual_infeasibility","C58_new_mu_old_gradient","C58_mu_dependent_objective_refuted"],"exact arithmetic; mu-dependent objectives with changing mu are refuted")
c("C59","proved",["C59_slacks_and_barrier","C59_complementarity","C59_constraint_violation","C59_error_measures","C59_barrier_gradient_x","C59_barrier_gradient_s","C59_new_bounds_old_violation","C59_adjusted_bounds_violation_refuted"],"exact arithmetic; interior iterates and fixed bounds; moved bounds refuted")
c("C60","proved",["C60_primal_step","C60_dual_step","C60_slack_step","C60_step_stays_inside"],"exact arithmetic")
c("C61","proved",["C61_safe_slack","C61_safe_slack_bounds","C61_second_question_resets_count"],"exact arithmetic, positive multipliers (binary64 positivity: C32)")
c("C62","proved",["C62_adjusted_bounds_match","C62_accepted_point_inside","C62_asking_twice_refuted"],"exact arithmetic; the adjustment of the bounds in AcceptTrialPoint with the caches in front of the slacks")
c("C63","proved",["C63_any_answer","C63_exact_answer","C63_no_other_solution"],"exact arithmetic; nonzero slacks; linear solver and perturbation handler are arbitrary")
c("C64","proved",["C64_residual","C64_refinement_step","C64_exact_solver"],"exact arithmetic")
c("C65","proved",["C65_accuracy","C65_accuracy_guarantee_refuted","C65_alpha_zero_refuted"],"exact arithmetic; any solver whose answers have the right dimensions")
c("C66","proved",["C66_work","C66_terminates","C66_max_refinement_steps_refuted"],"termination of the perturbation loop itself is C15")
c("C67","proved",["C67_inertia_checked","C67_inertia_always_checked_refuted"],"the matrix is identified by the tags of its thirteen parts")
c("C68","proved",["C68_search_direction","C68_given_direction","C68_descent","C68_from_calculated_quantities"],"exact arithmetic and exact linear solver; interior iterates")
c("C69","proved",["C69_matrix_is_current","C69_rebuilt_iff_changed","C69_exact_linear_solver"],"exact arithmetic; equal tags mean equal values (C03-C06); first call has a Hessian")
c("C70","proved",["C70_least_squares_multipliers"],"exact arithmetic, exact linear solver")
c("C71","proved",["C71_least_squares_duals","C71_stationary_at_starting_point_refuted"],"exact arithmetic, exact linear solver")
c("C72","proved",["C72_least_squares_primals","C72_fits_linearised_constraints_from_zero","C72_linearised_refuted"],"exact arithmetic, exact linear solver; the documented meaning is refuted")
c("C73","proved",["C73_initial_multipliers"],"any linear solver; push and slacks are parameters here (C30, C32)")
c("C74","proved",["C74_solution","C74_no_other_solution","C74_D_d_refuted","C74_hessian_factor_refuted"],"exact arithmetic; D_d absent and W_factor 1 (or limited memory) as in the primal-dual system; refuted otherwise")
c("C75","proved",["C75_objective","C75_gradient","C75_constraints","C75_jacobians","C75_transposed","C75_hessian","C75_l1_penalty"],"exact arithmetic")
c("C76","proved",["C76_starting_point","C76_barrier_parameter","C76_optimal_start"],"exact arithmetic (in floating point n can cancel to 0)")
c("C77","proved",["C77_success","C77_failure_returns_iterate","C77_exceptions","C77_return_false","C77_square_refuted"],"the inner algorithm is an arbitrary result; time limits at the start left out")
c("C78","proved",["C78_mu_range","C78_fixed_mode","C78_mu_positive","C78_mu_bounded","C78_tau_range","C78_no_bounds","C78_free_mode","C78_switch_to_fixed","C78_user_mu_min_refuted","C78_fixed_mode_tau_refuted"],"exact arithmetic; problem quantities, oracle answers and pow are arbitrary functions (pow positive)")
c("C79","proved",["C79_mode_iff","C79_kkt_reduction","C79_kkt_geometric","C79_kkt_to_zero","C79_filter_progress","C79_never_monotone","C79_reset_on_change","C79_iterate","C79_defined","C79_tiny_step","C79_kkt_error_measures","C79_zero_red_iters_refuted"],"exact arithmetic")
c("C80","proved",["C80_golden_range","C80_golden_precision","C80_golden_best","C80_oracle_range","C80_mu_range_refuted","C80_not_worse_than_one_refuted","C80_wrong_end_value_refuted"],"exact arithmetic; the quality function is an arbitrary positive function of sigma")
c("C81","proved",["C81_loqo_range","C81_loqo_sigma","C81_loqo_monotone","C81_loqo_uniform"],"exact arithmetic")
c("C82","proved",["C82_affine_step","C82_affine_step_solver","C82_fails","C82_mu","C82_equal_steps","C82_full_step"],"exact arithmetic; the objective function does not depend on mu (not in the restoration phase)")
c("C83","proved",["C83_steps","C83_fails","C83_step_lengths","C83_quality","C83_quality_affine","C83_positive","C83_mu_range","C83_from_calculated_quantities","C83_nonlinear_infeasibility_refuted"],"exact arithmetic; the objective function does not depend on mu; values without damping terms (kappa_d = 0) and without perturbation of the system")
c("C84","proved",["C84_solutions_exact","C84_singular_matrix_again_refuted"],"relative to the contract `backend` of the sparse solver (met by the MA27 interface: C87); exact arithmetic; a matrix that was singular must not be given again with the same tag")
c("C85","proved",["C85_protocol","C85_refactorization_exactly_when_needed"],"relative to the contract `backend`")
c("C86","proved",["C86_slack_factors","C86_free_slack_refuted"],"exact arithmetic")
c("C87","proved",["C87_ma27_solutions_exact","C87_ma27_protocol","C87_increase_quality","C87_warm_start_after_exception_refuted"],"relative to the documented behaviour of ma27a, ma27b, ma27c (`kernel_ok`); exact arithmetic; ma27_ignore_singularity=no; no bad_alloc, no overflow of work space sizes")
c("C88","proved",["C88_info","C88_bounds","C88_scaling_linearity_start","C88_fortran_style_refuted","C88_fortran_count_refuted","C88_fortran_overflow_refuted","C88_duplicates_refuted","C88_retry_refuted"],"C style only: the Fortran style is refuted")
c("C89","proved",["C89_constraints","C89_jacobian_structure_defined","C89_jacobian","C89_hessian","C89_lagrangian"],"C style; Jacobian and Lagrangian over the reals")
c("C90","proved",["C90_finalize"],"C style; eval_g must not fail (its answer is not looked at)")
c("C91","proved",["C91_start_inside","C91_slacks_inside_entire","C91_slacks_inside","C91_start_nearest","C91_slacks_nearest_entire","C91_slacks_from_constraints","C91_options","C91_defaults_refuted"],"exact arithmetic; the documented defaults are refuted")
c("C92","proved",["C92_on_target","C92_on_target_slacks","C92_target_kept","C92_two_sided_refuted"],"exact arithmetic; one bound per variable: two bounds are refuted")
c("C93","proved",["C93_same_feasible_points","C93_well_formed","C93_final_multipliers","C93_solutions_kept","C93_warm_start_sign_refuted","C93_warm_start_others"],"exact arithmetic; the sign of the starting z_L is refuted")
c("C94","proved",["C94_scaling","C94_no_scaling","C94_accepted"],"exact arithmetic")
if __name__ == "__main__":
    print(json.dumps({"claims": C}, indent=1))
