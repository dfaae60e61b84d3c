{"claims": [
{"property": "C01", "status": "proved", "theorems": ["C01_degree_bounds"], "note": "Every tree, over any field, with the elementary functions and complex powers as oracles and the integer test of exponents idealised."},
{"property": "C02", "status": "partial", "theorems": ["C02_bounds_partial", "C02_attained_partial", "C02_exactness_refuted", "C02_certificate_refuted"], "note": "Upper bound for every polynomial tree; attained on homogeneous trees whose negations and powers mention one group variable. Equality is refuted by (x+y)^2, the certificate by -(1/x+y)."},
{"property": "C03", "status": "proved", "theorems": ["C03_undone_at_one", "C03_degrees_kept"], "note": "Every tree, group and point."},
{"property": "C04", "status": "partial", "theorems": ["C04_homogeneous_partial", "C04_refuted"], "note": "Proved when every negation and power mentions at most one group variable; refuted in general by -(x+y)+x."},
{"property": "C05", "status": "partial", "theorems": ["C05_sound_partial", "C05_refuted"], "note": "Proved when every negation and power mentions at most one group variable; refuted in general by -(x+y)+x*y."},
{"property": "C06", "status": "proved", "theorems": ["C06_differentiate_arithmetic", "C06_dual_division", "C06_derivative_not_float"], "note": "any field; specification by dual numbers"},
{"property": "C07", "status": "proved", "theorems": ["C07_differentiate_real"], "note": "real points of the open domain; general powers restricted as in C08"},
{"property": "C08", "status": "partial", "theorems": ["C08_power_partial", "C08_power_refuted"], "note": "proved when the exponent does not contain v and the base is not zero; refuted otherwise (2^x)"},
{"property": "C09", "status": "partial", "theorems": ["C09_simplify_preserves_partial", "C09_simplify_same_point", "C09_simplify_terminates", "C09_simplify_preserves_refuted", "C09_simplify_done", "C09_simplify_idempotent"], "note": "Value preserved at the point of simplification and at every point where the operands that were 0 or 1 still are; termination proved; the result is irreducible and simplifying again changes nothing; the general claim is refuted (x*y simplified while x holds 0)."},
{"property": "C10", "status": "proved", "theorems": ["C10_eval_current", "C10_evalJ_current", "C10_nodes_have_meaning"], "note": "shared graphs with caches, both number types, all histories; exact arithmetic, no precision changes"},
{"property": "C11", "status": "partial", "theorems": ["C11_homogenize_shared_partial", "C11_homogenize_shared_refuted"], "note": "proved when no sub-expression that homogenization changes is shared; refuted otherwise ((x+1)*(x+1) with x+1 shared)"},
{"property": "C12", "status": "partial", "theorems": ["C12_evaluates_product", "C12_degree_partial", "C12_group_degree_partial", "C12_homogenize_undone", "C12_homogenize_homogeneous", "C12_is_homogeneous_sound", "C12_derivative_partial", "C12_hom_variable_refuted", "C12_stored_derivative_refuted"], "note": "Evaluation, degree bounds, homogenization, homogeneity test and derivative proved for every variable of the product; refuted for the homogenizing variable (x+2h: derivative 1, degree 0) and for derivatives stored by Differentiate(v) (always 0)."},
{"property": "C13", "status": "partial", "theorems": ["C13_slp_agrees_partial", "C13_later_function_refuted", "C13_foreign_variable_refuted", "C13_jacobian_node_time_derivative_refuted", "C13_compiler_reuse_refuted"], "note": "proved for every compilable system (registered variables, no function used before its turn, one compiler per system, derivatives not taken with Jacobian nodes), all points and histories; refuted outside these conditions by four witnesses"},
{"property": "C14", "status": "partial", "theorems": ["C14_last_inputs_partial", "C14_one_number_type", "C14_two_number_types_refuted"], "note": "proved for all histories within one number type, and in both types unless the first evaluation since inputs were last set was in the other type; that case is refuted"},
{"property": "C15", "status": "proved", "theorems": ["C15_fifo_ordering", "C15_every_variable_once", "C15_cleared_variables_refuted"], "note": "all histories of adding, homogenizing, querying and copying structures; after ClearVariables the ordering is wrong (refuted by witnesses)"},
{"property": "C16", "status": "partial", "theorems": ["C16_dehomogenize_partial", "C16_affine_homogenized", "C16_group_sizes_refuted"], "note": "proved when the homogeneous groups have one size and, if not homogenized, the affine groups have one size; refuted otherwise (group counters are not advanced)"},
{"property": "C17", "status": "proved", "theorems": ["C17_rescaled_point_on_patch", "C17_on_patch_iff_eval_zero", "C17_rescale_defined_iff", "C17_rescale_fixes_patch_points", "C17_rescale_idempotent", "C17_rescale_invariant"], "note": "Over any field. Rescaling onto the patch, uniqueness, idempotence, invariance, exact failure condition."},
{"property": "C18", "status": "partial", "theorems": ["C18_jacobian_is_derivative", "C18_eval_in_place", "C18_eval_frame", "C18_eval_too_short_throws", "C18_jacobian_frame", "C18_jacobian_in_place_zeroed_partial", "C18_jacobian_in_place_single_partial", "C18_jacobian_in_place_refuted"], "note": "Jacobian() is the derivative of Eval(), frames proved. In place with several groups the off-block entries keep previous content: refuted with a witness."},
{"property": "C19", "status": "partial", "theorems": ["C19_consistent_without_copy_partial", "C19_value_without_copy_partial", "C19_highest_unchanged", "C19_raising_recovers_digits", "C19_change_makes_consistent", "C19_copy_refuted", "C19_copy_not_repaired_refuted"], "note": "Invariant proved for all histories without copy construction; a copy-constructed patch is refuted with a witness."},
{"property": "C20", "status": "proved", "theorems": ["C20_in_range_gives_its_cell", "C20_injective", "C20_onto", "C20_out_of_range_throws", "C20_overflow_refuted"], "note": "Bijection for products below 2^64; the overflow case is refuted with a witness."},
{"property": "C21", "status": "proved", "theorems": ["C21_num_start_points", "C21_start_points_are_zeros", "C21_start_points_distinct", "C21_start_points_complete", "C21_patched_start_points_are_zeros", "C21_patched_start_points_distinct", "C21_ungrouped_refuted", "C21_unpatched_homogenized_refuted", "C21_count_overflow_refuted"], "note": "For plain targets over the complex numbers: zeros, distinct, complete, patched variant. Targets with ungrouped variables, unpatched homogenized targets and 64-bit overflow are refuted with witnesses."},
{"property": "C22", "status": "proved", "theorems": ["C22_enumerates_exactly_the_valid_partitions", "C22_groups_used_exactly", "C22_number_is_sum_of_products"], "note": "Termination and exact enumeration of the backtracking search, for every degree matrix and group sizes; sum of products in 64-bit arithmetic."},
{"property": "C23", "status": "proved", "theorems": ["C23_in_range_selects", "C23_each_choice_once", "C23_out_of_range_throws", "C23_large_count_refuted"], "note": "Bijection for fewer than 2^31 start points; beyond that the int counter is refuted with a witness."},
{"property": "C24", "status": "proved", "theorems": ["C24_times_on_segment_fixed", "C24_times_on_segment_amp", "C24_success_at_end_fixed", "C24_success_at_end_amp"], "note": "Times and step sizes in exact arithmetic; predictor, corrector and divergence test are arbitrary functions of the round. Fixed and adaptive precision trackers."},
{"property": "C25", "status": "proved", "theorems": ["C25_terminates", "C25_terminates_carried", "C25_step_not_far_below_minimum", "C25_any_settings_refuted"], "note": "Uniform bound on the number of rounds. Settings outside the stated range refuted (failure factor 1; minimum step 0)."},
{"property": "C26", "status": "partial", "theorems": ["C26_grows_after_successes_amp_partial", "C26_growth_earned_amp_partial", "C26_shrinks_after_failure_amp_partial", "C26_maximum_amp_partial", "C26_maximum_amp_refuted", "C26_shrinks_amp_refuted", "C26_fixed_shrinks_partial", "C26_fixed_grows_refuted"], "note": "Fixed precision tracker never increases the step size (refuted). Adaptive precision: growth, shrinking and maximum proved with the exceptions the theorems list; unrestricted maximum and shrinking refuted."},
{"property": "C27", "status": "proved", "theorems": ["C27_terminates", "C27_cap", "C27_zero_factor_refuted"], "note": "Failure factor 0 shown to hang. Numerics arbitrary."},
{"property": "C28", "status": "partial", "theorems": ["C28_cheapest", "C28_step_within_maximum", "C28_precision_within_bounds_partial", "C28_precision_within_bounds_refuted", "C28_lowest_precision_wins", "C28_feasible_refuted"], "note": "Cheapest among the candidates the code tests; bounds proved for rounded bounds, refuted in general; feasibility with respect to criterion B refuted (see C29)."},
{"property": "C29", "status": "partial", "theorems": ["C29_enough_precision_partial", "C29_never_below_one", "C29_criterion_B_refuted", "C29_too_little_precision"], "note": "Proved when the precision suffices (rounded down to a power of ten); refuted when it does not: unsigned wraparound makes the answer at least 1."},
{"property": "C30", "status": "proved", "theorems": ["C30_success_means_converged", "C30_at_most_max", "C30_convergence_is_reported", "C30_minimum_zero_never_succeeds", "C30_possible_codes"], "note": "Linear solver, norm and precision criteria arbitrary. min_num_iterations = 0 shown never to succeed."},
{"property": "C31", "status": "partial", "theorems": ["C31_order", "C31_solution_exists", "C31_tree_conditions", "C31_quadrature", "C31_estimate_partial", "C31_estimate_refuted", "C31_selectable_refuted", "C31_codes"], "note": "order proved for every selectable predictor and every right-hand side as a formal power series in the step; estimator order proved except for HeunEuler, where it is refuted; Heun and RKNorsett34 cannot be selected (refuted)"},
{"property": "C32", "status": "partial", "theorems": ["C32_degree_two_partial", "C32_cubic_refuted", "C32_cubic_error_partial"], "note": "proved for degree at most 2 (1 with one sample); refuted for every cubic with two or more samples"},
{"property": "C33", "status": "proved", "theorems": ["C33_mean_exact", "C33_first_mean_exact", "C33_degree_sharp"], "note": "every path polynomial in the c-th root, c, n, target; the degree bound is sharp"},
{"property": "C34", "status": "partial", "theorems": ["C34_bookkeeping_partial", "C34_sample_count", "C34_maximum_refuted"], "note": "size check never throws, no undefined access, for every history; cycle number proved at most maximum+1, and the maximum itself is exceeded (refuted by a run)"},
{"property": "C35", "status": "partial", "theorems": ["C35_cauchy_geometric", "C35_cauchy_stops", "C35_initial_times", "C35_power_series_geometric_partial", "C35_power_series_stops_partial", "C35_power_series_target_refuted", "C35_power_series_endless_refuted"], "note": "Cauchy endgame: geometric and stops, every target and factor; power series endgame and initial samples proved for target 0 or factor 1/2, refuted otherwise (a run that never ends)"},
{"property": "C36", "status": "partial", "theorems": ["C36_minimises", "C36_candidates", "C36_bound_is_lower_bound_refuted", "C36_maximum_refuted"], "note": "argmin of the candidates proved; max_cycle_number is not an upper bound (refuted: it is a lower bound, and a run reports more)"},
{"property": "C37", "status": "partial", "theorems": ["C37_power_series", "C37_cauchy_level_zero_never_refuted", "C37_cauchy_positive_level_partial", "C37_cauchy_levels_refuted", "C37_cauchy_undefined_refuted"], "note": "power series endgame proved; Cauchy endgame refuted: levels exchanged, undefined comparison over doubles at level 1"},
{"property": "C38", "status": "partial", "theorems": ["C38_returns", "C38_reports", "C38_later_checks_refuted", "C38_resolved_refuted", "C38_distance_refuted"], "note": "first check exact; later checks after a failure always fail (refuted); relative distance asymmetric and blind at the origin (refuted)"},
{"property": "C39", "status": "partial", "theorems": ["C39_runs_partial", "C39_distinct_starts_refuted"], "note": "all tracker runs of a Solve characterised; with distinct start points nothing is ever re-run (refuted)"},
{"property": "C40", "status": "partial", "theorems": ["C40_first_solve", "C40_later_solves_partial", "C40_later_solves_refuted"], "note": "first Solve proved in full; later calls keep stale endgame results (refuted)"},
{"property": "C41", "status": "partial", "theorems": ["C41_multiplicity_partial", "C41_first_solve", "C41_repeated_refuted"], "note": "first Solve proved in full; repeated calls accumulate (refuted)"},
{"property": "C42", "status": "partial", "theorems": ["C42_registered", "C42_delivery_partial", "C42_reentrant_refuted", "C42_recorder_refuted", "C42_recorder_partial", "C42_self_removal_in_practice_refuted"], "note": "registration proved for all histories; delivery proved for observers that do not change the list; self-removal during notification is undefined (refuted)"},
{"property": "C43", "status": "partial", "theorems": ["C43_purge_partial", "C43_referenced_kept", "C43_size_refuted", "C43_unreferenced_kept_refuted", "C43_make_refuted"], "note": "referenced objects are kept; the pool never shrinks and unreferenced objects may stay (refuted)"},
{"property": "C44", "status": "partial", "theorems": ["C44_parse_total", "C44_usual_partial", "C44_minus_takes_all", "C44_leading_minus_refuted", "C44_negative_base_refuted", "C44_blank_refuted", "C44_power_chain", "C44_print_parse_partial", "C44_print_parse_refuted"], "note": "ordinary notation without a leading minus sign before several terms, and printing restricted to readable trees, proved; -x+y, -2^2 and several printed forms are read as other functions (refuted)"},
{"property": "C45", "status": "partial", "theorems": ["C45_accepted_iff_partial", "C45_accepted_sound", "C45_declaration_partial", "C45_fresh_name_refuted", "C45_first_letter_refuted"], "note": "exact characterisation and declaration lists proved; names extending a declared name or a predefined symbol are rejected (refuted)"},
{"property": "C46", "status": "proved", "theorems": ["C46_strip_lines", "C46_strip_visible", "C46_no_percent", "C46_white_space_refuted"], "note": "exact line by line result for every text"},
{"property": "C47", "status": "partial", "theorems": ["C47_concatenate", "C47_sum_partial", "C47_product_partial", "C47_sum_changes_operand_refuted", "C47_product_changes_operand_refuted", "C47_concatenate_patched_refuted"], "note": "Concatenate fully, values of a+b and n*a and the second operand proved in every world reached by a careful history; that the first operand keeps its values is refuted (function objects are shared)"},
{"property": "C48", "status": "partial", "theorems": ["C48_copies_partial", "C48_move_assignment", "C48_swap_partial", "C48_copy_after_evaluation_refuted", "C48_swap_after_evaluation_refuted"], "note": "move assignment proved; copies, move construction and swaps proved for systems not differentiated since their last change; refuted after an evaluation"},
{"property": "C49", "status": "partial", "theorems": ["C49_methods_partial", "C49_trees_after_program_refuted", "C49_program_after_trees_refuted", "C49_derivative_method_refuted", "C49_trees_multiprecision_refuted"], "note": "proved for all histories in which methods are chosen before differentiation; refuted otherwise by four witnesses"},
{"property": "C50", "status": "partial", "theorems": ["C50_current_derivatives_partial", "C50_plus_assign_refuted", "C50_times_assign_refuted", "C50_reorder_refuted", "C50_set_root_refuted"], "note": "proved for all careful histories; refuted for +=, *=, reordering and changed function objects after an evaluation"},
{"property": "C51", "status": "partial", "theorems": ["C51_affine_unhomogenized_partial", "C51_homogenized_refuted", "C51_group_order_refuted"], "note": "Proved for affine groups, not homogenized. Refuted for homogenized targets and when an affine group precedes a homogeneous one."},
{"property": "C52", "status": "partial", "theorems": ["C52_start_points_are_zeros_partial", "C52_all_zeros_are_found_partial", "C52_start_point_partial", "C52_each_zero_once_partial", "C52_first_group_of_one_variable_refuted", "C52_homogenized_refuted", "C52_projective_patched_refuted", "C52_projective_refuted"], "note": "For affine groups, not homogenized, first group of at least two variables: StartPoint(index) is computed by the model from the enumeration to the elimination, is a zero of the start system, and for coefficients in general position each zero is StartPoint(index) for exactly one index. The rest is refuted: a first group of one variable reads out of range, a homogenized target gives points without the homogenizing coordinates, projective groups give a system which is not square (patched) or coordinates which are all zero (not patched)."},
{"property": "C53", "status": "partial", "theorems": ["C53_patch_follows_groups_partial", "C53_ungrouped_first_refuted"], "note": "proved when no group follows an ungrouped variable; refuted otherwise"},
{"property": "C54", "status": "proved", "theorems": ["C54_differentials_agree", "C54_derivative"], "note": "all trees, variables and points"},
{"property": "C55", "status": "proved", "theorems": ["C55_homotopy", "C55_target_kept_refuted"], "note": "the homotopy has the right values and derivatives; the target system itself is changed (refuted by a witness)"},
{"property": "C56", "status": "partial", "theorems": ["C56_series_exact_partial", "C56_cubic_partial", "C56_cubic_refuted"], "note": "proved for degree at most 2 in the root; the exact error of cubics and a refutation on x = t^3 (Hermite defect, C32); not stated in general for degree 4 and more"},
{"property": "C57", "status": "partial", "theorems": ["C57_decimal_accepted", "C57_accepted_iff_partial", "C57_two_signs_refuted", "C57_rational_refuted"], "note": "exact language proved; whole numbers with two minus signs are accepted and fractions are not (refuted)"},
{"property": "C58", "status": "partial", "theorems": ["C58_all_markers", "C58_open_end", "C58_no_input_marker", "C58_only_first_end", "C58_no_first_end", "C58_no_ends", "C58_input_only", "C58_only_end", "C58_bare_partial", "C58_bare_refuted", "C58_pieces_in_order", "C58_config_independent", "C58_unreadable", "C58_marker_in_word_refuted", "C58_trailing_end_refuted"], "note": "all layouts proved; files with neither CONFIG nor END; come out doubled if the parser keeps characters of failed alternatives, and markers are found inside words (refuted)"},
{"property": "C59", "status": "partial", "theorems": ["C59_settings_read", "C59_twice_is_error", "C59_only_settings", "C59_value_plain", "C59_path_variable_refuted", "C59_path_variable_partial", "C59_fraction_refuted", "C59_members", "C59_newton_read", "C59_newton_name_refuted", "C59_choice_default", "C59_choice_read", "C59_choice_twice", "C59_alternatives", "C59_choice_names", "C59_unknown_choice_partial", "C59_unknown_choice_refuted", "C59_name_in_name_refuted"], "note": "14 structures, NewtonConfig and 3 choices; names are found inside longer names, the name of the path variable is preceded by skipped text, fractions are refused, an unknown type of precision can give the default silently (all refuted)"},
{"property": "C60", "status": "partial", "theorems": ["C60_program_partial", "C60_scoped", "C60_total", "C60_recursion_refuted", "C60_undefined_refuted", "C60_glued_keyword_refuted"], "note": "acceptance is proved for texts in which no name starts with an earlier name; recursive, missing and repeated definitions are accepted and the white space after a keyword is optional (refuted)"},
{"property": "C61", "status": "partial", "theorems": ["C61_formula", "C61_others_unchanged", "C61_defined", "C61_overflow_refuted", "C61_factor", "C61_denotes", "C61_factor_shared_refuted", "C61_factor_stale_refuted", "C61_factor_self_refuted"], "note": "refuted: the sum of the exponents of two combined powers can overflow int; *= on a product also changes the functions built from it, leaves values computed before in place, and p *= p makes the tree infinite. Proved with the exponents bounded and the operand not built from the product."},
{"property": "C62", "status": "proved", "theorems": ["C62_power", "C62_least_power_refuted", "C62_zero_base"], "note": "exact arithmetic; the least int overflows (refuted)"},
{"property": "C63", "status": "proved", "theorems": ["C63_success_iff", "C63_small_iff", "C63_success_solvable", "C63_scaling_refuted", "C63_conditioning_refuted"], "note": "exact arithmetic; the test is not scale invariant and does not bound the condition number (refuted)"},
{"property": "C64", "status": "proved", "theorems": ["C64_counters_fixed", "C64_counters_amp", "C64_unsolvable_raises", "C64_criterion_raises", "C64_lowering", "C64_start_point"], "note": "for start precision 16 or a multiple of ten from 20 on where precision changes are described; exact arithmetic"},
{"property": "C65", "status": "partial", "theorems": ["C65_digits", "C65_interval", "C65_real", "C65_real_default", "C65_complex", "C65_complex_digits", "C65_unit_double", "C65_unit_partial", "C65_unit_digits_partial", "C65_unit_refuted", "C65_default_precision_refuted"], "note": "units in multiple precision have the square root of the modulus drawn (refuted); the default precision is not restored when out_of_range is thrown (refuted); complex numbers and units of a given number of digits stay in the first quadrant"},
{"property": "C66", "status": "partial", "theorems": ["C66_eval", "C66_jacobian", "C66_digits", "C66_precision_partial", "C66_precision_refuted", "C66_orthogonal", "C66_archive_refuted", "C66_archive_refuted_case", "C66_homogeneous_refuted", "C66_points", "C66_get_point", "C66_get_point_refuted", "C66_consistent"], "note": "Evaluation, Jacobian, digits, orthogonal shape, points and consistency are proved in general. Refuted: the reported precision (coefficients keep the precision of generation after construction and after raising), the archive (constants, dimension and homogeneity are not written), making a homogeneous slice with assertions on, GetPoint at index = Degree. Not modelled: the QR factorisation itself, printing."},
{"property": "C67", "status": "partial", "theorems": ["C67_uniform_partial", "C67_uniform3_partial", "C67_fixed", "C67_empty", "C67_hidden_refuted", "C67_digits_refuted", "C67_times_refuted"], "note": "Proved when each sample has coordinates of one precision (and, with derivatives, when the times are at the default precision or some coordinate is not). Refuted otherwise: only the first coordinate of a sample is looked at, so a later one keeps its precision or loses digits; the version with derivatives does not look at the times. An empty sample throws."},
{"property": "C68", "status": "partial", "theorems": ["C68_max_covers", "C68_max_partial", "C68_max_exact", "C68_max_start_refuted", "C68_max_leak_refuted", "C68_changed_exact", "C68_changed_leak_refuted", "C68_uninitialised_refuted", "C68_time_before", "C68_time_during_partial", "C68_first_rise", "C68_start_refuted", "C68_extremes", "C68_accumulator"], "note": "No tracker emits TrackingStarted, so the recorders are never reset. Proved: what is recorded exactly, that the largest precision covers every change on the path, the time of a rise before the endgame, the accumulator. Refuted: the start precision is missed (0 recorded), an earlier path's precision, flag and time are put down to later paths, the flag of the first path is uninitialised memory, the start precision of the recorder is never written."},
{"property": "C69", "status": "partial", "theorems": ["C69_real_partial", "C69_complex_partial", "C69_read_only", "C69_exponent_refuted", "C69_complex_exponent_refuted", "C69_other_refuted"], "note": "Proved for decimal literals whose exponent, if any, has no plus sign. Refuted for every number whose exponent is written with a plus sign (as Boost does for large numbers) and for nan and inf. Whole numbers with two minus signs are accepted. The value of a text, hardware doubles and the karma/qi number primitives are not modelled."},
{"property": "C70", "status": "partial", "theorems": ["C70_given", "C70_converted", "C70_range", "C70_restore_refuted", "C70_restore_partial", "C70_restore_mp_refuted", "C70_precision_refuted"], "note": "Order, conversion and range are proved. Restoring is refuted: one of the two saved lists is never read, so restoring fails, and points given in multiple precision are not among what is read. Multiprecision points keep the precision they were given with, not the default one."},
{"property": "C71", "status": "partial", "theorems": ["C71_uniform", "C71_value", "C71_program_constants", "C71_no_reset_refuted", "C71_default_refuted", "C71_skipped_refuted", "C71_program_refuted", "C71_linear_product_refuted", "C71_linear_product_undefined_refuted"], "note": "Proved for function trees under the trackers' order of calls and for straight line programs when the number nodes are up to date. Refuted without a reset, when the default precision is not changed first, when a function was evaluated in between (its setter then does nothing), for straight line programs asked first, and for products of linears, whose coefficients never change and whose setter is undefined for multiprecision coefficients."},
{"property": "C72", "status": "partial", "theorems": ["C72_ready_partial", "C72_order", "C72_ready_refuted", "C72_norsett_refuted", "C72_codes", "C72_condition_partial", "C72_condition_refuted", "C72_constant_partial", "C72_constant_refuted"], "note": "Ready for all histories of methods with a table; refuted for Heun and RKNorsett34, whose selection throws after the method and order were already replaced (the settings parser maps odepredictor 1, 3 and 4 to these). Return codes proved in full. Condition number: SetNormsCond takes the step counter by value, so it is re-estimated at every prediction or never, refuted against the documented frequency. Constant predictor: returns the point on success; refuted in general since it still factors the Jacobian."},
{"property": "C73", "status": "partial", "theorems": ["C73_criteria", "C73_more_digits", "C73_required_partial", "C73_required_refuted", "C73_stepsize", "C73_stepsize_tight", "C73_config_partial", "C73_nonpolynomial_refuted", "C73_user_bounds_refuted", "C73_coefficients_partial", "C73_coefficients_refuted"], "note": "Criteria, monotonicity and step size digits proved in full. Refuted: the required precision itself (the fraction is dropped while the criteria are strict, so a criterion that determines the precision is violated with it; one more digit suffices, proved); criterion C for systems without polynomials (Psi negative, NaN); epsilon, Phi and Psi unset in a default configuration and not affected by the user's coefficient and degree bounds; CoefficientBound below a coefficient. Exact real arithmetic with infinities and NaN instead of rounding."},
{"property": "C74", "status": "partial", "theorems": ["C74_nonsingular_partial", "C74_nonsingular_refuted", "C74_all_partial", "C74_all_refuted", "C74_files"], "note": "One call of Solve: proved for the nonsingular solutions and the files. Refuted for repeated calls (multiplicities accumulate) and for all solutions when a path fails before the endgame (the empty end point makes DehomogenizePoint throw)."},
{"property": "C75", "status": "partial", "theorems": ["C75_as_wished_partial", "C75_copy_refuted", "C75_copy_system_refuted", "C75_threshold_refuted", "C75_setup_refuted", "C75_digits_partial", "C75_digits_refuted"], "note": "Proved for histories in which method and system are changed only of trackers without other copies, with methods that have a table and positive tolerances in Setup. Refuted in general: copies share predictor and corrector; Setup accepts thresholds that are not positive and changes the predictor before it throws for a bad tolerance; the digits of tolerances of 10 and more are undefined."},
{"property": "C76", "status": "partial", "theorems": ["C76_settings_partial", "C76_unused_refuted", "C76_late_refuted", "C76_late_witness", "C76_setup_again", "C76_choice_partial", "C76_user_partial", "C76_endgame_refuted", "C76_consistent"], "note": "Proved for most settings. Refuted: the final tolerance and the thresholds for real and finite solutions are never used; the truncation threshold and the path variable name have no effect after construction unless tracker and systems are set up again, which resets the tracker's other settings; asking for the power series endgame makes a solver with the Cauchy endgame."},
{"property": "C77", "status": "partial", "theorems": ["C77_homogenize_partial", "C77_accepted_partial", "C77_powers_partial", "C77_again_refuted", "C77_ungrouped_refuted", "C77_natural_refuted", "C77_multidegree_partial", "C77_multidegree_refuted"], "note": "Proved for functions with positive integers as exponents whose negated parts and bases of powers mention one variable of a group or are products; acceptance and idempotence when they are products. Refuted in general: IsHomogeneous rejects the homogenization of -(x^2+x)+x^2 and homogenizing again makes it inhomogeneous; IsPolynomial ignores ungrouped variables; IsHomogeneous rejects homogeneous systems without homogenizing variables; MultiDegree of x/y is (1,1)."},
{"property": "C78", "status": "partial", "theorems": ["C78_evaluates_partial", "C78_checked", "C78_precision_reaches", "C78_evaluation_keeps", "C78_without_default_refuted", "C78_shared_refuted", "C78_uniform_refuted", "C78_added_refuted", "C78_method_refuted", "C78_assume_refuted", "C78_no_variables_refuted"], "note": "Proved for histories in which nothing is left between setting the evaluation method or copying, and adding to the system. Refuted in general: precision(p) without the default precision leaves a program of another precision and evaluation throws; a system sharing a variable is spoiled by precision changes of another; only first coordinate and first variable are compared when a program is used; SetEvalMethod on a system in use and copying leave it without program; PleaseAssumeUniformPrecision does nothing; a system without variables can not be evaluated."},
{"property": "C79", "status": "partial", "theorems": ["C79_round_trip_partial", "C79_values_partial", "C79_saves", "C79_nodes_partial", "C79_logarithm_refuted", "C79_derivative_refuted", "C79_differential_refuted", "C79_linear_product_refuted", "C79_total_degree", "C79_multihomogeneous_refuted"], "note": "Proved for every system none of whose nodes is a differential or a linear product: the loaded system is isomorphic to the one saved, sharing included, and evaluates alike. False in general: a loaded differential has lost its variable and evaluates to 0 for every variable; a loaded linear product has no variables; a loaded multihomogeneous start system has no start points; saving a pointer to a logarithm as the first node throws."},
{"property": "C80", "status": "partial", "theorems": ["C80_uniform_precision", "C80_set_precision", "C80_empty_precision_refuted", "C80_close", "C80_close_real", "C80_kahan", "C80_archive_partial", "C80_archive_refuted", "C80_maxima"], "note": "Proved in exact arithmetic. False in general: the precision of an empty matrix is documented to be the default but asking for it throws; a matrix stored by rows is written by columns and read back into its storage, so its entries are permuted."},
{"property": "C81", "status": "partial", "theorems": ["C81_uniform", "C81_limits", "C81_point", "C81_solution", "C81_end_time_partial", "C81_end_time_refuted", "C81_preserve_refuted", "C81_times_refuted", "C81_refine_refuted"], "note": "Proved, with what predictor, corrector and step size control compute left arbitrary, except for the end time and two documented claims. False: the end time is cut to the precision of the start point and stays so when the precision rises (endtime_highest_precision_ is not); the solution is not returned at the initial precision when precision is preserved; converting to double leaves the precision of the time and delta_t; a request above 1000 digits fails an assertion; Refine at another precision on a tracker that has not tracked fails an assertion."},
{"property": "C82", "status": "partial", "theorems": ["C82_defined", "C82_eval_at_partial", "C82_mp_refuted", "C82_jacobian_at", "C82_time_at", "C82_here_partial", "C82_here_refuted", "C82_throws_partial", "C82_throws_refuted", "C82_vector_partial", "C82_vector_refuted"], "note": "Evaluation through function trees at a given point is proved for all histories; the functions in multiple precision only if they were evaluated in double precision before, since otherwise a missing break runs an empty straight-line program, which is undefined (C82_mp_refuted). Eval() etc. are proved after SetAndReset. False: after Eval(x0,t0) and Jacobian(x1,t1), Eval() returns the functions at x0, t0 and the patch at x1; TimeDerivative and SetAndReset of a system without path variable throw after the variables were set; TimeDerivativeInPlace lets a vector pass which is too short for a patched system and writes after its end."},
{"property": "C83", "status": "partial", "theorems": ["C83_zone_partial", "C83_newest_refuted", "C83_ratio_partial", "C83_cutoff_refuted", "C83_estimate_partial", "C83_estimate_refuted", "C83_constant_refuted"], "note": "Proved for the estimates before the newest one: the newest is never compared (C83_newest_refuted). The ratio cutoff time is compared with the squared distance (C83_cutoff_refuted). The estimate is exact for samples whose times are multiplied by the sample factor, but the endgame multiplies them by one minus the factor, so it is exact only for factor 1/2 (C83_estimate_refuted), and it is not a number on a constant path (C83_constant_refuted). Exact arithmetic; the tracker is arbitrary."},
{"property": "C84", "status": "proved", "theorems": ["C84_unpermute", "C84_any_order", "C84_get", "C84_foreign"], "note": "types are elements of a type with decidable equality, rejection by the compiler is None"},
{"property": "C85", "status": "partial", "theorems": ["C85_sample", "C85_defined_partial", "C85_defined_refuted", "C85_maximum_refuted", "C85_retry_partial", "C85_retry_refuted", "C85_all", "C85_failure", "C85_tracker_refuted", "C85_fixed_refuted", "C85_ignored_refuted"], "note": "Adaptive precision: success is honest, precisions agree, failures are reported (proved for any behaviour of Newton's method). False: with fixed precision trackers success is always reported; both endgames ignore the code (a whole run of the Cauchy endgame in which no refinement succeeds); the second attempt starts where the first has failed since the sample was overwritten; the maximum precision is not respected and beyond 990 digits an assertion fails; the tracker can be left in a lower precision than the system."},
{"property": "C86", "status": "partial", "theorems": ["C86_terminates", "C86_values_partial", "C86_parameters_refuted", "C86_restored", "C86_derivatives", "C86_derivatives_before_partial", "C86_functions_stale_refuted", "C86_functions_after_reset", "C86_functions_untouched", "C86_jacobian_untouched", "C86_unnested"], "note": "Proved: it ends on every acyclic graph; values at all points with the same parameters are kept if the random numbers are not unlucky (what is 0 or 1 there is so everywhere); variables are restored; derivatives evaluate right next; functions do after a reset; SimplifyFunctions and the simplification of Jacobian nodes change nothing; no sum is left in a sum and no product in a product. False: implicit parameters and variables in no group are not randomised, so terms whose parameter happens to be 0 are lost for good; function nodes keep values computed at the random point."},
{"property": "C87", "status": "partial", "theorems": ["C87_griewank_osborn", "C87_griewank_osborn_origin", "C87_griewank_osborn_infinity", "C87_crossed_paths", "C87_crossings_partial", "C87_crossings_refuted", "C87_sphere"], "note": "Proved, the multiplicity as equality of ideals with (x^3, y - x^2). The crossing times hold for the homotopy to x^3-1, y^2-1 without gamma only; for the homotopy the solver makes they would need gamma r = 1 (refuted)."},
{"property": "C88", "status": "partial", "theorems": ["C88_degree_bounds", "C88_homogeneous", "C88_homogeneous_quotient", "C88_forms_recognised", "C88_attained", "C88_below_group", "C88_start_accepts", "C88_start_partial", "C88_quotient_refuted", "C88_parameter_refuted"], "note": "Degree and IsHomogeneous proved in full for one variable and for all; forms written as sums of products are recognised. The start system is proved for targets polynomial in every variable. Refuted with a parameter: Degree() counts parameters as variables, so x - p^2 gets degree 2, and x/p - 1, for which Degree() is -1, gets degree 2^64 - 1 after the conversion to size_t."},
{"property": "C89", "status": "partial", "theorems": ["C89_set_up_partial", "C89_number_partial", "C89_starts_partial", "C89_all_starts_partial", "C89_ends_partial", "C89_every_solution_partial", "C89_homogeneous_partial", "C89_powers_partial", "C89_power_refuted", "C89_throws_refuted"], "note": "The theorems about the points hold for every target accepted whose functions have sums below a minus sign or a power in one variable only (predicate ready); acceptance is proved for functions without such sums. Refuted for others: of (x+y)^2 - 1, x - y the solver makes (x+y)^2 - h^4 and gets finite endpoints which are no solutions; for -(x^2+x)+x^2 it throws."},
{"property": "C90", "status": "partial", "theorems": ["C90_values_partial", "C90_accepted_partial", "C90_execute_partial", "C90_circle", "C90_circle_refuted", "C90_redefined_refuted"], "note": "Proved for definitions which are not circular and not missing. Refuted otherwise: a function defined by itself, two functions defined by each other and a function without definition are accepted, and following the definitions never ends or meets a null pointer. f = 1; g = f; f = 2 makes g the value 2."},
{"property": "C91", "status": "partial", "theorems": ["C91_convert_partial", "C91_total", "C91_lines_refuted"], "note": "Proved if no value is empty and every line has a colon. Refuted otherwise: a setting without value swallows the next line, and a line without colon becomes part of the next name."},
{"property": "C92", "status": "partial", "theorems": ["C92_set_up_partial", "C92_number_partial", "C92_starts_partial", "C92_ends_partial", "C92_every_solution_partial", "C92_square_refuted", "C92_throws_refuted"], "note": "Proved for right hand sides in which a minus sign in front and powers apply to products of powers only, division is by integers and exponents are positive integers (predicate square_text). Refuted for f=(x+y)^2-1; g=x-y: the text is accepted, and the homotopy has a finite zero at t=0 which is no solution. For f=(x-1)^2-4 the set-up throws. The tracking of the paths is not part of this property."},
{"property": "C93", "status": "proved", "theorems": ["C93_linear_paths_tracked", "C93_linear_paths_to_zero", "C93_corrector_finds_the_solution"], "note": "Exact arithmetic; the linear solver's check of the decomposition is assumed to accept the matrices of the segment. Patches are not treated separately (a patch is one more linear function)."},
{"property": "C94", "status": "proved", "theorems": ["C94_rows", "C94_linear_targets_solved", "C94_linear_texts_solved"], "note": "Exact arithmetic. Without the endgame: the tracker is run to the time 0, where the solver stops before and lets the endgame take over. That the homotopy determines the point at each time is a hypothesis on the random numbers, shown for three examples. Texts written with powers (x^1) are not treated."},
{"property": "C95", "status": "proved", "theorems": ["C95_directions", "C95_solution_found", "C95_text_solution_found", "C95_a_direction_must_be_left_out", "C95_directions_remain"], "note": "Exact arithmetic and linear targets only; the solver's check of the decomposition is taken to accept every matrix. C95_a_direction_must_be_left_out shows that the exclusion is needed: x - 1 with gamma = -1 is singular on the way."},
{"property": "C96", "status": "partial", "theorems": ["C96_raw_unambiguous", "C96_main_unambiguous", "C96_raw_places", "C96_main_places", "C96_coordinates_read_partial", "C96_unstarted_missing_refuted"], "note": "Unambiguity and places are proved in full, for paths of any outcome. Reading coordinates back needs exponents without a plus sign, as in C69. Paths which did not reach the endgame leave no trace in either file (C96_unstarted_missing_refuted). How the stream writes a single double or integer is left arbitrary."},
{"property": "C97", "status": "partial", "theorems": ["C97_events", "C97_ended_once", "C97_truthful", "C97_path_recorded_partial", "C97_truncated_refuted", "C97_glued"], "note": "Proved for the fixed precision tracker; those of the adaptive precision tracker are the subject of C98. A truncated path ends at a point that no successful step announced, with the time of the point before (C97_truncated_refuted), so agreement of the last point is proved for the other paths (C97_path_recorded_partial). While Initializing is told the tracker still answers with the state left by an earlier path. Observers do not change the tracker."},
{"property": "C98", "status": "partial", "theorems": ["C98_events", "C98_precision_known", "C98_truthful", "C98_path_recorded_partial", "C98_between_paths_refuted"], "note": "Order, truth and knowledge of the precision on one path are proved in full. From one path to the next the precision changes without an event (C98_between_paths_refuted). The last recorded point agrees with the tracker's for paths which are not truncated (C98_path_recorded_partial; see C97_truncated_refuted). Nothing is said about the path when the tracker hangs (C27). Observers do not change the tracker."},
{"property": "C99", "status": "proved", "theorems": ["C99_same_answer", "C99_events", "C99_reasons", "C99_counts"], "note": "Fixed precision: PrecisionChanged, told by the refinement in adaptive precision, is not modelled, nor are the events of the Cauchy endgame. InEGOperatingZone is told at every turn of the loop, not once, and Initializing is never told. The first approximation is not told. Observers do not change the endgame."}
]}
