{
 "claims": [
  {
   "property": "C01",
   "status": "proved",
   "theorems": [
    "C01_overlapping_blocks_refuted",
    "C01_shorter_block_refuted",
    "C01_plus_elementwise",
    "C01_minus_elementwise",
    "C01_times_elementwise",
    "C01_views_read",
    "C01_in_range_reads",
    "C01_shorter_operand"
   ],
   "note": "Any arithmetic (no laws used). Overlapping views in the harmful direction and short block operands are refuted separately."
  },
  {
   "property": "C02",
   "status": "proved",
   "theorems": [
    "C02_resize_drops_outside_refuted",
    "C02_size_from_data",
    "C02_history_reads",
    "C02_last_write",
    "C02_removed_reads_zero",
    "C02_never_written_zero",
    "C02_iteration"
   ],
   "note": "Any arithmetic; positions are arbitrary. An element stored outside the declared size survives a resize to the same size (C02_resize_drops_outside_refuted)."
  },
  {
   "property": "C03",
   "status": "proved",
   "theorems": [
    "C03_array_from_transposed_refuted",
    "C03_clone_of_array_refuted",
    "C03_failed_resize_keeps_size_refuted",
    "C03_fast_reads_like_map",
    "C03_write_existing",
    "C03_write_absent_throws"
   ],
   "note": "The array must be assigned from a matrix that iterates in row-major order; assigning a transposed view, constructing/cloning a nonempty array matrix and resizing it are refuted."
  },
  {
   "property": "C04",
   "status": "proved",
   "theorems": [
    "C04_vector_times_matrix_refuted",
    "C04_vector_times_tall_matrix_refuted",
    "C04_matrix_times_vector",
    "C04_mulVectRight",
    "C04_mulVectLeft",
    "C04_vector_times_square_matrix"
   ],
   "note": "Exact arithmetic; v*M proved for square M and refuted for both non-square shapes."
  },
  {
   "property": "C05",
   "status": "proved",
   "theorems": [
    "C05_transposed_get_rc_refuted",
    "C05_transposed_size_refuted",
    "C05_assign_own_view_refuted",
    "C05_plus_own_transposed_refuted",
    "C05_array_product_refuted",
    "C05_scaled_identity",
    "C05_construct",
    "C05_product",
    "C05_plus_minus",
    "C05_plus_minus_pointwise",
    "C05_plus_outside_pattern_throws",
    "C05_add_scaled_identity",
    "C05_make_zero",
    "C05_transposed_view",
    "C05_scaled_view",
    "C05_view_iteration",
    "C05_assign",
    "C05_norms"
   ],
   "note": "+=, -=, assignment for different matrices (views allowed); product with a map-backed left operand in exact arithmetic. Self-aliased forms, get(row,col) and size of transposed views, array product are refuted."
  },
  {
   "property": "C06",
   "status": "proved",
   "theorems": [
    "C06_exception_safety_refuted",
    "C06_setMatrix_accepts",
    "C06_setMatrix_rejects",
    "C06_lu_reproduces_matrix",
    "C06_luToMatrix",
    "C06_elementAt_out_of_range",
    "C06_failed_call"
   ],
   "note": "Exact arithmetic. The nonzero pivot condition is stated as: all leading principal submatrices are nonsingular. A throwing setMatrix leaves a broken object: C06_exception_safety_refuted."
  },
  {
   "property": "C07",
   "status": "proved",
   "theorems": [
    "C07_weak_dominance_refuted",
    "C07_solve_unconditional_refuted",
    "C07_row_dominant",
    "C07_column_dominant",
    "C07_positive_definite",
    "C07_classes_solve",
    "C07_solve_correct_iff",
    "C07_solve_correct_stencil",
    "C07_full_stencil_covers",
    "C07_banded_stencil_covers",
    "C07_lower_stencil_covers"
   ],
   "note": "Exact arithmetic; the stated condition (fill-in covered by row extents) is proved necessary and sufficient, with stencil-only sufficient conditions. The unconditional claim is refuted by a 3x3 witness. C07_row_dominant, C07_column_dominant, C07_positive_definite: classes of matrices that need no pivoting; C07_classes_solve: for them solve returns the one solution. Weak dominance is not enough (C07_weak_dominance_refuted)."
  },
  {
   "property": "C08",
   "status": "proved",
   "theorems": [
    "C08_refill_solve_like_fresh_refuted",
    "C08_refill_larger_refuted",
    "C08_fast_refill_same_decomposition",
    "C08_fast_refill_fallback",
    "C08_refill_history"
   ],
   "note": "Decomposition equals the fresh one; the solution of the refilled object is right when the row extents of the first matrix cover the fill-in of the new one (refuted otherwise); larger matrices are undefined behaviour (refuted)."
  },
  {
   "property": "C09",
   "status": "proved",
   "theorems": [
    "C09_proportional_secant_refuted",
    "C09_hart_unconditional_refuted",
    "C09_hart_secant",
    "C09_proportional"
   ],
   "note": "For every history of Hart updates with visible steps; proportional update and invisible steps refuted."
  },
  {
   "property": "C10",
   "status": "proved",
   "theorems": [
    "C10_empty",
    "C10_history_defined",
    "C10_notify_live_in_order",
    "C10_reentrant_plain",
    "C10_self_unsubscribe_refuted"
   ],
   "note": "Callbacks are arbitrary functions; reentrant subscription changes are covered by a separate relation: self-unsubscription during a notification is undefined behaviour (refuted). C10_empty says exactly when a list of observers reports itself empty."
  },
  {
   "property": "C11",
   "status": "proved",
   "theorems": [
    "C11_terminating_or_no_short_circuit",
    "C11_forward_composes",
    "C11_forward_plain"
   ],
   "note": "Includes forwarding between lists."
  },
  {
   "property": "C12",
   "status": "proved",
   "theorems": [
    "C12_stale_id_refuted",
    "C12_id_overflow_refuted",
    "C12_new_id_fresh",
    "C12_remove_only_that",
    "C12_scoped_restores",
    "C12_scoped_move"
   ],
   "note": "Fresh among live ids; ids are reused after removal (C12_stale_id_refuted) and INT_MAX overflows (C12_id_overflow_refuted)."
  },
  {
   "property": "C13",
   "status": "proved",
   "theorems": [
    "C13_type_id_of_created_refuted",
    "C13_key_collision_refuted",
    "C13_factory_lookup",
    "C13_registered_types_sorted_once",
    "C13_instance_type_id"
   ],
   "note": "For type names without '/' (the storage key concatenates typeid names); a class registered under two ids reports the last one (refuted otherwise)."
  },
  {
   "property": "C14",
   "status": "proved",
   "theorems": [
    "C14_path_round_trip_iff",
    "C14_empty_component_cuts",
    "C14_parse_any_text"
   ],
   "note": "For every list of strings and every text."
  },
  {
   "property": "C15",
   "status": "proved",
   "theorems": [
    "C15_put_other_shared_refuted",
    "C15_put_get_cyclic_refuted",
    "C15_put_get",
    "C15_put_other",
    "C15_read_exactly_existing",
    "C15_assign_exactly_existing",
    "C15_assignment_history",
    "C15_untouched_history"
   ],
   "note": "Nested sets live in a heap; the no-sharing condition is proved necessary (shared and cyclic structures refuted)."
  },
  {
   "property": "C16",
   "status": "proved",
   "theorems": [
    "C16_unsigned_rejects_out_of_range_refuted",
    "C16_int_whole_text_refuted",
    "C16_int_round_trip",
    "C16_unsigned_round_trip",
    "C16_bool_round_trip",
    "C16_int_accepts_exactly",
    "C16_unsigned_wraps",
    "C16_bool_accepts_exactly"
   ],
   "note": "int, unsigned, bool; doubles are not modelled. Range checking of unsigned and of text after NUL refuted."
  },
  {
   "property": "C17",
   "status": "proved",
   "theorems": [
    "C17_identifier_sound_refuted",
    "C17_integer_grammar",
    "C17_number_grammar",
    "C17_hex_grammar",
    "C17_identifier_grammar",
    "C17_identifier_complete"
   ],
   "note": "std::regex_match is modelled by the language of the expression."
  },
  {
   "property": "C18",
   "status": "proved",
   "theorems": [
    "C18_map_drops_output_indices_refuted",
    "C18_map_has_output_size_refuted",
    "C18_accepted_iff_in_range",
    "C18_narrow_input",
    "C18_narrow_output",
    "C18_widen_input",
    "C18_widen_after_narrow",
    "C18_map_input_narrowed",
    "C18_map_both_narrowed",
    "C18_map_any_narrowing",
    "C18_too_short"
   ],
   "note": "Refutations: C18_map_drops_output_indices_refuted, C18_map_has_output_size_refuted."
  },
  {
   "property": "C19",
   "status": "proved",
   "theorems": [
    "C19_unorder_order_iff_permutation",
    "C19_unorder_order",
    "C19_order_unorder",
    "C19_order_elements",
    "C19_map_conjugate",
    "C19_map_value"
   ],
   "note": "Any Num; the round trips hold iff the index list is a permutation."
  },
  {
   "property": "C20",
   "status": "proved",
   "theorems": [
    "C20_normalize_unit_diagonal",
    "C20_unmap_map_iff_nonzero",
    "C20_map_unmap",
    "C20_elements",
    "C20_normalized_mapping",
    "C20_inverse_elements",
    "C20_inverse"
   ],
   "note": "Over exact rationals; sqrt is any function with sq(|a|)^2=|a| at the diagonal elements used."
  },
  {
   "property": "C21",
   "status": "proved",
   "theorems": [
    "C21_difference_quotients",
    "C21_exact_on_affine"
   ],
   "note": "Any arithmetic for the difference quotients and the list of evaluated points; exact rationals for affine mappings. Square mappings only: the code loops over inputSize in both directions."
  },
  {
   "property": "C22",
   "status": "proved",
   "theorems": [
    "C22_any_pattern_refuted",
    "C22_compressed_equals_columnwise",
    "C22_evaluation_count"
   ],
   "note": "Any arithmetic. The dependence hypothesis is necessary (refutation)."
  },
  {
   "property": "C23",
   "status": "proved",
   "theorems": [
    "C23_groups_partition_columns",
    "C23_groups_orthogonal",
    "C23_group_count",
    "C23_groups_maximal"
   ],
   "note": "Every column (also empty ones) is in exactly one group; groups are orthogonal and maximal."
  },
  {
   "property": "C24",
   "status": "proved",
   "theorems": [
    "C24_any_width_refuted",
    "C24_width",
    "C24_threshold",
    "C24_provider_width",
    "C24_provider_threshold"
   ],
   "note": "Width 2^31 or more is refuted (comparison as int). C24_provider_width and C24_provider_threshold state what the Jacobian provider's options do to its result."
  },
  {
   "property": "C25",
   "status": "proved",
   "theorems": [
    "C25_line_search",
    "C25_laws_exact",
    "C25_laws_nan",
    "C25_strict_decrease",
    "C25_zero_residual"
   ],
   "note": "Any arithmetic with the stated order laws (proved for exact numbers and for numbers with NaN), any mapping, settings and directions; evaluation that throws is outside (no result)."
  },
  {
   "property": "C26",
   "status": "proved",
   "theorems": [
    "C26_mapping_changed_refuted",
    "C26_nan_direction_refuted",
    "C26_residual_matches",
    "C26_iteration"
   ],
   "note": "Needs a + b*0 = a: C26_nan_direction_refuted shows that a NaN direction leaves a NaN iterate with a finite residual; C26_mapping_changed_refuted: setMapping without setInitialGuess keeps the old residual."
  },
  {
   "property": "C27",
   "status": "proved",
   "theorems": [
    "C27_divergence_reported_refuted",
    "C27_reported_once_refuted",
    "C27_iterations",
    "C27_status",
    "C27_calls",
    "C27_converged_is_a_solution",
    "C27_second_attempt"
   ],
   "note": "Arbitrary components. C27_divergence_reported_refuted and C27_reported_once_refuted are findings: divergence is reported as iteration limit exceeded when a hard reset may not help, and failure is then reported twice."
  },
  {
   "property": "C28",
   "status": "proved",
   "theorems": [
    "C28_far_root_refuted",
    "C28_const_direction",
    "C28_const_again",
    "C28_simple_once",
    "C28_newton_direction",
    "C28_affine_step",
    "C28_affine_run"
   ],
   "note": "Exact rationals. C28_far_root_refuted: with the default threshold 10 a root farther than 10 times the norm of the guess is found exactly in the first iteration, but run() fails. Broyden-type directions are modelled only through their LU updates (C09)."
  },
  {
   "property": "C29",
   "status": "proved",
   "theorems": [
    "C29_first_pre_observer_refuted",
    "C29_step_formula",
    "C29_step_failure",
    "C29_tables",
    "C29_fixed_step_history"
   ],
   "note": "Every table, right-hand side, state and step size; exact arithmetic for the formula, any arithmetic for the failure theorem; histories of fixed-step solvers without events. Finding: the first pre-step observer call gets an uninitialised step size."
  },
  {
   "property": "C30",
   "status": "proved",
   "theorems": [
    "C30_single_stage_refuted",
    "C30_shortcut_same"
   ],
   "note": "Any arithmetic and any right-hand side. Needs at least two stages (refuted for one stage)."
  },
  {
   "property": "C31",
   "status": "proved",
   "theorems": [
    "C31_rk4_order5_refuted",
    "C31_dopri45_low_order5_refuted",
    "C31_dopri45_high_order6_refuted",
    "C31_dopri78_exact_refuted",
    "C31_order_euler",
    "C31_order_rk4",
    "C31_order_dopri45",
    "C31_order_dopri56",
    "C31_order_dopri78"
   ],
   "note": "All rooted trees up to the advertised order, exact for Euler, RK4, DOPRI5(4), DOPRI6(5); within 1e-17 for DOPRI8(7), whose exact conditions are refuted. The coefficients are the exact quotients written in the source; rounding to double is not modelled."
  },
  {
   "property": "C32",
   "status": "proved",
   "theorems": [
    "C32_linear",
    "C32_quadrature"
   ],
   "note": "Any matrix, any table satisfying the order conditions; polynomials written in powers of t - t1."
  },
  {
   "property": "C33",
   "status": "proved",
   "theorems": [
    "C33_time_backwards_refuted",
    "C33_start",
    "C33_new_controller",
    "C33_reset",
    "C33_no_event",
    "C33_event_located",
    "C33_run",
    "C33_far_side_backwards",
    "C33_repeated_event",
    "C33_recompute_flag",
    "C33_interface_reset"
   ],
   "note": "Exact (rational) arithmetic; arbitrary model callbacks that may throw. Consistency at the start is characterised exactly (C33_start); it is needed: C33_far_side_backwards and C33_time_backwards_refuted show time running backwards without it, C33_repeated_event that a one-directional event which the model does not turn back is reported forever at the same time."
  },
  {
   "property": "C34",
   "status": "proved",
   "theorems": [
    "C34_earliest",
    "C34_zero_at_end_fails"
   ],
   "note": "Exact arithmetic. Zero at step end makes the step throw (C34_zero_at_end_fails)."
  },
  {
   "property": "C35",
   "status": "proved",
   "theorems": [
    "C35_max_threshold_refuted",
    "C35_within_tolerance",
    "C35_accepted_iff",
    "C35_accepted_step",
    "C35_rejected_step",
    "C35_new_size"
   ],
   "note": "Real arithmetic with true powers (standard library reals). Sensible settings = positive tolerance, insurance in (0,1], inc_min >= 1, inc_max 0 or >= 1, dec_max in [0,1), max_threshold >= 0; the defaults are. A longer step than max_threshold is left alone (C35_max_threshold_refuted)."
  },
  {
   "property": "C36",
   "status": "proved",
   "theorems": [
    "C36_failure_leaves_state_refuted",
    "C36_nan_step_refuted",
    "C36_nan_norm_refuted",
    "C36_attempts",
    "C36_exact",
    "C36_set_ready",
    "C36_attempts_bounded",
    "C36_terminates",
    "C36_defined"
   ],
   "note": "C36_attempts holds in any arithmetic with any callbacks; C36_exact in exact arithmetic without events. Findings: a failure can come after an accepted step (C36_failure_leaves_state_refuted), a NaN step is accepted with error 0 (C36_nan_step_refuted), a NaN error norm makes doStep loop forever (C36_nan_norm_refuted)."
  },
  {
   "property": "C37",
   "status": "proved",
   "theorems": [
    "C37_increasing_refuted",
    "C37_table",
    "C37_interpolation",
    "C37_exact",
    "C37_step",
    "C37_step_exact",
    "C37_rk_reference",
    "C37_gragg_reference"
   ],
   "note": "Exact arithmetic; the numbers of steps must increase (C37_increasing_refuted). C37_step ties the table to the results of the reference solver inside doStep; C37_rk_reference and C37_gragg_reference say what those results are."
  },
  {
   "property": "C38",
   "status": "proved",
   "theorems": [
    "C38_unbounded_refuted",
    "C38_values",
    "C38_increasing",
    "C38_at_least",
    "C38_usable"
   ],
   "note": "Closed forms as far as the values fit an int: 31st Romberg and 60th Bulirsch value overflow (C38_unbounded_refuted)."
  },
  {
   "property": "C39",
   "status": "proved",
   "theorems": [
    "C39_retry_refuted",
    "C39_resets_events_refuted",
    "C39_midpoint",
    "C39_new_size",
    "C39_step",
    "C39_set_only"
   ],
   "note": "C39_midpoint: exact arithmetic, no events; C39_step: any arithmetic and events. Findings: a step repeated after an exception gives a wrong state (C39_retry_refuted); setInitialState does not reset the event controller (C39_resets_events_refuted)."
  },
  {
   "property": "C40",
   "status": "proved",
   "theorems": [
    "C40_cache_other_rhs_refuted",
    "C40_stable_below_half_refuted",
    "C40_cache",
    "C40_map",
    "C40_root",
    "C40_second_order",
    "C40_equation_state",
    "C40_system_state",
    "C40_explicit",
    "C40_stable",
    "C40_conserved"
   ],
   "note": "Exact arithmetic (C40_cache: any arithmetic). Findings: replacing the right-hand side leaves the cached slope of the old one (C40_cache_other_rhs_refuted; doStep is not affected since it sets the step first); below one half the method is not unconditionally stable (C40_stable_below_half_refuted)."
  },
  {
   "property": "C41",
   "status": "proved",
   "theorems": [
    "C41_resets_events_refuted",
    "C41_all_or_nothing",
    "C41_failure",
    "C41_residual",
    "C41_linear_run",
    "C41_linear_stable",
    "C41_defined",
    "C41_hard_once"
   ],
   "note": "C41_all_or_nothing, C41_failure and C41_defined hold for any arithmetic and components; C41_residual for Newton's method without regularization and observers in exact arithmetic. Finding: setInitialState does not reset the event controller (C41_resets_events_refuted)."
  },
  {
   "property": "C42",
   "status": "proved",
   "theorems": [
    "C42_solve_uncovered_refuted",
    "C42_easy_solve",
    "C42_solve",
    "C42_unique",
    "C42_solve_iff",
    "C42_pattern",
    "C42_mult"
   ],
   "note": "Exact arithmetic. Finding: a pattern that does not cover the fill-in gives a wrong result without an error (C42_solve_uncovered_refuted); C42_pattern is a sufficient condition on the pattern. C42_easy_solve: conditions on hd and the Jacobian under which no leading minor vanishes."
  },
  {
   "property": "C43",
   "status": "proved",
   "theorems": [
    "C43_damping_refuted",
    "C43_difference_step",
    "C43_jacobian",
    "C43_complete_iff",
    "C43_linear"
   ],
   "note": "Exact arithmetic. Finding: the dependence on the velocities of second-order variables (damping) is left out (C43_damping_refuted)."
  },
  {
   "property": "C44",
   "status": "proved",
   "theorems": [
    "C44_zero_step_refuted",
    "C44_transparent",
    "C44_history",
    "C44_bounded",
    "C44_initialises",
    "C44_first"
   ],
   "note": "Finding: if the first requested step is zero no decomposition is selected and the solve follows a null pointer (C44_zero_step_refuted)."
  },
  {
   "property": "C45",
   "status": "proved",
   "theorems": [
    "C45_stale_refuted",
    "C45_stale_order_refuted",
    "C45_step",
    "C45_order_two",
    "C45_estimate",
    "C45_first_attempt",
    "C45_safe",
    "C45_refused"
   ],
   "note": "Exact arithmetic; r_safe asks that callbacks do not throw. Findings: after a refused attempt the step is not that of the method (C45_stale_refuted) and is only of first order (C45_stale_order_refuted)."
  },
  {
   "property": "C46",
   "status": "proved",
   "theorems": [
    "C46_estimate_only_refuted",
    "C46_state_after_truncation_refuted",
    "C46_exact",
    "C46_polynomial",
    "C46_samples",
    "C46_run",
    "C46_run_runge_kutta",
    "C46_endless"
   ],
   "note": "Exact arithmetic; order 0 and orders of 31 or more (1 << p) outside the model. Refutations: C46_estimate_only_refuted, C46_state_after_truncation_refuted."
  },
  {
   "property": "C47",
   "status": "proved",
   "theorems": [
    "C47_mean_square_refuted",
    "C47_rejected_sample_refuted",
    "C47_default_refuted",
    "C47_timing_wrap_refuted",
    "C47_statistics",
    "C47_merge",
    "C47_any_order",
    "C47_mean",
    "C47_mean_square",
    "C47_sample_size",
    "C47_timing",
    "C47_timing_merge",
    "C47_timing_average"
   ],
   "note": "Exact arithmetic for the sample values. Refutations: C47_mean_square_refuted, C47_rejected_sample_refuted, C47_default_refuted, C47_timing_wrap_refuted."
  },
  {
   "property": "C48",
   "status": "proved",
   "theorems": [
    "C48_initial_line_refuted",
    "C48_line",
    "C48_decision",
    "C48_zero_interval",
    "C48_spacing",
    "C48_gap",
    "C48_count",
    "C48_general_console",
    "C48_solution_console",
    "C48_columns",
    "C48_table"
   ],
   "note": "Exact arithmetic; number formatting and files not modelled. Refutation: C48_initial_line_refuted."
  },
  {
   "property": "C49",
   "status": "proved",
   "theorems": [
    "C49_large_limit_refuted",
    "C49_names",
    "C49_indices",
    "C49_members",
    "C49_size",
    "C49_increasing",
    "C49_header",
    "C49_toString",
    "C49_toString_whole"
   ],
   "note": "Refutation: C49_large_limit_refuted."
  },
  {
   "property": "C50",
   "status": "proved",
   "theorems": [
    "C50_large_index_refuted",
    "C50_index_beyond_count_refuted",
    "C50_format",
    "C50_names"
   ],
   "note": "log10 taken exact enough for its integer part. Refutations: C50_large_index_refuted, C50_index_beyond_count_refuted."
  },
  {
   "property": "C51",
   "status": "proved",
   "theorems": [
    "C51_shrink_refuted",
    "C51_all_or_nothing_refuted",
    "C51_sixteen_digits_refuted",
    "C51_round_trip",
    "C51_round_trip_converse",
    "C51_set_parameters",
    "C51_other_names",
    "C51_size",
    "C51_numbers",
    "C51_new_object",
    "C51_texts_checked"
   ],
   "note": "Printing and reading of numbers are parameters of the model; the numerical part is for 53-bit numbers without exponent limits. Refutations: C51_shrink_refuted, C51_all_or_nothing_refuted, C51_sixteen_digits_refuted."
  },
  {
   "property": "C52",
   "status": "proved",
   "theorems": [
    "C52_exact_end_refuted",
    "C52_after_on_exception_refuted",
    "C52_stopping",
    "C52_cover",
    "C52_fixed_step",
    "C52_termination",
    "C52_endless",
    "C52_one_step",
    "C52_outputs",
    "C52_outputs_on_exception",
    "C52_runge_kutta",
    "C52_runge_kutta_endless",
    "C52_outputs_set"
   ],
   "note": "Refutations: C52_exact_end_refuted, C52_after_on_exception_refuted. C52_outputs_set says which outputs the selected options install. Exceptions of the options themselves not modelled."
  },
  {
   "property": "C53",
   "status": "proved",
   "theorems": [
    "C53_modp_refuted",
    "C53_roundi_refuted",
    "C53_sgn",
    "C53_modp",
    "C53_roundi",
    "C53_modd",
    "C53_cubic_ends",
    "C53_cubic_derivatives",
    "C53_cubic_reproduced",
    "C53_basis_ends",
    "C53_basis_derivatives",
    "C53_basis_combination",
    "C53_segment_ends",
    "C53_segment_derivatives"
   ],
   "note": "Exact (rational/real) arithmetic. Refutations: C53_modp_refuted, C53_roundi_refuted."
  },
  {
   "property": "C54",
   "status": "proved",
   "theorems": [
    "C54_read_reflects_component_refuted",
    "C54_external_change_refuted",
    "C54_detached_write_refuted",
    "C54_transparent",
    "C54_transparent_after_set",
    "C54_rejected_value_stays",
    "C54_rejected_value_resent",
    "C54_read",
    "C54_help",
    "C54_write",
    "C54_default"
   ],
   "note": "Refinement to the cache-free component; stale reads after rejection, after external change and after detaching are refuted. C54_read, C54_write, C54_default and C54_help state each operation on its own."
  },
  {
   "property": "C55",
   "status": "proved",
   "theorems": [
    "C55_last_notification_is_current_refuted",
    "C55_reentrant_set_terminates_refuted",
    "C55_set_notifies_once"
   ],
   "note": "For observers that do not set the property again; reentrant sets refuted."
  },
  {
   "property": "C56",
   "status": "proved",
   "theorems": [
    "C56_assign_own_block_refuted",
    "C56_block_assign_stays_inside_refuted",
    "C56_infnorm_propagates_nan_refuted",
    "C56_assign_vector",
    "C56_assign_block",
    "C56_clone",
    "C56_sum_difference",
    "C56_dot",
    "C56_norms"
   ],
   "note": "Any arithmetic for the data movement, exact arithmetic for the norms. Assigning a block of the vector to itself, overrun of block assignment and NaN in infNorm are refuted."
  },
  {
   "property": "C57",
   "status": "proved",
   "theorems": [
    "C57_block_get_rc_refuted",
    "C57_block_assign_stays_inside_refuted",
    "C57_block_reads",
    "C57_block_assign",
    "C57_block_clear"
   ],
   "note": "Any arithmetic. get(row,column) on a block and sources larger than the block are refuted."
  },
  {
   "property": "C58",
   "status": "proved",
   "theorems": [
    "C58_trimmer_switched_off_refuted",
    "C58_later_pattern_complete_refuted",
    "C58_first_evaluation",
    "C58_later_evaluations"
   ],
   "note": "Refuted beyond the stated conditions: trimmer switched off between evaluations (stale addresses, UB), and pattern learned at a point where a derivative vanishes."
  },
  {
   "property": "C59",
   "status": "proved",
   "theorems": [
    "C59_one_stage_refuted",
    "C59_more_stages_refuted",
    "C59_no_stages_refuted",
    "C59_reported_size_refuted",
    "C59_attempts",
    "C59_defined",
    "C59_set_ready",
    "C59_references"
   ],
   "note": "Findings: one stage with error control accesses the table out of bounds (C59_one_stage_refuted); so does raising max_stages between steps (C59_more_stages_refuted); zero stages give a zero state (C59_no_stages_refuted); observers get the size of the next step instead of that of the accepted one (C59_reported_size_refuted)."
  },
  {
   "property": "C60",
   "status": "proved",
   "theorems": [
    "C60_step",
    "C60_accepts",
    "C60_order_one",
    "C60_implicit_euler",
    "C60_stable"
   ],
   "note": "Exact arithmetic; r_safe asks that callbacks do not throw."
  },
  {
   "property": "C61",
   "status": "proved",
   "theorems": [
    "C61_extrapolation_refuted",
    "C61_counters",
    "C61_average",
    "C61_elapsed"
   ],
   "note": "Timers and right-hand side counters not modelled. Refutation: C61_extrapolation_refuted."
  },
  {
   "property": "C62",
   "status": "proved",
   "theorems": [
    "C62_default_size_refuted",
    "C62_no_rhs_refuted",
    "C62_apply",
    "C62_apply_throws"
   ],
   "note": "Refutations: C62_default_size_refuted, C62_no_rhs_refuted."
  },
  {
   "property": "C63",
   "status": "proved",
   "theorems": [
    "C63_never_fails_refuted",
    "C63_euler_energy_refuted",
    "C63_time_negative_refuted",
    "C63_above",
    "C63_time",
    "C63_energy",
    "C63_free_flight",
    "C63_from_plane",
    "C63_no_failure",
    "C63_exact_landing_fails"
   ],
   "note": "Exact rational arithmetic. Refutations: C63_never_fails_refuted, C63_euler_energy_refuted, C63_time_negative_refuted. Implicit and adaptive solvers on the ball not stated."
  },
  {
   "property": "C64",
   "status": "proved",
   "theorems": [
    "C64_restart_refuted",
    "C64_impact",
    "C64_stays",
    "C64_rests",
    "C64_restart_hangs"
   ],
   "note": "C64_restart_hangs and C64_restart_refuted: the flag of a stuck ball is never reset."
  },
  {
   "property": "C65",
   "status": "proved",
   "theorems": [
    "C65_motion",
    "C65_energy"
   ],
   "note": "The first variation of the energy along the slopes vanishes; no statement about the discrete energy of a method on the nonlinear chain."
  },
  {
   "property": "C66",
   "status": "proved",
   "theorems": [
    "C66_euler",
    "C66_rk4",
    "C66_implicit",
    "C66_conserves"
   ],
   "note": "Exact arithmetic; the implicit solver with a Newton solver that uses finite differences, exact on linear systems (C41)."
  },
  {
   "property": "C67",
   "status": "proved",
   "theorems": [
    "C67_euler",
    "C67_rk4",
    "C67_implicit",
    "C67_contracts"
   ],
   "note": "The cosine is an arbitrary function. Exact arithmetic."
  },
  {
   "property": "C68",
   "status": "proved",
   "theorems": [
    "C68_linear_bound_refuted",
    "C68_negative_speed_refuted",
    "C68_opposes",
    "C68_bounded",
    "C68_grows",
    "C68_saturates",
    "C68_monotone",
    "C68_contracts",
    "C68_motion",
    "C68_text",
    "C68_text_back"
   ],
   "note": "Over the real numbers (standard library axioms). Refutations: C68_linear_bound_refuted, C68_negative_speed_refuted."
  },
  {
   "property": "C69",
   "status": "proved",
   "theorems": [
    "C69_sparse_mapping_refuted",
    "C69_hard_reset_refuted",
    "C69_default_provider",
    "C69_sparse_provider",
    "C69_history",
    "C69_step",
    "C69_throws",
    "C69_affine",
    "C69_never_recomputed"
   ],
   "note": "Exact rationals. Necessity: C69_sparse_mapping_refuted (a mapping with a zero element in its Jacobian makes the second direction throw), C69_hard_reset_refuted (hardResetMayHelp is true, but the default provider does not recompute). Equal consecutive points divide by zero (example same_point_nan)."
  },
  {
   "property": "C70",
   "status": "proved",
   "theorems": [
    "C70_secant_refuted",
    "C70_history",
    "C70_step",
    "C70_affine",
    "C70_never_recomputed"
   ],
   "note": "Exact rationals. C70_secant_refuted: the secant equation itself does not hold when a row does not store all positions of the step."
  },
  {
   "property": "C71",
   "status": "proved",
   "theorems": [
    "C71_secant_refuted",
    "C71_history",
    "C71_affine",
    "C71_overshoot"
   ],
   "note": "Exact rationals; lazy_iterations any value. C71_secant_refuted: the corrected matrix does not satisfy the secant equation (it overshoots). A run computes at least one direction (true of NewtonSolver with a positive iteration limit)."
  },
  {
   "property": "C72",
   "status": "proved",
   "theorems": [
    "C72_history"
   ],
   "note": "Exact rationals. Steps invisible to a row of the update are excluded (they divide by zero, see C21)."
  },
  {
   "property": "C73",
   "status": "proved",
   "theorems": [
    "C73_two_runs",
    "C73_errors_accumulate"
   ],
   "note": "Over the real numbers (no rounding). Uses the axioms of the classical reals of the standard library."
  },
  {
   "property": "C74",
   "status": "proved",
   "theorems": [
    "C74_inconsistent_refuted",
    "C74_convergence",
    "C74_error_bound",
    "C74_adaptive",
    "C74_tables"
   ],
   "note": "First order for every consistent method; the order p of the tables gives order p of the error by C75. Real numbers, no rounding, no events. Without consistency false: C74_inconsistent_refuted."
  },
  {
   "property": "C75",
   "status": "proved",
   "theorems": [
    "C75_euler_second_order_refuted",
    "C75_order",
    "C75_rounded",
    "C75_adaptive",
    "C75_smooth",
    "C75_tables",
    "C75_linear"
   ],
   "note": "Over the real numbers (stdlib axioms), no rounding of the arithmetic. Smoothness is stated as Taylor expansions with bounded coefficients along the solution (HighSpec.v, smooth_along); C75_smooth derives it from bounded partial derivatives, and C75_linear needs no smoothness assumption for linear systems. One constant C serves all step sizes and, in C75_rounded and C75_adaptive, all tables with bounded entries, so that the rounded 8(7) table gets the bound C (d + h^8 + 1e-16). C75_euler_second_order_refuted shows that the exponent is sharp for Euler's method. Discrete events are off (no_events)."
  },
  {
   "property": "C76",
   "status": "proved",
   "theorems": [
    "C76_not_atomic_refuted",
    "C76_performer_alone_refuted",
    "C76_no_line_search_refuted",
    "C76_no_jacobian_refuted",
    "C76_no_norm_refuted",
    "C76_direction_resets_refuted",
    "C76_any_order",
    "C76_registry",
    "C76_other_names",
    "C76_round_trip",
    "C76_restore",
    "C76_fresh",
    "C76_not_given",
    "C76_unknown_names",
    "C76_performer_resets",
    "C76_bad_type",
    "C76_unregistered",
    "C76_defined",
    "C76_missing_owner"
   ],
   "note": "About PersModel.v: all classes the library registers, their parameters, defaults and nested components, in a process whose factories are those of FacModel. Classes of the user are allowed in the process; names that create them count as throwing in r_new (their own parameters are not modelled). Not atomic, and incomplete trees are undefined behaviour: *_refuted in ExPers.v."
  },
  {
   "property": "C77",
   "status": "proved",
   "theorems": [
    "C77_span_refuted",
    "C77_stop_refuted",
    "C77_nested_scopes_refuted",
    "C77_broken_refresh_refuted",
    "C77_not_stopped_refuted",
    "C77_second_stop_refuted",
    "C77_laps",
    "C77_laps_total",
    "C77_scopes",
    "C77_statistics",
    "C77_calibration",
    "C77_constant_rate",
    "C77_interval_text",
    "C77_clock",
    "C77_span_seconds",
    "C77_span_milliseconds",
    "C77_span_different",
    "C77_components"
   ],
   "note": "About TimeModel.v; readings of the tick counter and the clock are inputs, milliseconds are exact rationals. Limits of the claim (2^32 hours, nested scopes, a refresh that throws, use before stop, second stop) are *_refuted in ExTime.v."
  },
  {
   "property": "C78",
   "status": "proved",
   "theorems": [
    "C78_contraction_any_alpha_refuted",
    "C78_error",
    "C78_second_order",
    "C78_stiff",
    "C78_contraction"
   ],
   "note": "C78_error (order 1, any alpha in [0,1]), C78_second_order (alpha = 1/2), C78_stiff and C78_contraction (alpha = 1, one-sided Lipschitz, any step size), over the reals, for the rational runs of the Newton model with any descent direction. Runs whose steps return are considered: when Newton fails the step reports that (C41). C78_contraction_any_alpha_refuted: below alpha = 1/2 contraction fails."
  },
  {
   "property": "C79",
   "status": "proved",
   "theorems": [
    "C79_rk4_reported_refuted",
    "C79_euler_squares_refuted",
    "C79_gragg_reported_refuted",
    "C79_reported_low",
    "C79_low_is_previous",
    "C79_rk_table",
    "C79_gragg_table",
    "C79_reported",
    "C79_sequences",
    "C79_rk_convergence",
    "C79_gragg_convergence"
   ],
   "note": "C79_rk_table and C79_gragg_table (every accepted step is a step of one Runge-Kutta table that satisfies the order conditions), C79_reported (order() for Euler and Gragg), C79_sequences (the step sequences of the library), C79_rk_convergence and C79_gragg_convergence over the reals for the rational runs. Without events. Refutations: order() overstates for RK4, for Euler declared symmetric, for Gragg not declared symmetric."
  },
  {
   "property": "C80",
   "status": "proved",
   "theorems": [
    "C80_third_order_refuted",
    "C80_decay_refuted",
    "C80_error"
   ],
   "note": "Exact arithmetic, constant step size between two settings of it, no events. C80_third_order_refuted and C80_decay_refuted delimit it. The constants are explicit."
  },
  {
   "property": "C81",
   "status": "proved",
   "theorems": [
    "C81_w1_second_refuted",
    "C81_w1",
    "C81_sw_second",
    "C81_sw_first",
    "C81_w1_runs",
    "C81_sw_runs"
   ],
   "note": "Exact arithmetic. C81_w1, C81_sw_second, C81_sw_first give the error bounds with explicit constants, C81_w1_runs and C81_sw_runs (without error control) that such runs exist; examples for x' = x with any step sizes up to 1/4. C81_w1_second_refuted: W1 is of order one exactly."
  },
  {
   "property": "C82",
   "status": "proved",
   "theorems": [
    "C82_retry_refuted",
    "C82_retry_sw_refuted",
    "C82_soft_after_throw",
    "C82_w1_restart",
    "C82_sw_restart",
    "C82_w1_throw",
    "C82_sw_throw",
    "C82_w1_retry",
    "C82_sw_retry"
   ],
   "note": "The restart theorems assume that the callbacks behave from the restart on (r_safe) and that the matrix W can be decomposed (solvable, as in C42). Retrying is refuted by C82_w1_retry, C82_sw_retry and the _refuted theorems."
  },
  {
   "property": "C83",
   "status": "proved",
   "theorems": [
    "C83_rounding_term_refuted",
    "C83_any_arithmetic",
    "C83_rounding",
    "C83_order",
    "C83_adaptive",
    "C83_binary64",
    "C83_linear_rhs"
   ],
   "note": "Rounded arithmetic is a Num instance (FNum rnd) of the same solver model: + - * / rounded, sign, absolute value and comparison exact, exponents unbounded above (no overflow, no NaN). binary64 is Flocq's round to nearest even with FLT_exp (-1074) 53; Flocq brings standard library axioms only. One theorem (C83_any_arithmetic) is about every Num and assumes nothing."
  },
  {
   "property": "C84",
   "status": "proved",
   "theorems": [
    "C84_margin_refuted",
    "C84_dominant",
    "C84_error",
    "C84_same_program",
    "C84_any_arithmetic",
    "C84_backward",
    "C84_binary53"
   ],
   "note": "C84_any_arithmetic: the operations in any arithmetic; C84_backward: error of the product and residual; C84_binary53: doubles without limits of the exponent; C84_same_program: the program is the one of C06-C09. No underflow, overflow or contraction to fused operations is modelled. Needs nonzero computed pivots (C84_zero_pivot_refuted) and a covering stencil (C84_uncovered_refuted). C84_dominant, C84_error: for matrices dominated by their diagonal no condition on the pivots is needed, and the error against the exact solution is bounded. The margin is needed (C84_margin_refuted)."
  },
  {
   "property": "C85",
   "status": "proved",
   "theorems": [
    "C85_relative_to_result_refuted",
    "C85_dot",
    "C85_norms",
    "C85_matrix_times_vector",
    "C85_vector_times_square_matrix",
    "C85_mulVectRight",
    "C85_mulVectLeft",
    "C85_product",
    "C85_matrix_norms"
   ],
   "note": "Relative error of every operation: no underflow or overflow. C85_relative_to_result_refuted shows that the bounds cannot be stated relative to the result."
  },
  {
   "property": "C86",
   "status": "proved",
   "theorems": [
    "C86_large_components_refuted",
    "C86_columnwise",
    "C86_compressed"
   ],
   "note": "C86_large_components_refuted shows that the condition on the increment is needed. No underflow or overflow."
  },
  {
   "property": "C87",
   "status": "proved",
   "theorems": [
    "C87_newton",
    "C87_step",
    "C87_error",
    "C87_second_order",
    "C87_stiff",
    "C87_follows",
    "C87_follows_second_order",
    "C87_follows_stiff"
   ],
   "note": "C87_error, C87_second_order and C87_stiff take the bound B on the states along the run as a hypothesis (C87_case shows runs meeting it); C87_follows, C87_follows_second_order and C87_follows_stiff replace it by linear growth of the right-hand side. No overflow."
  },
  {
   "property": "C88",
   "status": "proved",
   "theorems": [
    "C88_error"
   ],
   "note": "All operations of the solver are rounded; no overflow; slopes are bounded on the region |x| <= B, |t| <= S, which the computed states are proved not to leave."
  },
  {
   "property": "C89",
   "status": "proved",
   "theorems": [
    "C89_overflow_refuted",
    "C89_same_run",
    "C89_order",
    "C89_tables",
    "C89_linear",
    "C89_adaptive"
   ],
   "note": "Sizes are limited to 2^1000, which leaves a margin of 2^24 below the largest double, and stage counts (and, for linear systems, dimensions) to 4096. C89_overflow_refuted shows that a limit is needed. The right-hand side is related to a function on reals, so the sign of zero must not matter to it. C89_adaptive is about the run of accepted steps; that the numbers computed in a rejected attempt are finite is not claimed."
  },
  {
   "property": "C90",
   "status": "proved",
   "theorems": [
    "C90_smoothed_overflow_refuted",
    "C90_same_run",
    "C90_error"
   ],
   "note": "Sizes are limited to 2^1000. C90_smoothed_overflow_refuted shows that a limit is needed: the smoothed state can be infinite although the state is finite and the exact mean is in range. Discrete events are off (no_events)."
  },
  {
   "property": "C91",
   "status": "proved",
   "theorems": [
    "C91_norm_overflow_refuted",
    "C91_norm_underflow_refuted",
    "C91_infnorm_nan_refuted",
    "C91_matrix_nan_refuted",
    "C91_matrix_overflow_refuted",
    "C91_matrix_infnorm_nan_refuted",
    "C91_dot",
    "C91_norms",
    "C91_nan",
    "C91_matrix_times_vector",
    "C91_matrix_nan",
    "C91_vector_times_matrix",
    "C91_vector_times_matrix_nan",
    "C91_matrix_norms",
    "C91_matrix_norms_nan",
    "C91_product"
   ],
   "note": "C91_dot, C91_norms, C91_matrix_times_vector, C91_vector_times_matrix, C91_product, C91_matrix_norms: finite results and their errors; C91_nan, C91_matrix_nan, C91_vector_times_matrix_nan, C91_matrix_norms_nan: NaN is not lost. Findings: C91_norm_overflow_refuted, C91_norm_underflow_refuted, C91_infnorm_nan_refuted, C91_matrix_infnorm_nan_refuted, C91_matrix_nan_refuted (elements that are not stored do not meet NaN), C91_matrix_overflow_refuted. The condition on the length (n+1 <= 2^51) holds for every vector that fits in memory."
  },
  {
   "property": "C92",
   "status": "proved",
   "theorems": [
    "C92_silent_overflow_refuted",
    "C92_nan_everywhere_refuted",
    "C92_visible",
    "C92_accuracy",
    "C92_nonzero_solution"
   ],
   "note": "C92_visible, C92_accuracy, C92_nonzero_solution. Findings: C92_silent_overflow_refuted (a pivot overflows to -inf and the solution (1, 0) is finite but wrong, so C92_accuracy needs finite pivots or, C92_nonzero_solution, components other than zero), C92_nan_everywhere_refuted (NaN in one component does not reach components that do not depend on it)."
  }
 ]
}