{
"C06": {
"status": "proved",
"note": "Exact arithmetic. The nonzero pivot condition is stated as: all leading principal submatrices are nonsingular. A throwing setMatrix leaves a broken object: C06_exception_safety_refuted."
},
"C07": {
"status": "proved",
"note": "Exact arithmetic; the stated condition (fill-in covered by row extents) is proved necessary and sufficient, with stencil-only sufficient conditions. The unconditional claim is refuted by a 3x3 witness. C07_row_dominant, C07_column_dominant, C07_positive_definite: classes of matrices that need no pivoting; C07_classes_solve: for them solve returns the one solution. Weak dominance is not enough (C07_weak_dominance_refuted)."
},
"C08": {
"status": "proved",
"note": "Decomposition equals the fresh one; the solution of the refilled object is right when the row extents of the first matrix cover the fill-in of the new one (refuted otherwise); larger matrices are undefined behaviour (refuted)."
},
"C09": {
"status": "proved",
"note": "For every history of Hart updates with visible steps; proportional update and invisible steps refuted."
},
"C10": {
"status": "proved",
"note": "Callbacks are arbitrary functions; reentrant subscription changes are covered by a separate relation: self-unsubscription during a notification is undefined behaviour (refuted). C10_empty says exactly when a list of observers reports itself empty."
},
"C11": {
"status": "proved",
"note": "Includes forwarding between lists."
},
"C12": {
"status": "proved",
"note": "Fresh among live ids; ids are reused after removal (C12_stale_id_refuted) and INT_MAX overflows (C12_id_overflow_refuted)."
},
"C13": {
"status": "proved",
"note": "For type names without '/' (the storage key concatenates typeid names); a class registered under two ids reports the last one (refuted otherwise)."
},
"C14": {
"status": "proved",
"note": "For every list of strings and every text."
},
"C15": {
"status": "proved",
"note": "Nested sets live in a heap; the no-sharing condition is proved necessary (shared and cyclic structures refuted)."
},
"C16": {
"status": "proved",
"note": "int, unsigned, bool; doubles are not modelled. Range checking of unsigned and of text after NUL refuted."
},
"C17": {
"status": "proved",
"note": "std::regex_match is modelled by the language of the expression."
},
"C54": {
"status": "proved",
"note": "Refinement to the cache-free component; stale reads after rejection, after external change and after detaching are refuted. C54_read, C54_write, C54_default and C54_help state each operation on its own."
},
"C55": {
"status": "proved",
"note": "For observers that do not set the property again; reentrant sets refuted."
},
"C01": {
"status": "proved",
"note": "Any arithmetic (no laws used). Overlapping views in the harmful direction and short block operands are refuted separately."
},
"C02": {
"status": "proved",
"note": "Any arithmetic; positions are arbitrary. An element stored outside the declared size survives a resize to the same size (C02_resize_drops_outside_refuted)."
},
"C03": {
"status": "proved",
"note": "The array must be assigned from a matrix that iterates in row-major order; assigning a transposed view, constructing/cloning a nonempty array matrix and resizing it are refuted."
},
"C04": {
"status": "proved",
"note": "Exact arithmetic; v*M proved for square M and refuted for both non-square shapes."
},
"C05": {
"status": "proved",
"note": "+=, -=, assignment for different matrices (views allowed); product with a map-backed left operand in exact arithmetic. Self-aliased forms, get(row,col) and size of transposed views, array product are refuted."
},
"C56": {
"status": "proved",
"note": "Any arithmetic for the data movement, exact arithmetic for the norms. Assigning a block of the vector to itself, overrun of block assignment and NaN in infNorm are refuted."
},
"C57": {
"status": "proved",
"note": "Any arithmetic. get(row,column) on a block and sources larger than the block are refuted."
},
"C18": {
"status": "proved",
"note": "Refutations: C18_map_drops_output_indices_refuted, C18_map_has_output_size_refuted."
},
"C19": {
"status": "proved",
"note": "Any Num; the round trips hold iff the index list is a permutation."
},
"C20": {
"status": "proved",
"note": "Over exact rationals; sqrt is any function with sq(|a|)^2=|a| at the diagonal elements used."
},
"C21": {
"status": "proved",
"note": "Any arithmetic for the difference quotients and the list of evaluated points; exact rationals for affine mappings. Square mappings only: the code loops over inputSize in both directions."
},
"C22": {
"status": "proved",
"note": "Any arithmetic. The dependence hypothesis is necessary (refutation)."
},
"C23": {
"status": "proved",
"note": "Every column (also empty ones) is in exactly one group; groups are orthogonal and maximal."
},
"C24": {
"status": "proved",
"note": "Width 2^31 or more is refuted (comparison as int). C24_provider_width and C24_provider_threshold state what the Jacobian provider's options do to its result."
},
"C58": {
"status": "proved",
"note": "Refuted beyond the stated conditions: trimmer switched off between evaluations (stale addresses, UB), and pattern learned at a point where a derivative vanishes."
},
"C25": {
"status": "proved",
"note": "Any arithmetic with the stated order laws (proved for exact numbers and for numbers with NaN), any mapping, settings and directions; evaluation that throws is outside (no result)."
},
"C26": {
"status": "proved",
"note": "Needs a + b*0 = a: C26_nan_direction_refuted shows that a NaN direction leaves a NaN iterate with a finite residual; C26_mapping_changed_refuted: setMapping without setInitialGuess keeps the old residual."
},
"C27": {
"status": "proved",
"note": "Arbitrary components. C27_divergence_reported_refuted and C27_reported_once_refuted are findings: divergence is reported as iteration limit exceeded when a hard reset may not help, and failure is then reported twice."
},
"C28": {
"status": "proved",
"note": "Exact rationals. C28_far_root_refuted: with the default threshold 10 a root farther than 10 times the norm of the guess is found exactly in the first iteration, but run() fails. Broyden-type directions are modelled only through their LU updates (C09)."
},
"C29": {
"status": "proved",
"note": "Every table, right-hand side, state and step size; exact arithmetic for the formula, any arithmetic for the failure theorem; histories of fixed-step solvers without events. Finding: the first pre-step observer call gets an uninitialised step size."
},
"C30": {
"status": "proved",
"note": "Any arithmetic and any right-hand side. Needs at least two stages (refuted for one stage)."
},
"C31": {
"status": "proved",
"note": "All rooted trees up to the advertised order, exact for Euler, RK4, DOPRI5(4), DOPRI6(5); within 1e-17 for DOPRI8(7), whose exact conditions are refuted. The coefficients are the exact quotients written in the source; rounding to double is not modelled."
},
"C32": {
"status": "proved",
"note": "Any matrix, any table satisfying the order conditions; polynomials written in powers of t - t1."
},
"C33": {
"status": "proved",
"note": "Exact (rational) arithmetic; arbitrary model callbacks that may throw. Consistency at the start is characterised exactly (C33_start); it is needed: C33_far_side_backwards and C33_time_backwards_refuted show time running backwards without it, C33_repeated_event that a one-directional event which the model does not turn back is reported forever at the same time."
},
"C34": {
"status": "proved",
"note": "Exact arithmetic. Zero at step end makes the step throw (C34_zero_at_end_fails)."
},
"C35": {
"status": "proved",
"note": "Real arithmetic with true powers (standard library reals). Sensible settings = positive tolerance, insurance in (0,1], inc_min >= 1, inc_max 0 or >= 1, dec_max in [0,1), max_threshold >= 0; the defaults are. A longer step than max_threshold is left alone (C35_max_threshold_refuted)."
},
"C36": {
"status": "proved",
"note": "C36_attempts holds in any arithmetic with any callbacks; C36_exact in exact arithmetic without events. Findings: a failure can come after an accepted step (C36_failure_leaves_state_refuted), a NaN step is accepted with error 0 (C36_nan_step_refuted), a NaN error norm makes doStep loop forever (C36_nan_norm_refuted)."
},
"C37": {
"status": "proved",
"note": "Exact arithmetic; the numbers of steps must increase (C37_increasing_refuted). C37_step ties the table to the results of the reference solver inside doStep; C37_rk_reference and C37_gragg_reference say what those results are."
},
"C38": {
"status": "proved",
"note": "Closed forms as far as the values fit an int: 31st Romberg and 60th Bulirsch value overflow (C38_unbounded_refuted)."
},
"C39": {
"status": "proved",
"note": "C39_midpoint: exact arithmetic, no events; C39_step: any arithmetic and events. Findings: a step repeated after an exception gives a wrong state (C39_retry_refuted); setInitialState does not reset the event controller (C39_resets_events_refuted)."
},
"C59": {
"status": "proved",
"note": "Findings: one stage with error control accesses the table out of bounds (C59_one_stage_refuted); so does raising max_stages between steps (C59_more_stages_refuted); zero stages give a zero state (C59_no_stages_refuted); observers get the size of the next step instead of that of the accepted one (C59_reported_size_refuted)."
},
"C40": {
"status": "proved",
"note": "Exact arithmetic (C40_cache: any arithmetic). Findings: replacing the right-hand side leaves the cached slope of the old one (C40_cache_other_rhs_refuted; doStep is not affected since it sets the step first); below one half the method is not unconditionally stable (C40_stable_below_half_refuted)."
},
"C41": {
"status": "proved",
"note": "C41_all_or_nothing, C41_failure and C41_defined hold for any arithmetic and components; C41_residual for Newton's method without regularization and observers in exact arithmetic. Finding: setInitialState does not reset the event controller (C41_resets_events_refuted)."
},
"C42": {
"status": "proved",
"note": "Exact arithmetic. Finding: a pattern that does not cover the fill-in gives a wrong result without an error (C42_solve_uncovered_refuted); C42_pattern is a sufficient condition on the pattern. C42_easy_solve: conditions on hd and the Jacobian under which no leading minor vanishes."
},
"C43": {
"status": "proved",
"note": "Exact arithmetic. Finding: the dependence on the velocities of second-order variables (damping) is left out (C43_damping_refuted)."
},
"C44": {
"status": "proved",
"note": "Finding: if the first requested step is zero no decomposition is selected and the solve follows a null pointer (C44_zero_step_refuted)."
},
"C45": {
"status": "proved",
"note": "Exact arithmetic; r_safe asks that callbacks do not throw. Findings: after a refused attempt the step is not that of the method (C45_stale_refuted) and is only of first order (C45_stale_order_refuted)."
},
"C60": {
"status": "proved",
"note": "Exact arithmetic; r_safe asks that callbacks do not throw."
},
"C47": {
"status": "proved",
"note": "Exact arithmetic for the sample values. Refutations: C47_mean_square_refuted, C47_rejected_sample_refuted, C47_default_refuted, C47_timing_wrap_refuted."
},
"C50": {
"status": "proved",
"note": "log10 taken exact enough for its integer part. Refutations: C50_large_index_refuted, C50_index_beyond_count_refuted."
},
"C53": {
"status": "proved",
"note": "Exact (rational/real) arithmetic. Refutations: C53_modp_refuted, C53_roundi_refuted."
},
"C48": {
"status": "proved",
"note": "Exact arithmetic; number formatting and files not modelled. Refutation: C48_initial_line_refuted."
},
"C49": {
"status": "proved",
"note": "Refutation: C49_large_limit_refuted."
},
"C61": {
"status": "proved",
"note": "Timers and right-hand side counters not modelled. Refutation: C61_extrapolation_refuted."
},
"C46": {
"status": "proved",
"note": "Exact arithmetic; order 0 and orders of 31 or more (1 << p) outside the model. Refutations: C46_estimate_only_refuted, C46_state_after_truncation_refuted."
},
"C52": {
"status": "proved",
"note": "Refutations: C52_exact_end_refuted, C52_after_on_exception_refuted. C52_outputs_set says which outputs the selected options install. Exceptions of the options themselves not modelled."
},
"C62": {
"status": "proved",
"note": "Refutations: C62_default_size_refuted, C62_no_rhs_refuted."
},
"C51": {
"status": "proved",
"note": "Printing and reading of numbers are parameters of the model; the numerical part is for 53-bit numbers without exponent limits. Refutations: C51_shrink_refuted, C51_all_or_nothing_refuted, C51_sixteen_digits_refuted."
},
"C63": {
"status": "proved",
"note": "Exact rational arithmetic. Refutations: C63_never_fails_refuted, C63_euler_energy_refuted, C63_time_negative_refuted. Implicit and adaptive solvers on the ball not stated."
},
"C64": {
"status": "proved",
"note": "C64_restart_hangs and C64_restart_refuted: the flag of a stuck ball is never reset."
},
"C65": {
"status": "proved",
"note": "The first variation of the energy along the slopes vanishes; no statement about the discrete energy of a method on the nonlinear chain."
},
"C66": {
"status": "proved",
"note": "Exact arithmetic; the implicit solver with a Newton solver that uses finite differences, exact on linear systems (C41)."
},
"C67": {
"status": "proved",
"note": "The cosine is an arbitrary function. Exact arithmetic."
},
"C68": {
"status": "proved",
"note": "Over the real numbers (standard library axioms). Refutations: C68_linear_bound_refuted, C68_negative_speed_refuted."
},
"C69": {
"status": "proved",
"note": "Exact rationals. Necessity: C69_sparse_mapping_refuted (a mapping with a zero element in its Jacobian makes the second direction throw), C69_hard_reset_refuted (hardResetMayHelp is true, but the default provider does not recompute). Equal consecutive points divide by zero (example same_point_nan)."
},
"C70": {
"status": "proved",
"note": "Exact rationals. C70_secant_refuted: the secant equation itself does not hold when a row does not store all positions of the step."
},
"C71": {
"status": "proved",
"note": "Exact rationals; lazy_iterations any value. C71_secant_refuted: the corrected matrix does not satisfy the secant equation (it overshoots). A run computes at least one direction (true of NewtonSolver with a positive iteration limit)."
},
"C72": {
"status": "proved",
"note": "Exact rationals. Steps invisible to a row of the update are excluded (they divide by zero, see C21)."
},
"C73": {
"status": "proved",
"note": "Over the real numbers (no rounding). Uses the axioms of the classical reals of the standard library."
},
"C74": {
"status": "proved",
"note": "First order for every consistent method; the order p of the tables gives order p of the error by C75. Real numbers, no rounding, no events. Without consistency false: C74_inconsistent_refuted."
},
"C75": {
"status": "proved",
"note": "Over the real numbers (stdlib axioms), no rounding of the arithmetic. Smoothness is stated as Taylor expansions with bounded coefficients along the solution (HighSpec.v, smooth_along); C75_smooth derives it from bounded partial derivatives, and C75_linear needs no smoothness assumption for linear systems. One constant C serves all step sizes and, in C75_rounded and C75_adaptive, all tables with bounded entries, so that the rounded 8(7) table gets the bound C (d + h^8 + 1e-16). C75_euler_second_order_refuted shows that the exponent is sharp for Euler's method. Discrete events are off (no_events)."
},
"C76": {
"status": "proved",
"note": "About PersModel.v: all classes the library registers, their parameters, defaults and nested components, in a process whose factories are those of FacModel. Classes of the user are allowed in the process; names that create them count as throwing in r_new (their own parameters are not modelled). Not atomic, and incomplete trees are undefined behaviour: *_refuted in ExPers.v."
},
"C77": {
"status": "proved",
"note": "About TimeModel.v; readings of the tick counter and the clock are inputs, milliseconds are exact rationals. Limits of the claim (2^32 hours, nested scopes, a refresh that throws, use before stop, second stop) are *_refuted in ExTime.v."
},
"C78": {
"status": "proved",
"note": "C78_error (order 1, any alpha in [0,1]), C78_second_order (alpha = 1/2), C78_stiff and C78_contraction (alpha = 1, one-sided Lipschitz, any step size), over the reals, for the rational runs of the Newton model with any descent direction. Runs whose steps return are considered: when Newton fails the step reports that (C41). C78_contraction_any_alpha_refuted: below alpha = 1/2 contraction fails."
},
"C79": {
"status": "proved",
"note": "C79_rk_table and C79_gragg_table (every accepted step is a step of one Runge-Kutta table that satisfies the order conditions), C79_reported (order() for Euler and Gragg), C79_sequences (the step sequences of the library), C79_rk_convergence and C79_gragg_convergence over the reals for the rational runs. Without events. Refutations: order() overstates for RK4, for Euler declared symmetric, for Gragg not declared symmetric."
},
"C80": {
"status": "proved",
"note": "Exact arithmetic, constant step size between two settings of it, no events. C80_third_order_refuted and C80_decay_refuted delimit it. The constants are explicit."
},
"C81": {
"status": "proved",
"note": "Exact arithmetic. C81_w1, C81_sw_second, C81_sw_first give the error bounds with explicit constants, C81_w1_runs and C81_sw_runs (without error control) that such runs exist; examples for x' = x with any step sizes up to 1/4. C81_w1_second_refuted: W1 is of order one exactly."
},
"C82": {
"status": "proved",
"note": "The restart theorems assume that the callbacks behave from the restart on (r_safe) and that the matrix W can be decomposed (solvable, as in C42). Retrying is refuted by C82_w1_retry, C82_sw_retry and the _refuted theorems."
},
"C83": {
"status": "proved",
"note": "Rounded arithmetic is a Num instance (FNum rnd) of the same solver model: + - * / rounded, sign, absolute value and comparison exact, exponents unbounded above (no overflow, no NaN). binary64 is Flocq's round to nearest even with FLT_exp (-1074) 53; Flocq brings standard library axioms only. One theorem (C83_any_arithmetic) is about every Num and assumes nothing."
},
"C84": {
"status": "proved",
"note": "C84_any_arithmetic: the operations in any arithmetic; C84_backward: error of the product and residual; C84_binary53: doubles without limits of the exponent; C84_same_program: the program is the one of C06-C09. No underflow, overflow or contraction to fused operations is modelled. Needs nonzero computed pivots (C84_zero_pivot_refuted) and a covering stencil (C84_uncovered_refuted). C84_dominant, C84_error: for matrices dominated by their diagonal no condition on the pivots is needed, and the error against the exact solution is bounded. The margin is needed (C84_margin_refuted)."
},
"C85": {
"status": "proved",
"note": "Relative error of every operation: no underflow or overflow. C85_relative_to_result_refuted shows that the bounds cannot be stated relative to the result."
},
"C86": {
"status": "proved",
"note": "C86_large_components_refuted shows that the condition on the increment is needed. No underflow or overflow."
},
"C87": {
"status": "proved",
"note": "C87_error, C87_second_order and C87_stiff take the bound B on the states along the run as a hypothesis (C87_case shows runs meeting it); C87_follows, C87_follows_second_order and C87_follows_stiff replace it by linear growth of the right-hand side. No overflow."
},
"C88": {
"status": "proved",
"note": "All operations of the solver are rounded; no overflow; slopes are bounded on the region |x| <= B, |t| <= S, which the computed states are proved not to leave."
},
"C89": {
"status": "proved",
"note": "Sizes are limited to 2^1000, which leaves a margin of 2^24 below the largest double, and stage counts (and, for linear systems, dimensions) to 4096. C89_overflow_refuted shows that a limit is needed. The right-hand side is related to a function on reals, so the sign of zero must not matter to it. C89_adaptive is about the run of accepted steps; that the numbers computed in a rejected attempt are finite is not claimed."
},
"C90": {
"status": "proved",
"note": "Sizes are limited to 2^1000. C90_smoothed_overflow_refuted shows that a limit is needed: the smoothed state can be infinite although the state is finite and the exact mean is in range. Discrete events are off (no_events)."
},
"C91": {
"status": "proved",
"note": "C91_dot, C91_norms, C91_matrix_times_vector, C91_vector_times_matrix, C91_product, C91_matrix_norms: finite results and their errors; C91_nan, C91_matrix_nan, C91_vector_times_matrix_nan, C91_matrix_norms_nan: NaN is not lost. Findings: C91_norm_overflow_refuted, C91_norm_underflow_refuted, C91_infnorm_nan_refuted, C91_matrix_infnorm_nan_refuted, C91_matrix_nan_refuted (elements that are not stored do not meet NaN), C91_matrix_overflow_refuted. The condition on the length (n+1 <= 2^51) holds for every vector that fits in memory."
},
"C92": {
"status": "proved",
"note": "C92_visible, C92_accuracy, C92_nonzero_solution. Findings: C92_silent_overflow_refuted (a pivot overflows to -inf and the solution (1, 0) is finite but wrong, so C92_accuracy needs finite pivots or, C92_nonzero_solution, components other than zero), C92_nan_everywhere_refuted (NaN in one component does not reach components that do not depend on it)."
}
}