# Formal model of ode_num_int — design

Everything is in Rocq/Coq 8.16.1 under `rocq/theories` (logical name `Verif`).

## Modelling conventions

* **Scalars.** Four ways, stated per file.
  1. *Abstract numbers*: an arbitrary carrier with arbitrary operations and comparisons and **no laws**
     (record `Num` in `Base.v`).  Theorems proved this way hold verbatim for IEEE doubles, including rounding
     and NaN, because only the sequence of operations matters.
  2. *Exact arithmetic*: canonical rationals `Qc`.  Every finite double is a rational; rounding is **not** modelled (for rounding see `FNum`, C83: reals with every operation rounded, without overflow).
     Used where the claim needs field laws (LU, extrapolation, events, order conditions).
  3. *Reals* `R` only where powers, exact solutions or limits are unavoidable (step-size controller, sliding point, convergence).
     Brings in the standard library axioms of the classical reals.
  4. *Rounded reals* `FNum rnd`: every + - * / is followed by a rounding with given error bounds; binary64 from Flocq is one of them (C83).
* **NaN** is modelled, where a claim is about it, as `option Qc` (`None` = NaN, comparisons false).
* **Failure.** `Outcome A := Ret a | Throw | UB`.  A C++ exception is `Throw`; undefined behaviour
  (out-of-bounds `operator[]` on raw containers, null dereference, fill past the end) is `UB`, never a convenient value.
* **Build configuration.** Release build on Linux: `ASSERT` expands to nothing (`infra/cxx_assert.h` 90-102).
* **Virtual components / callbacks** (right-hand sides, mappings, observers) are arbitrary Gallina functions,
  universally quantified in the theorems; where call counts or call order matter, calls are recorded in a trace.
* **Unsigned / int widths** are modelled where the property mentions overflow; elsewhere indices are `nat` and the
  absence of wrap-around is part of the simplification noted in the definition's comment.
* Files `*Model.v` hold definitions only, `*Facts.v` proofs, `Properties*.v` only the property theorems with
  `Print Assumptions`.  `*Spec.v` hold small specifications independent of the model.

## Properties, what is modelled, how proved

| id | model | proof |
|----|-------|-------|
| C01 | vectors as lists, loop of `+=` element by element with `at` | induction on the loop |
| C02 | `std::map<Index,elem>` as strictly sorted association list | invariant over operation lists, refinement to a function position -> option value |
| C03 | sorted array, `lower_bound` as halving loop | loop invariant of binary search; refinement to C02 |
| C04, C05 | kernels as folds over stored elements | sums over stored elements = sums over all indices, using sortedness (no duplicates) |
| C06-C09 | skyline arrays `p,q,s`, `L` rows, `U` columns; factorize loop, solve, elementAt, Hart update | loop invariants on the partial factorization (exact arithmetic); for C07 also: leading blocks of dominant and of positive definite matrices are nonsingular (DomFacts) |
| C10-C12 | id-keyed map of callbacks | invariants over histories of add/remove |
| C13 | per-interface maps | refinement to last-writer function |
| C14 | strings, regex_search tokenisation | induction on strings |
| C15 | parameter trees (values + nested records) | induction on paths |
| C16 | decimal printing and parsing, 32-bit wrap | induction on digits |
| C17 | regexes as derivative/recursive matchers | equivalence with grammar predicates |
| C18-C20 | list transformations | induction |
| C21-C24 | mapping calls counted; sparse patterns as lists | induction, disjointness invariants |
| C25-C28 | bounded loops with traces; components arbitrary | loop invariants |
| C29-C32 | stage loop generic in numbers; tables as data from the sources | unfolding to the formula; all rooted trees by exhaustive classification proved complete, field |
| C33, C34 | controller state machine | invariant over step histories |
| C35 | control function over `R` | case analysis |
| C36 | retry loop with trace | loop invariant; well-foundedness through the threshold |
| C37, C38 | in-place Neville table; sequence state machines | induction on columns |
| C39 | two interleaved half-step states | refinement to the midpoint recursion |
| C40, C41 | step mapping, Newton outcome | algebra |
| C42-C45 | block elimination, cache as assoc list | algebra; invariant over histories |
| C46 | two half steps and a whole step of an arbitrary solver, statistics | algebra; induction on the passes |
| C47 | error and timing statistics as records of sums | induction on the samples |
| C48, C61 | output thinning automaton, step counters | invariant over the history of step attempts |
| C49 | index loop with fuel, unsigned doubling | induction on the loop |
| C50 | decimal printing with padding | digits lemmas of C16, lexicographic order |
| C51 | specified initial state as a parameter set | induction on the state; powers of ten for the digits |
| C52, C62 | driver loop over an arbitrary solver; configuration | induction on steps, case analysis |
| C53 | integer, rational and real functions | arithmetic |
| C54, C55 | cache automaton; property store | invariants over histories |
| C56, C57 | vector and matrix views | induction on the loops |
| C58 | Jacobian provider as a state machine | invariant over histories |
| C59 | extrapolation solver | case analysis of one pass, well-foundedness through the threshold |
| C60 | linearly implicit Euler | algebra over C42-C44 |
| C63, C64 | bouncing ball with Runge-Kutta solver and event controller | invariant of a step (state of the controller included); energy as a decreasing measure |
| C65 | chain of oscillators | telescoping sums |
| C66, C67 | oscillator and stiff equation under three solvers | one step algebra, induction on steps |
| C68 | sliding point over R | monotone friction law, Cauchy inequality |
| C69 | Broyden direction, any provider | refinement of a history of calls to the textbook recursion; least change by Cauchy's inequality |
| C70 | Broyden update on stored positions | same refinement with factorization layout reuse; row-wise discrepancy |
| C71 | lazy update between runs | same refinement, run by run |
| C72 | Hart update of the factors | invariant: the factors multiply to a secant matrix in the profile |
| C73, C74 | the Runge-Kutta step and both explicit solvers over `R` | textbook formula, Lipschitz estimates of the stages by induction, mean value theorem for the local error, induction on the steps |
| C75 | the same solvers over `R` | exact step and computed step expanded over rooted trees (Taylor forms, Landau calculus, induction on the depth); growth of the accumulated error |
| C76 | all registered classes with parameters, defaults and nested components; `parameters`/`setParameters` of each; the factories of FacModel as filled by the registrators | registration: any permutation (C23 run lemmas); trees: mutual induction on valid objects; no UB: induction on the parameter tree |
| C77 | stopwatch, scoped measurer, calibrator, statistics timers, clock and time-span texts, gathering of timing statistics; modulo 2^64 and 2^32 | modular arithmetic; induction on laps, scopes and the trace of calls |
| C78 | runs of the implicit alpha solver (ImpModel) against the real solution of x' = g(t, x), the right-hand side computing g on rationals | residual of the step equation, discrete Gronwall inequality, Cauchy-Schwarz for the contractive case; induction on the steps |
| C79 | runs of the extrapolation solver (ExtModel) with a Runge-Kutta or the Gragg reference solver, order() (XrkModel) | the extrapolated step is a step of a composed Runge-Kutta table; the weight of each rooted tree is a polynomial in 1/n (in 1/n^2 for Gragg, by the parity of the midpoint recursion), which extrapolation evaluates at 0; convergence by C75's argument |
| C80 | the Gragg solver's steps (ExtModel) | refinement to the two-step midpoint recursion (C39), residual of the midpoint rule by the mean value theorem twice, discrete Gronwall inequality on the larger of two successive errors |
| C81 | runs of W1 and SW2(4) (RosModel), the path of accepted steps as an inductive relation (RcvSpec) | step formulas of C45, bound of the resolvent of I - hdJ for H d (1 + nL) <= 1/2, residuals by the mean value theorem, discrete Gronwall inequality; the same bound gives nonsingular leading blocks and so the existence of runs |
| C82 | the same model, with every exception point of the steps; `used` (RosSpec): any calls with any callbacks | invariant on the storage of the matrices kept by every call however it ends (RexFacts), then the step theorems of C45 and C60 for a hard start; case analysis of the exception points |
| C83 | the same solver model over `FNum rnd` (every operation rounded, coefficients rounded) and over any `Num`; `rounds`, `accurate`, `binary64` in FpSpec | the operations of one step for any arithmetic (FpFacts), error of one operation, of a sum, of a stage, of a step (FpFacts2-3), Gronwall along the run and the order theorem of C75 (FpFacts4-5); Flocq for binary64 |
| C84 | setMatrix, factorize and solve over any `Num` (LufModel, equal to LUModel for rationals) and over `FNum rnd`; `doolittle`, `substituted`, `relative`, `gam` in LufSpec, `dominant_by`, `loss`, `kap` in LudSpec | the stored arrays follow the recurrences of elimination in any arithmetic (LufFacts-2); error of a chain of subtractions and of the final division, backward form (LufFacts3); product of the factors, the two substitutions and the residual (LufFacts4); dominance of the rows survives the elimination up to `loss n u` (LufFacts5, induction on the row and on the step), bound of the inverse by the margin, exact solution by the same program without rounding (LufFacts6) |
| C85 | the vector and sparse matrix operations of VecModel and SpModel over `FNum rnd`; `asum` in RopSpec | error of rounded sums of products over any list (RopFacts); the elements of a row in iteration order, each column at most once, missing ones zero (RopFacts2) |
| C86 | computeJacobian, default_provider and computeSparseJacobian of JacModel over `FNum rnd`; `smooth_along`, `evaluated` in JrnSpec | mean value theorem along a coordinate and rounding errors of the difference quotient (JrnFacts), on top of C21 and C22 |
| C87 | the implicit alpha solver and Newton's method of ImpModel and NewtModel over `FNum rnd`; `machine`, `computes_near`, `slopes_within`, `step_noise` in IfpSpec | invariants of the run for representable states (IfpFacts), residual of the equation against its exact value (IfpFacts2, IfpFacts3), then the recursions of the exact error proofs (IfpFacts4); the bound on the states by induction along the run, for linear growth (IfpFacts5, IfpFacts6) |
| C88 | the Gragg solver of ExtModel over `FNum rnd`; `gragg_noise` in GrfSpec | a two-step recursion with a residual in every half step (GrfFacts), the residual from the rounding of every operation (GrfFacts2, GrfFacts3), the states inside the region by induction along the run (GrfFacts4) |
| C89 | the solver of RkModel over `DNum` (Flocq's `binary_float 53 1024`) in IeeeSpec | every operation within the sizes gives the rounded exact result (IeeeFacts), so the run equals the run over `FNum binary64` step by step (IeeeFacts2), and C83's bound carries over; linear systems close the sizes (IeeeFacts3, IeeeFacts4) and are smooth (LinFacts); adaptive solvers step by step (IeeeFacts5) |
| C90 | the Gragg solver of ExtModel over `DNum` (IeeeSpec) | step by step equal to the run over `FNum binary64` (IeeeFacts6); the size of v follows from that of the smoothed state, and C88's bound carries over (IeeeFacts7) |
| C91 | vdot, vinfnorm, vonenorm, veuclsq of VecModel and smulv, svmul, sprod, sinfnorm, sonenorm, seuclsq of SpModel over `DNum`; `val`, `all_finite` in VdSpec | induction on the sum: every partial sum holds a real number within the error bound, hence no overflow (VdFacts); a row of the product is such a sum over the stored elements of the row (VdFacts2) or column (VdFacts3), and an element of the product of matrices such a sum over those elements of a row that meet stored elements of the column (VdFacts5); norms of matrices are those of the vector of presented elements (VdFacts4); NaN absorbs |
| C92 | LufModel over `DNum` | from C84_any_arithmetic: a finite quotient, difference or product has finite operands (a quotient: a divisor that is neither zero nor NaN), so finiteness goes back from the solution through both substitutions to the factors; NaN absorbs (LudbFacts); accuracy: finite results mean every operation is a rounding of the exact one with relative error 2^-53 or an absolute error below the smallest normal number (IeeeFacts), and the sums of C84 are redone with both kinds of error (LudbFacts2, LudbFacts3) |

Not expressible in this model: rounding error bounds other than those of the explicit Runge-Kutta solvers (C83), of the LU factorizer (C84), of vector and matrix operations (C85), of numerical Jacobians (C86), of the implicit alpha solver (C87) and of the Gragg solver (C88), overflow other than in the explicit Runge-Kutta solvers (C89), the Gragg solver (C90) and vector operations (C91), the LU factorizer (C92: an overflowing pivot can stay invisible), wall-clock timing values, memory reclamation, thread safety
(the library has no threads), template/ABI behaviour of `typeid` names.

## Trusted base

* The kernel of Coq 8.16.1 (and `coqchk`, which re-checks every file).  `vm_compute` is used in examples and in checks of coefficient
  tables; the bytecode machine is part of the kernel.  `native_compute` is not used.
* No axiom is declared in `rocq/theories`; there is no `Admitted`, no `Variable`/`Hypothesis` outside a section, no functor.
* What `Print Assumptions` lists under the theorems of `Prop*.v` and `Ex*.v`:
  "Closed under the global context" for all except those listed between the markers below.  The axioms listed there are those of the
  standard library's real numbers and of classical logic:
  `ClassicalDedekindReals.sig_forall_dec`, `ClassicalDedekindReals.sig_not_dec`,
  `FunctionalExtensionality.functional_extensionality_dep`, `Classical_Prop.classic` (the last one only through lemmas of `Reals`).
* `coqchk -o` additionally lists the opaque module fields `Rdefinitions.RbaseSymbolsImpl.*`, `Rdefinitions.RinvImpl.*` (the standard
  library's sealed definition of the reals) and `Coq.ssr.ssrunder.Under_rel.*` (loaded with ssreflect, which some standard files use);
  they are sealed definitions of the standard library, not assumptions of this development.
* The correspondence between the C++ text and the definitions of `*Model.v` is by reading: every definition cites its lines.

<!-- assumptions:begin -->
* `sig_forall_dec`, `functional_extensionality_dep`: `C35_defaults`, `C36_attempts_bounded`, `C53_basis_combination`, `C53_basis_derivatives`, `C53_basis_ends`, `C53_cubic_derivatives`, `C53_cubic_ends`, `C53_cubic_example`, `C53_cubic_reproduced`, `C53_segment_derivatives`, `C53_segment_ends`, `C68_conditions`, `C73_errors_accumulate`, `C73_growth_euler`, `C73_reference_case`, `C73_two_runs`, `C74_adaptive_case`, `C74_inconsistent_refuted`, `C74_tables`, `C80_third_order_refuted`, `C81_sw_runs`, `C81_w1_runs`, `C81_w1_second_refuted`, `C83_linear_rhs`, `C84_backward`, `C84_case`, `C84_dominant`, `C84_error`, `C84_error_case`, `C84_margin_refuted`, `C84_uncovered_refuted`, `C84_zero_pivot_refuted`, `C85_dot`, `C85_hypotheses`, `C85_matrix_norms`, `C85_matrix_times_vector`, `C85_mulVectLeft`, `C85_mulVectRight`, `C85_norms`, `C85_product`, `C85_relative_to_result_refuted`, `C85_vector_times_square_matrix`, `C87_newton`, `C87_step`.
* `sig_forall_dec`, `sig_not_dec`, `classic`, `functional_extensionality_dep`: `C35_accepted_case`, `C35_accepted_iff`, `C35_accepted_step`, `C35_max_threshold_refuted`, `C35_new_size`, `C35_rejected_case`, `C35_rejected_step`, `C35_slack_case`, `C35_within_tolerance`, `C36_terminates`, `C68_atan_case`, `C68_bounded`, `C68_contracts`, `C68_grows`, `C68_linear_bound_refuted`, `C68_linear_case`, `C68_monotone`, `C68_motion`, `C68_negative_speed_refuted`, `C68_opposes`, `C68_saturates`, `C68_tabular_case`, `C74_adaptive`, `C74_conditions`, `C74_convergence`, `C74_error_bound`, `C74_euler_number`, `C75_adaptive`, `C75_arctan`, `C75_conditions`, `C75_euler_second_order_refuted`, `C75_linear`, `C75_linear_case`, `C75_order`, `C75_rounded`, `C75_sine`, `C75_smooth`, `C78_error`, `C78_error_case`, `C78_second_order`, `C78_second_order_case`, `C78_stiff`, `C78_stiff_case`, `C79_exponential`, `C79_gragg_convergence`, `C79_rk_convergence`, `C80_error`, `C80_exponential`, `C81_sw_exponential`, `C81_sw_first`, `C81_sw_second`, `C81_w1`, `C81_w1_exponential`, `C83_adaptive`, `C83_adaptive_case`, `C83_arctan`, `C83_binary64`, `C83_linear_case`, `C83_order`, `C83_rounding`, `C83_rounding_term_refuted`, `C84_binary53`, `C85_case`, `C86_case`, `C86_columnwise`, `C86_compressed`, `C86_large_components_refuted`, `C87_case`, `C87_error`, `C87_follows`, `C87_follows_case`, `C87_follows_second_order`, `C87_follows_stiff`, `C87_hypotheses`, `C87_second_order`, `C87_stiff`, `C88_case`, `C88_error`, `C89_adaptive`, `C89_adaptive_case`, `C89_exponential`, `C89_linear`, `C89_order`, `C89_overflow_refuted`, `C89_same_run`, `C89_tables`, `C90_case`, `C90_error`, `C90_same_run`, `C90_smoothed_overflow_refuted`, `C91_case`, `C91_dot`, `C91_infnorm_nan_refuted`, `C91_matrix_case`, `C91_matrix_infnorm_nan_refuted`, `C91_matrix_nan`, `C91_matrix_nan_case`, `C91_matrix_nan_refuted`, `C91_matrix_norms`, `C91_matrix_norms_case`, `C91_matrix_norms_nan`, `C91_matrix_norms_nan_case`, `C91_matrix_overflow_refuted`, `C91_matrix_times_vector`, `C91_nan`, `C91_nan_case`, `C91_norm_overflow_refuted`, `C91_norm_underflow_refuted`, `C91_norms`, `C91_norms_case`, `C91_product`, `C91_product_case`, `C91_product_nan_case`, `C91_vector_times_matrix`, `C91_vector_times_matrix_case`, `C91_vector_times_matrix_nan`, `C91_vector_times_matrix_nan_case`, `C92_accuracy`, `C92_accuracy_case`, `C92_case`, `C92_nan_case`, `C92_nan_everywhere_refuted`, `C92_nonzero_solution`, `C92_nonzero_solution_case`, `C92_silent_overflow`, `C92_silent_overflow_refuted`, `C92_visible`.
* `sig_forall_dec`, `sig_not_dec`, `functional_extensionality_dep`: `C78_contraction`, `C78_contraction_any_alpha_refuted`, `C78_contraction_case`.
<!-- assumptions:end -->

## What is modelled

* `la/VectorTemplate.h` (VecModel, VOps), `la/SparseMatrixTemplate.h` (SpModel), `lu/LUFactorizer.h` (LUModel; LufModel for any arithmetic).
* `infra/cxx_observers.h` (ObsModel), `infra/Factory.h`, `infra/PerTypeStorage.h` (FacModel), `infra/OptionalParameters.h` and
  `util/lex_idnum.h` (ParModel, LexModel), `infra/ComponentConfiguration.h`, `infra/def_prop_class.h` (CfgModel).
* `alg/`: vector mappings, narrowing, reordering, scaling (MapModel); numerical Jacobians, grouping, trimmers, provider (JacModel);
  Newton solver, line search, error estimator, descent directions (NewtModel); the four quasi-Newton directions (BroModel).
* `ode/`: explicit and embedded Runge-Kutta solvers and their tables (RkModel, StepModel), step size controller (StepModel), linear event
  controller (EvModel), extrapolation and Gragg (ExtModel), implicit alpha method (ImpModel), Rosenbrock solvers (RosModel), output options
  (OutModel), registration of classes, parameters and defaults of every registered class (PersModel), configuration, driver and Richardson error calculator (DrvModel), specified initial state (InitModel), variable names.
* `ode/test_models/`: bouncing ball, oscillator, chain of oscillators, stiff equation (ModModel), sliding point over R (SlideModel).
* `util/m_inline.h`, `util/ErrorStats.h`, `timing/TimingStats.h` (UtilModel); tick counters, calibration, `util/sys_time.h` (TimeModel).

## What is not modelled

* Rounding of floating-point operations, except where a theorem holds for any arithmetic (abstract `Num`), is about NaN (`NanNum`), or is about rounded arithmetic (`FNum`: C83, explicit Runge-Kutta solvers, no overflow; C84, LU factorizer, and C85, vector and matrix operations, and C86, numerical Jacobians, no underflow or overflow; C87, implicit alpha solver and Newton's method, and C88, Gragg solver, no overflow), or about IEEE doubles with infinities and NaN (`DNum`: C89, explicit Runge-Kutta solvers, and C90, Gragg solver, C91, scalar products and norms of vectors and matrices and their products, and C92, LU factorizer; NaN has no payload).
* The texts of exceptions and help, stream formatting,
  files, console programs (`examples/`, `src/test_*.cpp`), parameters of classes a user adds to the factories, the build system.
* Object lifetime and reference counting; `cxx_mock_ptr.h`, `cxx_zeroinit.h`, macros that only generate accessors.
* Simplifications of single definitions are stated in their comments.

## Findings: claims that are false of the code as it is

Each is a proved theorem about the model, in the `Ex*.v` file of its area, with a concrete witness.

* `C01_overlapping_blocks_refuted`: `v.block(1,4) += v.block(0,4)` accumulates, since the source is overwritten while it is read.
* `C01_shorter_block_refuted`: a block operand that is too short is not reported; the elements behind it are used.
* `C02_resize_drops_outside_refuted`: an element stored outside the declared size survives a resize to the same size.
* `C03_array_from_transposed_refuted`: assigning a transposed view to an array-backed matrix leaves the array out of order; reads miss elements.
* `C03_clone_of_array_refuted`: constructing or cloning a nonempty array-backed matrix throws.
* `C03_failed_resize_keeps_size_refuted`: a refused resize of an array-backed matrix has already changed its size.
* `C04_vector_times_matrix_refuted`, `C04_vector_times_tall_matrix_refuted`: `v*M` with a wide matrix writes past the end; with a tall one the result is too long.
* `C05_transposed_get_rc_refuted`, `C05_transposed_size_refuted`, `C57_block_get_rc_refuted`: `get(row, column)` ignores the view, and a transposed view reports the size of the original.
* `C05_assign_own_view_refuted`: `m = m.scaled(2)` empties `m`.
* `C05_plus_own_transposed_refuted`: `m += m.transposed()` also visits elements it has just inserted.
* `C05_array_product_refuted`: the product of two array-backed matrices throws.
* `C06_exception_safety_refuted`: an exception in `setMatrix` leaves the factorizer with the new dimension and the old arrays.
* `C07_weak_dominance_refuted`: a matrix whose diagonal elements are only as large as the rest of their rows can make the factorizer divide by zero.
* `C07_solve_unconditional_refuted`: for a regular matrix with nonzero leading minors `solve` can be wrong, because fill-in outside the row extents is dropped.
* `C08_refill_solve_like_fresh_refuted`, `C08_refill_larger_refuted`: a refilled factorizer can give a wrong solution where a fresh one is right; a larger matrix is undefined behaviour.
* `C09_proportional_secant_refuted`, `C09_hart_unconditional_refuted`: the proportional update does not satisfy the secant equation; Hart's does only for visible steps.
* `C10_self_unsubscribe_refuted`: a callback that unsubscribes itself during a notification is undefined behaviour.
* `C12_stale_id_refuted`, `C12_id_overflow_refuted`: ids are reused, so a stale id cancels somebody else's subscription; the counter overflows at INT_MAX.
* `C13_type_id_of_created_refuted`, `C13_key_collision_refuted`: a class registered under two ids reports the last; storage keys made of concatenated type names can coincide.
* `C15_put_other_shared_refuted`, `C15_put_get_cyclic_refuted`: get/put laws fail for shared and cyclic parameter sets.
* `C16_unsigned_rejects_out_of_range_refuted`, `C16_int_whole_text_refuted`: "-1" reads as 2^32-1 and "4294967296" as 0; text after NUL is ignored.
* `C17_identifier_sound_refuted`: the identifier check accepts texts that are no identifiers.
* `C18_map_drops_output_indices_refuted`, `C18_map_has_output_size_refuted`: the narrowed mapping drops components by the input indices instead of the output ones.
* `C22_any_pattern_refuted`: the compressed Jacobian is wrong if the given pattern misses a dependence.
* `C24_any_width_refuted`: a width above INT_MAX removes everything.
* `C26_mapping_changed_refuted`, `C26_nan_direction_refuted`: the residual does not follow a change of the mapping; a NaN direction leaves a NaN iterate with a finite residual.
* `C27_divergence_reported_refuted`, `C27_reported_once_refuted`: divergence is reported as an exceeded iteration limit when a hard reset may not help, and failure is reported twice to the direction.
* `C28_far_root_refuted`: an affine root farther than ten times the norm of the guess is found in one iteration, but `run` fails.
* `C29_first_pre_observer_refuted`: the pre-step observers of the first step get an uninitialised step size.
* `C30_single_stage_refuted`: with one stage the first-same-as-last shortcut returns old buffer contents.
* `C31_rk4_order5_refuted`, `C31_dopri45_low_order5_refuted`, `C31_dopri45_high_order6_refuted`, `C31_dopri78_exact_refuted`: the orders are sharp; the DOPRI8(7) quotients satisfy the conditions only approximately.
* `C33_time_backwards_refuted`: with an inconsistent start time can run backwards.
* `C35_max_threshold_refuted`: a step longer than `max_threshold` is left alone.
* `C36_failure_leaves_state_refuted`, `C36_nan_step_refuted`, `C36_nan_norm_refuted`: the "step too small" exception can come after the state has advanced; a NaN step is accepted with error 0; a NaN error norm makes `doStep` loop forever.
* `C37_increasing_refuted`, `C38_unbounded_refuted`: extrapolation needs increasing step numbers; the Romberg sequence overflows at its 31st value, Bulirsch's at its 60th.
* `C39_retry_refuted`, `C39_resets_events_refuted`, `C41_resets_events_refuted`: a Gragg step repeated after an exception is wrong; Gragg and implicit solvers do not reset the event controller in `setInitialState`.
* `C40_cache_other_rhs_refuted`, `C40_stable_below_half_refuted`: replacing the right-hand side leaves the cached slope; below alpha = 1/2 the method is not unconditionally stable.
* `C42_solve_uncovered_refuted`, `C43_damping_refuted`: a pattern that does not cover the fill-in gives wrong results silently; the velocity dependence of second-order variables is left out of the Jacobian.
* `C44_zero_step_refuted`: a first step of size zero follows a null pointer.
* `C45_stale_refuted`, `C45_stale_order_refuted`: after a rejected attempt SW2(4) uses the decomposition for the old step size and drops to first order.
* `C46_estimate_only_refuted`, `C46_state_after_truncation_refuted`: the Richardson value is an estimate only; after a truncated step time and state are inconsistent.
* `C47_mean_square_refuted`, `C47_rejected_sample_refuted`, `C47_default_refuted`, `C47_timing_wrap_refuted`: the reported deviation is wrong for more than one sample; a rejected sample is counted; default statistics accept no sample; tick totals wrap.
* `C48_initial_line_refuted`: the initial line does not count for thinning.
* `C49_large_limit_refuted`: with a limit of 2^31 the index loop never ends.
* `C50_large_index_refuted`, `C50_index_beyond_count_refuted`: index 2^31 is printed as a negative number; an index with more digits than the count throws.
* `C51_shrink_refuted`, `C51_all_or_nothing_refuted`, `C51_sixteen_digits_refuted`: shrinking the specified state is undefined behaviour; a failed `setParameters` leaves it half assigned; 16 digits do not restore every double.
* `C52_exact_end_refuted`, `C52_after_on_exception_refuted`: a run ends up to one step late; after an exception the outputs are not finished.
* `C53_modp_refuted`, `C53_roundi_refuted`: undefined behaviour for the least int.
* `C54_read_reflects_component_refuted`, `C54_external_change_refuted`, `C54_detached_write_refuted`: reads of the facade are stale after a rejected or external change; a write after detaching follows a null pointer.
* `C55_last_notification_is_current_refuted`, `C55_reentrant_set_terminates_refuted`: observers that set the property again see values out of order or recurse forever.
* `C56_assign_own_block_refuted`, `C56_block_assign_stays_inside_refuted`, `C56_infnorm_propagates_nan_refuted`: `v = v.block(1,4)` reads past the end; a block accepts a longer right-hand side; the maximum norm skips NaN, that of a matrix too (`C91_matrix_infnorm_nan_refuted`).
* `C92_silent_overflow_refuted`, `C92_nan_everywhere_refuted`: solving [[1, 2^1000], [2^1000, 1]] x = (1, 1) in doubles gives (1, 0) - finite, and the second equation reads 2^1000 = 1 - because the second pivot overflows to -inf; the solver does not report it.  NaN in one component of the right-hand side does not reach the components that do not depend on it.
* `C91_matrix_nan_refuted`, `C91_matrix_overflow_refuted`: the product of a sparse matrix and a vector does not multiply the elements that are not stored, so NaN in the vector reaches only the rows with an element stored in its column; products of finite elements may overflow.
* `C57_block_assign_stays_inside_refuted`: a source larger than the block is written outside it.
* `C58_trimmer_switched_off_refuted`, `C58_later_pattern_complete_refuted`: removing the trimmer leaves stale addresses; a pattern learned where a derivative vanishes stays incomplete.
* `C59_one_stage_refuted`, `C59_more_stages_refuted`, `C59_no_stages_refuted`, `C59_reported_size_refuted`, `C61_extrapolation_refuted`: the extrapolation solver accesses its table out of bounds for one stage or after raising the number of stages, returns zero for no stages, and reports the size of the next step, which spoils the step statistics.
* `C62_default_size_refuted`, `C62_no_rhs_refuted`: the size of a default initial state is not checked; a specified state without a right-hand side is undefined behaviour.
* `C63_never_fails_refuted`, `C63_exact_landing_fails`: a ball whose first flight is at height zero exactly at the end of a step makes the solver throw. `C63_euler_energy_refuted`: the Euler method gives a falling ball energy. `C63_time_negative_refuted`: with a negative recovery factor (accepted) time stops.
* `C64_restart_refuted`, `C64_restart_hangs`: a ball that has stuck stays stuck after `setInitialState`; it hangs in the air.
* `C69_sparse_mapping_refuted`: Broyden's direction throws as soon as an update changes a position that is not stored in the Jacobian, i.e. for every mapping with structurally or accidentally zero derivatives. `C69_hard_reset_refuted`, `C69_never_recomputed`: with the default provider a hard reset (offered by `hardResetMayHelp`) does not make the Jacobian be computed anew.
* `C70_secant_refuted`, `C71_secant_refuted`: the restricted updates do not satisfy the secant equation; the lazy one adds the correction of every step measured against the same matrix (1, slope 2, two steps: 3).
* `C74_inconsistent_refuted`, `C75_euler_second_order_refuted`: without the first (second) order condition the claim of C74 (order two of C75) is false.
* `C76_not_atomic_refuted`: a setParameters that throws has already set the parameters before the bad one.
* `C76_performer_alone_refuted`: an `i_euler` solver whose Newton solver is given `{itperf: default}` alone dereferences the direction that was reset to null.
* `C76_no_line_search_refuted`: a Newton solver without line search can be saved, but loading what was saved dereferences a null pointer.
* `C76_no_jacobian_refuted`: a Newton solver whose Jacobian provider was set to null cannot be saved (null dereference).
* `C76_no_norm_refuted`: an empty text for an error norm dereferences a null pointer.
* `C76_direction_resets_refuted`: replacing the descent direction by parameters drops the Jacobian provider of the old one.
* `C76_unregistered`: an object of an unregistered class is saved under the empty name and comes back as a null pointer, silently.
* `C77_span_refuted`: from 2^32 hours on the hours of a time span are printed modulo 2^32.
* `C77_stop_refuted`, `C77_not_stopped_refuted`, `C77_second_stop_refuted`: stopping a stopwatch that does not run, converting before a calibrator is stopped, and stopping it twice are silent in a release build and give wrong numbers (or divide by zero).
* `C77_nested_scopes_refuted`: scopes of the same statistics inside each other count twice.
* `C77_broken_refresh_refuted`: after a Jacobian computation that throws, all later right-hand side calls count as made for the Jacobian.
* `C78_contraction_any_alpha_refuted`: with alpha = 1/4 two runs of a dissipative equation move apart.
* `C79_rk4_reported_refuted`, `C79_euler_squares_refuted`, `C79_gragg_reported_refuted`: order() of the extrapolation solver adds one (two with the symmetric flag) per stage whatever the reference solver. That is right for Euler and for Gragg with the flag. With RK4 two stages report order 5 and do not have it; Euler with the flag reports 3 and has not even order 2; Gragg without the flag reports 3 and has order 2.
* `C80_third_order_refuted`, `C80_decay_refuted`: the Gragg solver alone is of order two exactly, as order() says, and it is only weakly stable: for x' = -x with step 1 the plain state is 5/2 after four steps from 1.
* `C81_w1_second_refuted`: W1 has order one only, as order() says; for x' = t the error at time T with step h is T h / 2. With refused attempts SW2(4) is proved to have order one (C81_sw_first); order two needs accepted first attempts (C81_sw_second, C45_stale_refuted).
* `C82_retry_refuted`, `C82_retry_sw_refuted`: if the right-hand side throws in the very first doStep of a Rosenbrock solver, m_k1 has already been resized, so the next doStep takes the soft path and uses the sizes m_n, m_n1, m_n2, which have never been set. The caller has to call setInitialState again.
* `C83_rounding_term_refuted`: in binary64 with steps below 2^-60 Euler's method leaves x = 1 unchanged on x' = 1; the error bound needs the term with the number of steps.
* `C84_margin_refuted`: in rounded arithmetic a matrix strictly dominated by its diagonal, but without a margin, can have a zero pivot.
* `C84_zero_pivot_refuted`, `C84_uncovered_refuted`: the backward error bounds need nonzero pivots and a stencil covering the fill-in; neither is checked by the factorizer.
* `C85_relative_to_result_refuted`: when products cancel, the error of a scalar product is not bounded by any multiple of the result.
* `C86_large_components_refuted`: the increment of numerical Jacobians is the absolute number 1e-6, whatever the magnitude of the variables; for a component of 2^40 it is lost in rounding and the computed derivatives are all zero (for components of that size a singular Newton matrix, no error message).
* `C89_overflow_refuted`: from the finite double 2^1023 one step of Euler's method on x' = x gives an infinite state, and nothing is thrown.
* `C90_smoothed_overflow_refuted`: the smoothed state of the Gragg solver can be infinite although the state is finite and the exact mean is in range.
* `C91_norm_overflow_refuted`, `C91_norm_underflow_refuted`, `C91_infnorm_nan_refuted`: in doubles the square of the euclidean norm of (2^600) is infinite and that of (2^-600) is zero, so a vector that is not zero can pass for zero; the maximum norm skips NaN.
* `C91_matrix_nan_refuted`, `C91_matrix_overflow_refuted`: the product of a sparse matrix and a vector does not multiply the elements that are not stored, so NaN in the vector reaches only the rows with an element stored in its column; products of finite elements may overflow.
* `C68_negative_speed_refuted`: a negative saturation speed (accepted) turns friction into a driving force.

Further observations made while reading, not stated as theorems: the Rosenbrock solvers' `setInitialState` does not reset the event controller;
`SW2_4::setInitialState` with `soft` before the first step writes into an unallocated vector; an exception in `buildJacobian` leaves the work
vectors allocated, so the next step skips the initialisation; the Richardson calculator leaves error checking switched off after an exception
and shifts by the order (undefined for 31 or more); the driver never ends for a step size of zero or less (`C52`).
