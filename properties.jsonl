{"id": "C01", "title": "Vector compound arithmetic is element-wise", "statement": "For two vectors of the same size, a += b, a -= b, a *= s and the scaled/block views compute exactly the element-wise result, keep the size, and leave the other operand unchanged (operands that are views of the same vector must not overlap in the direction in which already updated elements are read again). When the right operand is a shorter vector, += / -= report an out-of-range error after having updated exactly the common prefix (a shorter block operand is not noticed and reads on in its source); when it is longer, the excess is silently ignored.", "quantifier": "all vectors, all lengths, all scalars, all block offsets", "why_tests_cant": "sizes and element values are unbounded and the mismatch behaviour depends on every pair of lengths", "anchors": ["include/ode_num_int/la/VectorTemplate.h: VectorTemplate::operator+=, operator-=, operator*=, block, scaled"]}
{"id": "C02", "title": "Sparse matrix behaves as a finite map for every history of edits", "statement": "After any sequence of element writes, removals and resizes, reading an element returns the last value written to that position if it was not removed or cut off since, and zero otherwise; iteration visits the stored positions once each in row-major order.", "quantifier": "all sequences of write / remove / resize / clear operations, all positions", "why_tests_cant": "the claim is about every history of operations", "anchors": ["include/ode_num_int/la/SparseMatrixTemplate.h: SparseMatrixData::get, at, removeAt, resizeData, begin/end"]}
{"id": "C03", "title": "Fast sparse storage reads the same as the map storage it was assigned from", "statement": "Assigning any map-backed sparse matrix to a fast (sorted array) matrix and reading any position by binary search yields the same value as reading the map; writing to an existing position is the map update; writing to a position outside the stored pattern reports an error and changes nothing.", "quantifier": "all matrices, all positions, present or absent", "why_tests_cant": "binary search must be right for every number of stored elements and every probe", "anchors": ["include/ode_num_int/la/SparseMatrixTemplate.h: SparseMatrixFastData::get, at, copyFrom"]}
{"id": "C04", "title": "Matrix-vector products are the mathematical ones", "statement": "M*v and the raw mulVectRight / mulVectLeft kernels return, for each output index, the sum of element*component over all columns (rows), whatever the sparsity pattern and storage. For v*M this needs the matrix to be square: otherwise the allocated result has the wrong length.", "quantifier": "all matrices, vectors and storages", "why_tests_cant": "all sizes and patterns", "anchors": ["include/ode_num_int/la/SparseMatrixTemplate.h: mulVectRight, mulVectLeft, operator*(M,v), operator*(v,M)"]}
{"id": "C05", "title": "Matrix algebra operations are pointwise / row-by-column", "statement": "operator* of two map-backed matrices has elements equal to the row-by-column sums, += and -= are pointwise, addScaledIdentity adds to the diagonal only, makeZero keeps the pattern and zeroes values, transposed/scaled views present the transposed/scaled elements.", "quantifier": "all pairs of matrices of compatible size, all patterns", "why_tests_cant": "all sizes and patterns", "anchors": ["include/ode_num_int/la/SparseMatrixTemplate.h: operator*, operator+=, operator-=, addScaledIdentity, makeZero, transposed, scaled"]}
{"id": "C06", "title": "LU decomposition reproduces the matrix", "statement": "After an LUFactorizer is given a square matrix with full diagonal, elementAt(r,c) returns the matrix element for every r,c; it still does after the factorization ran, provided no pivot is zero; L is unit lower triangular, U upper triangular, and L*U equals the matrix (exact arithmetic).", "quantifier": "all sizes, all sparsity patterns with covered diagonal, all element values with nonzero pivots", "why_tests_cant": "all matrices", "anchors": ["include/ode_num_int/lu/LUFactorizer.h: setMatrix, factorize, elementAt", "include/ode_num_int/lu/util.h: luToMatrix"]}
{"id": "C07", "title": "LU solve returns the solution of the linear system", "statement": "solve(b) overwrites b with x such that A*x = b (exact arithmetic, nonzero pivots), for every matrix whose row extents recorded from the stencil cover the fill-in of U (in particular for every full, banded-by-row-extent, upper or lower triangular stencil). Without that condition the result can be wrong: fill-in right of the last stored element of a row is ignored. No pivoting is done, so the leading blocks of the matrix must be nonsingular; this holds for every matrix strictly dominated by its diagonal, by rows or by columns, and for every positive definite one, symmetric or not. Dominance in the weak sense is not enough.", "quantifier": "all matrices, right-hand sides and patterns", "why_tests_cant": "all matrices; and the defect needs a specific fill-in pattern that random tests of full or banded matrices never produce", "anchors": ["include/ode_num_int/lu/LUFactorizer.h: solve, setMatrix, factorize"]}
{"id": "C08", "title": "Refilling the LU factorizer with a matrix of the same stencil equals building it afresh", "statement": "setMatrixFast(B) on a factorizer previously built from A gives the same decomposition as a fresh factorizer for B, whenever every position of B lies inside the profile of A; when some position lies outside the profile it falls back to the full rebuild. Positions beyond the dimension are outside the contract (out-of-bounds access).", "quantifier": "all pairs of matrices", "why_tests_cant": "all stencil pairs", "anchors": ["include/ode_num_int/lu/LUFactorizer.h: setMatrixFast, setMatrix"]}
{"id": "C09", "title": "Secant update of the LU decomposition satisfies the secant equation and keeps the stencil", "statement": "After the Hart update with step s and residual change y, the updated decomposition satisfies L*U*s = y row by row (exact arithmetic, rows where the projected step is nonzero), and no element outside the profile becomes nonzero. The proportional update does not satisfy the secant equation.", "quantifier": "all decompositions, all s and y", "why_tests_cant": "all matrices and vectors", "anchors": ["include/ode_num_int/lu/LUFactorizer.h: secantUpdateHart, secantUpdateProportional"]}
{"id": "C10", "title": "Observers fire exactly once each, in subscription order", "statement": "Invoking an observer list after any history of subscriptions and cancellations calls each still-subscribed callback exactly once, in the order of subscription.", "quantifier": "all histories of add / remove / clear", "why_tests_cant": "all histories", "anchors": ["include/ode_num_int/infra/cxx_observers.h: IdentifiedElements, Observers::operator()"]}
{"id": "C11", "title": "Terminating observers return the logical OR and never short-circuit", "statement": "A terminating observer list calls every subscriber even if an earlier one already returned true, and returns true iff at least one of them did; forwarding one list to another composes.", "quantifier": "all subscriber lists and all return values", "why_tests_cant": "all lists", "anchors": ["include/ode_num_int/infra/cxx_observers.h: TerminatingObservers::operator(), forwardObservers"]}
{"id": "C12", "title": "Subscription ids are unique among live subscriptions", "statement": "The id returned by a subscription differs from every id currently live, cancelling an id removes that subscription only, and a scoped subscription restores the list. Ids are reused: after cancelling the most recent subscription a stale id may denote someone else's subscription.", "quantifier": "all histories of add / remove", "why_tests_cant": "all histories", "anchors": ["include/ode_num_int/infra/cxx_observers.h: IdentifiedElements::add, remove, newId; ScopedIdentifiedElement"]}
{"id": "C13", "title": "Factory lookup returns the last registered generator", "statement": "After any sequence of registrations newInstance(id) runs the generator registered (last) under id and fails with an error for unregistered ids; registeredTypes lists each id once in sorted order; registries of different interfaces do not interfere.", "quantifier": "all registration sequences, all ids, all interfaces", "why_tests_cant": "all histories", "anchors": ["include/ode_num_int/infra/Factory.h: registerType, newInstance, registeredTypes, isTypeRegistered", "include/ode_num_int/infra/PerTypeStorage.h: value"]}
{"id": "C14", "title": "Parameter paths round-trip through their text form", "statement": "Formatting a path and parsing it back returns the same path exactly when every component is non-empty and contains no dot. Text with an empty component is silently cut at that component.", "quantifier": "all lists of strings, all strings", "why_tests_cant": "all strings", "anchors": ["include/ode_num_int/infra/OptionalParameters.h: parsePath, formatPath"]}
{"id": "C15", "title": "Nested parameter access obeys get/put laws", "statement": "In a parameter tree where no nested set is shared, setting the value at a path and reading it back returns it; reading other paths that do not pass through it is unaffected; missing components are reported as errors. Copying a value shares its nested set, so writing below one copy changes the other copy.", "quantifier": "all parameter trees and all paths", "why_tests_cant": "all trees", "anchors": ["include/ode_num_int/infra/OptionalParameters.h: parameters(root,path), value(root,path)"]}
{"id": "C16", "title": "Integer and boolean parameter values round-trip; unsigned conversion wraps", "statement": "For every int, unsigned and bool, converting to a parameter value and back yields the same number. Reading text as int accepts exactly optionally signed decimal literals in range; reading as unsigned accepts any literal whose magnitude fits 64 bits and silently wraps it modulo 2^32, negative literals included. Text after an embedded NUL is ignored.", "quantifier": "all int / unsigned values, all strings", "why_tests_cant": "2^32 values and all strings", "anchors": ["include/ode_num_int/infra/OptionalParameters.h: Value constructors, toType", "include/ode_num_int/util/lex_idnum.h: IsIntegerNumber"]}
{"id": "C17", "title": "Lexical classifiers accept exactly their grammar", "statement": "IsIntegerNumber and IsNumber accept exactly the documented number grammar; IsIdentifier accepts exactly a nonempty word whose first character is in the class [A-Za-z_] widened by the six ASCII characters between Z and a, so it is not the C identifier grammar.", "quantifier": "all strings", "why_tests_cant": "all strings", "anchors": ["include/ode_num_int/util/lex_idnum.h: IsIdentifier, IsIntegerNumber, IsNumber"]}
{"id": "C18", "title": "Narrowing a vector and widening it back", "statement": "Narrowing by an index set is accepted iff all indices are in range; narrowInput/narrowOutput remove exactly the disabled components keeping the order of the others; widenInput re-inserts the frozen values and narrowing that gives the argument back; the narrowed mapping widens its argument, maps it, and narrows the value by the disabled input indices whenever any output is disabled: this is narrow o f o widen when the input and output index sets agree. Not true when they differ, nor that the value always has the reported output size.", "quantifier": "all vectors, all disabled index sets (any order, with duplicates)", "why_tests_cant": "all subsets", "anchors": ["include/ode_num_int/alg/VectorNarrowingMapping.h"]}
{"id": "C19", "title": "Reordering is inverted by unordering", "statement": "For every permutation of the variables orderInput/unorderInput (and output) are mutually inverse and the reordered mapping is the original conjugated by the permutation.", "quantifier": "all permutations, vectors and mappings", "why_tests_cant": "all permutations", "anchors": ["include/ode_num_int/alg/VectorReorderingMapping.h"]}
{"id": "C20", "title": "Diagonal scaling is invertible and the normalizer is a change of variables", "statement": "DiagonalMapping: unmap(map x) = x for all x iff no diagonal element is zero; MappingNormalizer's mapping is D o f o D; normalize on an affine mapping makes every diagonal element of the scaled Jacobian +-1 and throws iff some diagonal element is zero.", "quantifier": "all vectors, all diagonals", "why_tests_cant": "all vectors", "anchors": ["include/ode_num_int/alg/DiagonalMapping.h", "include/ode_num_int/alg/MappingNormalizer.h"]}
{"id": "C21", "title": "Numerical Jacobian is exact on affine mappings and pattern-sound", "statement": "computeJacobian of an affine mapping returns its matrix exactly (exact arithmetic) and stores an element only where the finite difference is nonzero; it evaluates the mapping exactly n+1 times and never changes the argument.", "quantifier": "all mappings, all points", "why_tests_cant": "all mappings", "anchors": ["include/ode_num_int/alg/computeJacobian.h"]}
{"id": "C22", "title": "Compressed sparse Jacobian equals the column-by-column one", "statement": "With columns grouped by the calculator, each group evaluated with one mapping call, the resulting elements equal those of perturbing each column separately, provided each output depends only on the variables of its row of the pattern; the number of mapping calls is the number of groups plus one.", "quantifier": "all patterns, all mappings respecting the pattern, all points", "why_tests_cant": "all patterns and mappings", "anchors": ["include/ode_num_int/alg/SparseJacobianCalculator.h"]}
{"id": "C23", "title": "Column grouping is a partition into structurally orthogonal groups", "statement": "Every column with stored elements belongs to exactly one group and no two columns of a group share a row.", "quantifier": "all sparsity patterns", "why_tests_cant": "all patterns", "anchors": ["include/ode_num_int/alg/SparseJacobianCalculator.h"]}
{"id": "C24", "title": "Jacobian trimmers keep exactly the documented elements", "statement": "The width trimmer with 0 < width < 2^31 keeps element (r,c) iff |r-c| < width (0: everything; indices below 2^31), the threshold trimmer keeps the diagonal and every element at least threshold times the largest; kept values are unchanged; trimming is idempotent.", "quantifier": "all matrices, widths and thresholds", "why_tests_cant": "all matrices", "anchors": ["include/ode_num_int/alg/JacobianWidthBasedTrimmer.h", "include/ode_num_int/alg/JacobianThresholdBasedTrimmer.h"]}
{"id": "C25", "title": "Line search returns a consistent, strictly improving step or none", "statement": "The returned step ratio is 0 or +-2^-k with k < max_step_truncations; when nonzero, the reported residual is the mapping at x0 + ratio*direction, its norm is strictly smaller than the initial one and minimal among the evaluated trials; when 0 no trial improved and the residual is untouched; reverse steps are tried only after all forward ones failed; the search stops at the first trial below the acceptance ratio; the mapping is called at most 2*max_step_truncations times.", "quantifier": "all mappings, points, directions and settings", "why_tests_cant": "all mappings", "anchors": ["include/ode_num_int/alg/SimpleNewtonLinearSearch.h"]}
{"id": "C26", "title": "Newton iteration keeps residual and iterate consistent", "statement": "After any history of setInitialGuess, reset and iterations with one mapping and finite directions, the residual reported is the mapping at the current solution; an iteration never increases its norm and decreases it strictly unless the step ratio is 0, when the iterate stays; the status is Converged only if both the residual and the relative change are within the tolerances.", "quantifier": "all mappings, descent directions, numbers of iterations", "why_tests_cant": "all runs", "anchors": ["include/ode_num_int/alg/NewtonIterationPerformerImpl.h", "include/ode_num_int/alg/SimpleErrorEstimator.h"]}
{"id": "C27", "title": "Newton solver terminates and reports truthfully", "statement": "run() makes at most two attempts of at most the limit of iterations each, numbered from 0, the second from the initial solution; observers are called once per iteration, numbered consecutively; it returns Converged iff success is reported, right after an iteration the estimator accepted (then the residual at the solution is within tolerance); Terminated iff an observer asked; Diverged only after the restart; otherwise iteration limit exceeded, which also covers divergence when a hard reset cannot help.", "quantifier": "all component behaviours (adversarial estimators, observers, descent directions)", "why_tests_cant": "all component behaviours and all iteration counts", "anchors": ["include/ode_num_int/alg/NewtonSolver.h: run"]}
{"id": "C28", "title": "Newton descent direction solves the linearized equation; one full step solves affine systems", "statement": "Whatever Jacobians the factorizer's storage was used for before, the descent direction d satisfies J*d = -f(x0) with the current Jacobian (elimination without pivoting possible and fill within the profile); for an affine mapping the first iteration lands on the root and run() converges in at most two iterations, unless the relative-change threshold stops it.", "quantifier": "all affine mappings and points", "why_tests_cant": "all mappings", "anchors": ["include/ode_num_int/alg/SimpleNewtonDescentDirection.h", "include/ode_num_int/alg/NewtonIterationPerformerImpl.h"]}
{"id": "C29", "title": "Explicit Runge-Kutta step is the textbook formula", "statement": "The step helper computes k_s = f(t+c_s h, x + h*sum a_sj k_j) and x2 = x + h*sum b_s k_s for every coefficient table, skipping zero coefficients without changing the result; it evaluates the right-hand side once per stage and does not modify the initial state.", "quantifier": "all coefficient tables, right-hand sides, states, steps", "why_tests_cant": "all right-hand sides and tables", "anchors": ["include/ode_num_int/ode/ExplicitRKHelper.h: compute"]}
{"id": "C30", "title": "First-same-as-last shortcut is equivalent to the formula", "statement": "When a solution row of the table repeats the last stage row, taking the last stage argument as the solution gives bit-for-bit the same vector as evaluating the row.", "quantifier": "all right-hand sides, states, number systems (no arithmetic laws used)", "why_tests_cant": "all right-hand sides", "anchors": ["include/ode_num_int/ode/ExplicitRKHelper.h: compute, last_k_arg_as_x2_index", "include/ode_num_int/ode/OdeSolverDOPRI45.h"]}
{"id": "C31", "title": "The Runge-Kutta tables have the advertised order", "statement": "For every rooted tree of order up to the advertised order the elementary weight of Euler, RK4, DOPRI5(4), DOPRI6(5) equals 1/gamma(tree) exactly; for DOPRI8(7) within 1e-17.", "quantifier": "all rooted trees with at most p nodes", "why_tests_cant": "numerical order tests on sample problems cannot separate order conditions", "anchors": ["include/ode_num_int/ode/OdeSolverExplicitEuler.h", "include/ode_num_int/ode/OdeSolverRK4.h", "include/ode_num_int/ode/OdeSolverDOPRI45.h", "include/ode_num_int/ode/OdeSolverDOPRI56.h", "include/ode_num_int/ode/OdeSolverDOPRI78.h"]}
{"id": "C32", "title": "Runge-Kutta steps reproduce the Taylor polynomial on linear problems and integrate polynomials exactly", "statement": "On x' = M x with any matrix M a step of an order-p table agrees with the exponential series through h^p and, when the table has p stages (Euler, RK4), equals its truncation; on x' = polynomial in t of degree < p the step is exact.", "quantifier": "all lambda, h, x, t and polynomials", "why_tests_cant": "all real inputs", "anchors": ["include/ode_num_int/ode/OdeSolverRK4.h", "include/ode_num_int/ode/OdeSolverExplicitEuler.h"]}
{"id": "C33", "title": "Event location never moves time outside the step", "statement": "If the event states are consistent with the event function values at step start and no event function ends exactly at zero when crossing, a step with an event ends at a time t with t_start <= t < t_end, at the linear interpolation of the states, and consistency is preserved. A one-directional event function that starts (or is recomputed) on its far side makes time run backwards or the step fail.", "quantifier": "all event function values, flags, histories of steps", "why_tests_cant": "all sign patterns and histories", "anchors": ["include/ode_num_int/ode/LinearOdeEventController.h: atStepStart, atStepEnd, xz, s"]}
{"id": "C34", "title": "The earliest crossing is the one processed, exactly one per truncated step", "statement": "Among the event functions that changed sign the one with the smallest interpolated crossing time is reported, exactly one transition is passed to the model, and no other function has changed sign at the truncated end point. An event function that becomes exactly zero at step end is not located (the step fails with an out-of-range error).", "quantifier": "all event function values and flags", "why_tests_cant": "all combinations", "anchors": ["include/ode_num_int/ode/LinearOdeEventController.h: atStepEnd"]}
{"id": "C35", "title": "Step size controller accepts iff the error is within tolerance and changes the step within bounds", "statement": "A step is accepted if the error norm does not exceed the tolerance, rejected if it exceeds it by more than the documented slack; an accepted step is never shortened, grows by at most inc_max_factor and not beyond max_threshold; a rejected step shrinks, by no more than dec_max_factor.", "quantifier": "all error norms, orders, step sizes and settings", "why_tests_cant": "all real inputs", "anchors": ["include/ode_num_int/ode/OdeStepSizeSimpleController.h: controlStepSize"]}
{"id": "C36", "title": "Adaptive stepping: rejected attempts change nothing but the step size, and the retry loop terminates", "statement": "doStep of the embedded Runge-Kutta solver either accepts exactly one attempt and advances time by the attempted step, or fails when the step falls to the minimum threshold; rejected attempts leave time and state unchanged; with a positive threshold the number of attempts is bounded.", "quantifier": "all right-hand sides, all error histories", "why_tests_cant": "loops over all error histories", "anchors": ["include/ode_num_int/ode/OdeSolverExplicitEmbeddedRK.h: doStep"]}
{"id": "C37", "title": "Aitken-Neville extrapolation is exact", "statement": "If the k-step results are values of a polynomial of degree < stages in 1/n (in 1/n^2 when symmetric), the extrapolated state is its value at zero, for any strictly increasing step sequence.", "quantifier": "all stage counts, polynomials, step sequences", "why_tests_cant": "all stage counts and values", "anchors": ["include/ode_num_int/ode/OdeSolverExtrapolator.h: doStep"]}
{"id": "C38", "title": "Extrapolation step sequences are the documented ones", "statement": "Harmonic yields 1,2,3,..., Romberg 1,2,4,8,..., Bulirsch 1,2,3,4,6,8,12,16,...; each is strictly increasing and reset restarts it; the k-th value is at least k, so the extrapolation table is large enough.", "quantifier": "all positions in the sequence (up to int overflow)", "why_tests_cant": "all positions", "anchors": ["include/ode_num_int/ode/ExtrapolatorStepSequenceHarmonic.h", "include/ode_num_int/ode/ExtrapolatorStepSequenceRomberg.h", "include/ode_num_int/ode/ExtrapolatorStepSequenceBulirsch.h", "include/ode_num_int/ode/OdeSolverExtrapolator.h: computeTsize"]}
{"id": "C39", "title": "Gragg solver is the modified midpoint rule with Gragg smoothing", "statement": "Starting from setInitialState, after k untruncated steps the state is y_{2k} of the modified midpoint recursion with substep h/2, and with smoothing enabled the reported state is (y_{2k-1}+2y_{2k}+y_{2k+1})/4.", "quantifier": "all right-hand sides, step sizes, numbers of steps", "why_tests_cant": "all numbers of steps and right-hand sides", "anchors": ["include/ode_num_int/ode/OdeSolverGragg.h"]}
{"id": "C40", "title": "Implicit alpha method: root of the step mapping is the implicit update", "statement": "The step mapping vanishes at an equation state iff the expanded ODE state satisfies x1 = x0 + h*((1-alpha)*f(t0,x0) + alpha*f(t0+h,x1)) on the velocities and first order variables, the positions being updated from the velocities by the same rule; any sequence of setters and evaluations leaves the value what a fresh evaluation with the current parameters gives; equation state and ODE state determine each other; alpha=0 gives exactly explicit Euler; for alpha>=1/2 the energy of a dissipative linear system never grows, for any step size, and alpha=1/2 conserves it when the system does.", "quantifier": "all right-hand sides, states, h, alpha", "why_tests_cant": "all right-hand sides", "anchors": ["include/ode_num_int/ode/OdeStepMappingEuler.h"]}
{"id": "C41", "title": "Implicit Euler step is all-or-nothing", "statement": "doStep either returns, having installed what event processing makes of the state at t+h computed from Newton's solution, or throws and leaves time and state unchanged; it reports failure exactly when Newton's method does not converge; a state it installs satisfies the equations of the alpha method, exactly for the positions and within Newton's absolute tolerance for the rest, also with a predictor and with reordered variables; for linear systems every step of a run of any length returns with the exact update.", "quantifier": "all Newton outcomes, components, right-hand sides, orderings and step counts", "why_tests_cant": "all outcomes", "anchors": ["include/ode_num_int/ode/OdeSolverImplicitEuler.h: doStep"]}
{"id": "C42", "title": "Rosenbrock linear solve inverts I - h*d*J for the full first-order system", "statement": "For the n2+n1 structured first-order system the linear solve of the Rosenbrock solvers overwrites its argument b with the unique x that satisfies (I - hd*J) x = b, J being the Jacobian of the whole first-order system with the position rows completed by the identity, after any history of initialisations and solves; mult multiplies by that same J. This needs nonzero leading minors and a pattern that covers the fill-in of the decomposition (exact arithmetic). The leading minors are nonzero whenever hd is so small that the rows of |hd J1 + hd^2 J2| add up to less than 1, and for every hd when hd J1 + hd^2 J2 is dissipative.", "quantifier": "all block sizes, Jacobian blocks, vectors", "why_tests_cant": "all sizes and values", "anchors": ["include/ode_num_int/ode/OdeSolverRosenbrock_W_base.h: linSolve, mult"]}
{"id": "C43", "title": "Rosenbrock Jacobian covers all variables only for first-order systems", "statement": "The Jacobian the Rosenbrock solvers work with consists of forward differences of the right-hand side for the first n2+n1 variables, the identity in the position rows, and zeros in the columns of the last n2 variables. It is the full difference Jacobian exactly when no difference in those last columns is nonzero; for systems without second-order variables it always is, and for affine systems it is exact.", "quantifier": "all n1, n2 and right-hand sides", "why_tests_cant": "all shapes", "anchors": ["include/ode_num_int/ode/OdeSolverRosenbrock_W_base.h: buildJacobian"]}
{"id": "C44", "title": "The decomposition cache always serves the decomposition of the requested step", "statement": "After updateW(hd) the selected decomposition is the one of I - hd*J1 - hd^2*J2 for the current Jacobian, for any history of step sizes and Jacobian rebuilds, and the cache never exceeds 100 entries.", "quantifier": "all histories of requested step sizes and rebuilds", "why_tests_cant": "all histories", "anchors": ["include/ode_num_int/ode/OdeSolverRosenbrock_W_base.h: updateW, buildJacobian"]}
{"id": "C45", "title": "SW2(4) has order two for any Jacobian approximation; stale decomposition after a rejected step breaks it", "statement": "An accepted step of SW2(4) yields the state of the method's formulas with the decomposition of the step size the call started with. If that is the size of the accepted step, the local error is of third order for any right-hand side with bounded second derivatives and any approximate Jacobian, and so is the error estimate. After a refused attempt the retry works with the decomposition of the refused size, and the order drops. Refused attempts change neither time nor state.", "quantifier": "all right-hand sides, Jacobian approximations, d, step sizes, initial states and histories of steps", "why_tests_cant": "all real inputs and rejection histories", "anchors": ["include/ode_num_int/ode/OdeSolverRosenbrock_SW2_4.h: doStep"]}
{"id": "C46", "title": "Richardson error estimate is exact for pure leading-order error", "statement": "The Richardson error calculator makes as many passes of length h as cover the interval T (one at least), each from the result of the half steps of the previous pass, and its statistics are those of the reported errors. In a pass with no rejected or truncated attempt the report is 2^p/(2^p - 1) times the difference of two half steps and one full step: this is the true error of the full step whenever the errors have the ratio 2^p, in particular for every explicit Runge-Kutta method of order p and right-hand sides polynomial of degree p in the time. Passes with a rejected or truncated attempt give no sample; a change of the step size throws. With h <= 0 < T it never returns.", "quantifier": "all methods, orders 1 to 30, states, steps and solvers", "why_tests_cant": "all real inputs", "anchors": ["include/ode_num_int/ode/util/RichardsonErrorCalculator.h"]}
{"id": "C47", "title": "Error and timing statistics merge like the concatenation of samples", "statement": "Statistics of samples of the declared size hold, per component, the largest absolute value, the sum of absolute values, the sum of squares, and the sample count (modulo 2^32). Adding two statistics with + equals the statistics of the concatenated samples, and the order of samples is irrelevant. The mean is the mean absolute value and lies between 0 and the maximum. A sample is accepted exactly when it has the declared size. Timing totals and counts likewise, modulo 2^64 and 2^32. Not true: that errorMeanSqareDev is the root mean square (it is exactly for all-zero samples); that a rejected sample leaves the statistics unchanged.", "quantifier": "all sample sequences of all sizes", "why_tests_cant": "all sequences", "anchors": ["include/ode_num_int/util/ErrorStats.h", "include/ode_num_int/timing/TimingStats.h"]}
{"id": "C48", "title": "Output thinning respects the requested interval", "statement": "With an output interval T > 0 a report is written exactly when it is forced (truncated step on the general console) or the last written report is at least T earlier or there is none; hence unforced reports are at least T apart, no more than T plus one step passes without one, and at most (b - start)/T + 1 are written up to time b; T <= 0 writes all. Each console writes exactly the selected attempts (general: all attempts numbered from 1; solution: accepted steps after the initial line; columns: the first max_steps of initial state and accepted steps). Not true: that the initial line of the solution console counts for the interval.", "quantifier": "all call sequences, intervals and runs", "why_tests_cant": "all sequences", "anchors": ["include/ode_num_int/ode/ode_solver_output.h: OdeSolverStreamOutputOption::D::outputNow"]}
{"id": "C49", "title": "Abbreviated state output lists the first and last components", "statement": "For each variable group the printed indices are strictly increasing, are all indices when the group has at most 2*limit members, and otherwise exactly the first and the last limit ones; the column names are all different; a vector as text shows the first limit elements, \"...\", and the last limit ones with separators between the items. (A limit of 2^31 or more makes the loop endless for large groups.)", "quantifier": "all group sizes and limits below 2^31", "why_tests_cant": "all sizes", "anchors": ["include/ode_num_int/ode/ode_solver_output.h: OdeSolverStepSolutionConsoleOutput"]}
{"id": "C50", "title": "Generated variable names are distinct and sort in index order", "statement": "With one identifier per variable and at most 2^31 variables, every index below the variable count gets a name, all names are equally long, and their alphabetical order is the index order (so they are distinct). Indices from 2^31 on get negative numbers; an index with more digits than the variable count throws.", "quantifier": "all variable counts up to 2^31 and all pairs of indices", "why_tests_cant": "all counts", "anchors": ["include/ode_num_int/ode/OdeVarNameGenerator.h"]}
{"id": "C51", "title": "Specified initial state round-trips its parameters; shrinking is undefined", "statement": "The parameters of a specified initial state, set into any state that is not longer, restore size, time and components exactly when its numbers survive printing and reading; a new object has no variables and time zero, so any such state can be restored into it. Setting parameters succeeds exactly when the wanted size is not smaller than the present one and every given value converts: given components get their values, others keep theirs, new ones are zero, other names have no effect; a negative size throws and changes nothing. A number survives when a 16-digit decimal (for instance the text it was read from) is closer than half the distance to the neighbouring numbers. Not true: shrinking (undefined behaviour), all-or-nothing on exceptions, survival of every double (16 digits are not enough).", "quantifier": "all states, parameter sets and numbers", "why_tests_cant": "all sizes", "anchors": ["include/ode_num_int/ode/SpecifiedOdeInitState.h"]}
{"id": "C52", "title": "The integration driver stops at the first step reaching the end time", "statement": "An integration run makes at least one step and returns after the first step that ends at or after start + duration; with steps of h > 0 there are exactly max(1, ceil(duration/h)) of them, with steps of at least d > 0 at most that many for d, and with steps that never advance it does not return. Each output option is called once before and once after, with every attempt reported in between; after an exception the closing calls are not made. For explicit Runge-Kutta solvers the run is the textbook trajectory.", "quantifier": "all solvers, durations, step sizes and output options", "why_tests_cant": "all runs", "anchors": ["include/ode_num_int/ode/OdeSolverConfiguration.h: solveOde"]}
{"id": "C53", "title": "Modular reduction, rounding and cubic Hermite helpers", "statement": "modp(x,m) lies in [0,m) and is congruent to x for every int x except the least one and every m > 0; roundi gives the nearest integer, ties away from zero; modd reduces into [bias, bias+period) by a multiple of the period; the cubic through two points takes the given values and slopes, reproduces every cubic polynomial, and its declared derivatives and basis functions are the derivatives and basis; the same on a segment of any nonzero length.", "quantifier": "all integers, all rationals, all reals", "why_tests_cant": "all values", "anchors": ["include/ode_num_int/util/m_inline.h"]}
{"id": "C54", "title": "Configuration facade keeps cache and provider coherent", "statement": "As long as the component accepts the written values and is changed only through the configuration, every history of reads, writes and help requests is answered as the component itself would answer. If the component rejects a value, the configuration keeps showing it and sends it again with every later write, until the component is replaced or the value corrected.", "quantifier": "all histories of reads and writes, accepting or rejecting providers", "why_tests_cant": "all histories", "anchors": ["include/ode_num_int/infra/ComponentConfiguration.h"]}
{"id": "C55", "title": "Property change notifications", "statement": "Setting a notified property stores the value before the callbacks run, and runs each subscribed callback exactly once per set, in subscription order, with the new value, provided callbacks do not set the property again.", "quantifier": "all histories", "why_tests_cant": "all histories", "anchors": ["include/ode_num_int/infra/def_prop_class.h"]}
{"id": "C56", "title": "Vector assignment, copies, sums, inner product and norms", "statement": "Assigning a vector or view (not a view of the destination itself) to a vector copies its size and every element; assigning to a block copies element by element and touches nothing outside when the source is not longer; clone is an equal independent vector; a+b and a-b are element-wise new vectors; the inner product is the sum of products; the norms are the maximum modulus, the sum of moduli and the root of the sum of squares (vectors without NaN).", "quantifier": "all vectors, views, lengths and element values", "why_tests_cant": "all lengths, view nestings and aliasing patterns", "anchors": ["include/ode_num_int/la/VectorTemplate.h: operator=, clone, operator+, operator-, operator*, euclideanNormSquared, infNorm, oneNorm"]}
{"id": "C57", "title": "Sparse block views read, iterate, clear and assign exactly their window", "statement": "Reading a block view by index pair reads the source at the shifted position; iterating over it visits exactly the stored elements inside the window with shifted indices; clearing it removes exactly those; assigning a matrix that fits replaces exactly the window by the matrix and changes nothing else. Reading by get(row,column) instead ignores the offset.", "quantifier": "all matrices, windows, nested views and sources", "why_tests_cant": "all sizes, windows and patterns", "anchors": ["include/ode_num_int/la/SparseMatrixTemplate.h: priv::SparseMatrixBlockData, copyFrom"]}
{"id": "C58", "title": "Sparse Jacobian provider is sound over any history of evaluations and resets", "statement": "Over any history of computeJacobian and hardReset calls without a trimmer, no call fails or has undefined behaviour; the first evaluation after a reset is a full one and fixes the pattern; later ones keep the pattern, call the mapping once per column group plus once, and give the difference quotients provided each output depends only on the variables in its row of the pattern.", "quantifier": "all call histories, mappings and points", "why_tests_cant": "all histories", "anchors": ["include/ode_num_int/alg/SparseJacobianProvider.h"]}
{"id": "C59", "title": "Extrapolation solver: attempts, state changes and definedness of doStep", "statement": "A call of doStep of the extrapolation solver makes attempts from the same point until one is accepted or the step size falls to the minimum; a refused attempt and an exception leave time and state unchanged, an accepted attempt changes them once; with at least two stages (one without error control) and an increasing step sequence no call has undefined behaviour and the solver stays usable.", "quantifier": "all reference solvers, step sequences, event controllers, error histories and call histories", "why_tests_cant": "all histories and callbacks", "anchors": ["include/ode_num_int/ode/OdeSolverExtrapolator.h: doStep, initStep, computeTsize"]}
{"id": "C60", "title": "The W1 solver is the linearly implicit Euler method: first order for any Jacobian, unconditionally stable with the exact one", "statement": "A step of W1 yields x + h*k with (I - h*d*J) k = f(t, x); its local error is of second order for any J; with d = 1 and a linear system it is the implicit Euler step, which never increases the energy of a dissipative system. A step is always accepted and advances time by h.", "quantifier": "all right-hand sides, J, step sizes, states and histories of steps", "why_tests_cant": "all real inputs and histories", "anchors": ["include/ode_num_int/ode/OdeSolverRosenbrock_W1.h: doStep, setInitialState", "include/ode_num_int/ode/OdeSolverRosenbrock_W_base.h: initStep, linSolve"]}
{"id": "C61", "title": "Step statistics count every attempt", "statement": "The printed statistics are the numbers of attempts, rejected attempts, step size changes and truncated steps, and the mean of the accepted step sizes; when steps move the time by the size they report, the average times the number of accepted steps is the time passed. Not true for the extrapolation solver, which reports the size of the next step.", "quantifier": "all runs of fewer than 2^32 attempts", "why_tests_cant": "all histories of accepted and rejected attempts", "anchors": ["include/ode_num_int/ode/ode_solver_output.h: OdeSolverStatisticsOutput"]}
{"id": "C62", "title": "Applying a solver configuration sets the initial state of both solvers", "statement": "Applying a configuration gives the solver and the reference solver (if any) the same initial time and state: those of the initial state component when one is specified, otherwise the default ones. It throws exactly when there is no solver or the specified state has another size than the right-hand side. Not true: that the default state is checked, or that a missing right-hand side is reported (undefined behaviour when an initial state is specified).", "quantifier": "all configurations and default states", "why_tests_cant": "all combinations of components, sizes and states", "anchors": ["include/ode_num_int/ode/OdeSolverConfiguration.h: apply, configureSolver"]}
{"id": "C63", "title": "The bouncing ball stays above the plane, loses energy, and time goes on", "statement": "Integrated by any fixed step Runge-Kutta solver with the linear event controller, a ball that starts on or above the plane is never found below it; with a non-negative recovery factor, count steps of size h take at least count*h/2 - h of model time, so impacts cannot accumulate in finite time; with a method of second order, free flight follows the parabola exactly and the energy never exceeds the initial one when the recovery factor is at most 1 in magnitude. The solver fails exactly when the first flight reaches height zero exactly at the end of a step; a ball that starts on the plane never makes it fail.", "quantifier": "all gravities, recovery factors, sticking speeds, step sizes, Butcher tables, initial heights and speeds, numbers of steps", "why_tests_cant": "infinitely many trajectories with unboundedly many impacts", "anchors": ["include/ode_num_int/ode/test_models/BouncingBall.h: rhs, zeroFunctions, switchPhaseState", "include/ode_num_int/ode/OdeSolverExplicitRK.h: doStep", "include/ode_num_int/ode/LinearOdeEventController.h: atStepEnd"]}
{"id": "C64", "title": "The bouncing ball comes to rest and stays", "statement": "With gravity, a recovery factor in [0,1) and a method of second order, the ball sticks to the plane after finitely many steps whatever the sticking speed; a ball that has stuck is at height and speed zero and stays there. Not true: that a new initial state frees a ball that has stuck - it hangs at the new height for ever.", "quantifier": "all parameters, step sizes, initial states and numbers of further steps", "why_tests_cant": "termination for all parameters; the number of impacts is not bounded", "anchors": ["include/ode_num_int/ode/test_models/BouncingBall.h: switchPhaseState, m_sticking"]}
{"id": "C65", "title": "The chain of nonlinear oscillators conserves energy", "statement": "The right-hand side of the chain of n masses gives each mass the difference of the tensions of its springs (c0 d + c2 d^3), the constant force acting on the last one, and kinetic plus potential energy (c0 d^2/2 + c2 d^4/4 per spring, as documented) minus the work of the force is a first integral: along the slopes it changes only by second and higher powers of the displacement.", "quantifier": "all numbers of masses, coefficients, forces, states, displacements", "why_tests_cant": "all chain lengths and states", "anchors": ["include/ode_num_int/ode/test_models/CoupledNonlinearOscillators.h: rhs, force, helpOnType"]}
{"id": "C66", "title": "What each method does to the oscillator's energy", "statement": "For x'' = f - c x the energy counted from the equilibrium is multiplied in every step by 1 + c h^2 (Euler), by 1 - z^3/72 + z^4/576 with z = c h^2 (classical Runge-Kutta), by (1 + c h^2 (1-alpha)^2)/(1 + c h^2 alpha^2) (implicit method); the implicit method with alpha = 1/2 keeps it exactly for every step size.", "quantifier": "all stiffnesses, forces, step sizes, initial states, numbers of steps, weights alpha", "why_tests_cant": "a statement about unboundedly long runs with every step size", "anchors": ["include/ode_num_int/ode/test_models/Oscillator.h: rhs", "include/ode_num_int/ode/OdeSolverExplicitRK.h: doStep", "include/ode_num_int/ode/OdeSolverImplicitEuler.h: doStep"]}
{"id": "C67", "title": "Solutions of the stiff equation approach each other", "statement": "For y' = -a (y - g(t)), g any function in the place of the cosine, the difference of two numerical solutions is multiplied in every step by 1 - h a (Euler), by the fourth order Taylor polynomial of exp(-h a) (classical Runge-Kutta), by (1 - (1-alpha) h a)/(1 + alpha h a) (implicit method); with alpha >= 1/2 and h a >= 0 two solutions never move apart, for every step size.", "quantifier": "all a, functions g, step sizes, pairs of initial states, numbers of steps, weights alpha", "why_tests_cant": "unconditional stability is a claim about every step size and every run length", "anchors": ["include/ode_num_int/ode/test_models/StiffOde1D.h: rhs", "include/ode_num_int/ode/OdeSolverExplicitRK.h: doStep", "include/ode_num_int/ode/OdeSolverImplicitEuler.h: doStep"]}
{"id": "C68", "title": "Friction of the sliding point dissipates", "statement": "For f0 >= 0 and v0 > 0, and each of the three friction types, the friction force is directed against the velocity, is zero at rest without a jump (at most f0/v0 times the speed), grows with the speed, is bounded by f0 for the types atan and tabular (tabular reaches it at v0), and is monotone: the velocities of two motions under the same applied forces never move apart. The text of every friction type is accepted by setParameters and gives the type back; other texts throw.", "quantifier": "all parameters, all pairs of velocities, all strings", "why_tests_cant": "all real velocities and parameters", "anchors": ["include/ode_num_int/ode/test_models/SlidingPoint.h: rhs, frictionForce, toEnum, fromEnum"]}
{"id": "C69", "title": "Broyden's descent direction uses the matrices Broyden's formula prescribes", "statement": "For every history of reset, computeDescentDirection and reportSuccess calls, every direction is minus the solution of the linear system with the matrix of that moment: the Jacobian computed by the provider at first (or after the provider has forgotten it), the same matrix in the first call after a reset, and otherwise the previous one changed by Broyden's formula from the last two points and residuals. Each update satisfies the secant equation, leaves the action on vectors orthogonal to the step alone, and is the unique nearest matrix satisfying the secant equation. For affine systems every direction is the Newton direction. A call whose update changes a position not stored in the Jacobian throws. With the default provider the mapping is never differentiated again, not even after a hard reset.", "quantifier": "all histories of calls of any length, all system sizes, providers, mappings, points and residuals (consecutive points different, matrices that LU without pivoting can factorize)", "why_tests_cant": "histories of any length mix resets, recomputation and accumulated updates; optimality quantifies over all matrices", "anchors": ["include/ode_num_int/alg/JacobianBroydenUpdateNewtonDescentDirection.h: reset, computeDescentDirection", "include/ode_num_int/alg/DefaultJacobianProvider.h", "include/ode_num_int/alg/SparseJacobianProvider.h"]}
{"id": "C70", "title": "The restricted Broyden direction updates stored positions only and never worsens the secant equation", "statement": "For every history of calls the directions come from the matrices obtained by Broyden's formula restricted to the stored positions; the pattern (and so the factorization layout) stays the same; in each row the discrepancy of the secant equation is multiplied by one minus the share of the squared step seen by the stored positions of that row, so it never grows and vanishes if they see the whole step. Affine systems give the Newton direction. With the default provider the mapping is never differentiated again.", "quantifier": "all histories of calls of any length, all system sizes, patterns, providers, points and residuals (consecutive points different, matrices that LU without pivoting can factorize)", "why_tests_cant": "accumulation over unbounded histories with factorization layout reuse", "anchors": ["include/ode_num_int/alg/JacobianFakeBroydenUpdateNewtonDescentDirection.h: reset, computeDescentDirection"]}
{"id": "C71", "title": "The lazy direction keeps one matrix per run and decides between runs", "statement": "For every sequence of Newton runs, all directions of a run use one matrix: the next run keeps it if the run succeeded within lazy_iterations directions, adds the gathered corrections to it if it succeeded after more, and has it computed anew after a failure or a hard reset. The corrections gathered in a run are all measured against the unchanged matrix, so k steps of the same slope correct it k times. Affine systems give the Newton direction.", "quantifier": "all sequences of runs of any length with any number of directions, all system sizes, providers and values of lazy_iterations", "why_tests_cant": "the decision depends on the history of reports; accumulation over unbounded runs", "anchors": ["include/ode_num_int/alg/JacobianLazyFakeBroydenUpdateNewtonDescentDirection.h: reset, computeDescentDirection, reportSuccess"]}
{"id": "C72", "title": "The Hart direction keeps the secant equation and the profile", "statement": "For every history of calls whose steps are visible to the update in every row, every direction is computed; it comes from the Jacobian computed by the provider exactly at first and after a hard reset, from the same matrix in the first call after a soft reset, and otherwise from a matrix that maps the last step to the change of the residual and is zero outside the profile of the computed Jacobian; the direction is minus the solution with that matrix whenever the matrix can be factorized.", "quantifier": "all histories of calls of any length, all system sizes, patterns and providers", "why_tests_cant": "accumulated updates of the factors over unbounded histories", "anchors": ["include/ode_num_int/alg/JacobianHartUpdateNewtonDescentDirection.h: reset, computeDescentDirection", "include/ode_num_int/lu/LUFactorizer.h: secantUpdateHart"]}
{"id": "C73", "title": "Differences and local errors grow at most by the stability factor", "statement": "For a fixed-step explicit Runge-Kutta solver on a right-hand side that is Lipschitz in the state: two runs started from different initial states differ after any number of doStep calls by at most the initial difference times (1 + h g)^steps, where g depends only on the table, the Lipschitz constant and h; and if single solver steps from the members of any reference sequence miss the next member by at most eps, the run stays within (1 + h g)^steps times the initial difference plus eps times the sum of the lower powers.", "quantifier": "all coefficient tables, right-hand sides, dimensions, step sizes, numbers of steps, initial states and reference sequences", "why_tests_cant": "a bound over unbounded histories of steps and all right-hand sides", "anchors": ["include/ode_num_int/ode/OdeSolverExplicitRK.h: doStep", "include/ode_num_int/ode/ExplicitRKHelper.h: compute"]}
{"id": "C74", "title": "Explicit Runge-Kutta solvers converge to the exact solution", "statement": "For every right-hand side Lipschitz in time and state and every exact solution on [t0, t0+T], a fixed-step explicit Runge-Kutta solver whose weights sum to one delivers, for every step size h and number of steps within the interval, the exact solution up to C (d + h), with one constant C and d the error of the initial state. The adaptive solvers satisfy the same with the largest accepted step size for h, whatever the step size controller, error norm and rejected attempts. Euler, RK4, DOPRI 5(4) and 6(5) have weights that sum to one; DOPRI 8(7) up to 1e-17, and the bound contains this defect.", "quantifier": "all tables, right-hand sides, solutions, intervals, step sizes, histories of accepted and rejected attempts", "why_tests_cant": "a limit statement over all step sizes and all differential equations", "anchors": ["include/ode_num_int/ode/OdeSolverExplicitRK.h: doStep", "include/ode_num_int/ode/OdeSolverExplicitEmbeddedRK.h: doStep", "include/ode_num_int/ode/OdeSolverRK4.h", "include/ode_num_int/ode/OdeSolverExplicitEuler.h"]}
{"id": "C75", "title": "Explicit Runge-Kutta solvers have the order their tables promise, on nonlinear equations too", "statement": "For every right-hand side that is Lipschitz in time and state and p times differentiable along an exact solution on [t0, t0+T], a fixed-step explicit Runge-Kutta solver whose table satisfies the order conditions up to order p delivers, for every step size h and number of steps within the interval, the exact solution up to C (d + h^p), with one constant C and d the error of the initial state. The adaptive solvers satisfy the same, in both modes, with the largest accepted step size for h, whatever the step size controller, error norm and rejected attempts. Conditions that hold only up to delta (rounded coefficients) cost at most C delta. The library's tables have order 1 (Euler), 4 (RK4), 5(4), 6(5), and 8(7) up to 1e-16. Every solution of a linear system with constant coefficients is smooth enough.", "quantifier": "all tables, right-hand sides, dimensions, solutions, intervals, step sizes, histories of accepted and rejected attempts", "why_tests_cant": "an asymptotic statement over all step sizes and all smooth differential equations", "anchors": ["include/ode_num_int/ode/OdeSolverExplicitRK.h: doStep", "include/ode_num_int/ode/OdeSolverExplicitEmbeddedRK.h: doStep", "include/ode_num_int/ode/OdeSolverRK4.h", "include/ode_num_int/ode/OdeSolverDOPRI45.h", "include/ode_num_int/ode/OdeSolverDOPRI56.h", "include/ode_num_int/ode/OdeSolverDOPRI78.h"]}
{"id": "C76", "title": "Configurations of library objects survive saving and loading, in any process with the library", "statement": "Whatever the order in which the library's registrators run, every type name of the library creates its class through the factory of its interface and objects of the class report that name; other names throw. The parameters of any object of the library (solvers with their Newton solver, directions, Jacobian providers, controllers, norms, output options, models, initial states, the whole configuration), converted to a value in one process and read in another, give the same object with the same components all the way down; set into any other object of the class they make it equal to the first. Parameters that are not given keep their values and unknown names are ignored, except that giving a Newton solver an iteration performer alone drops its parts. Loading a complete tree never runs into undefined behaviour, whatever texts are in it: it succeeds or throws.", "quantifier": "all orders of registration, all processes that contain the library, all trees of library objects with all values of their parameters, all parameter trees (well-formed or not)", "why_tests_cant": "trees of objects are unbounded and every combination of classes, values and malformed texts would have to be tried; registration order is decided by the linker", "anchors": ["include/ode_num_int/infra/OptionalParameters.h: OptionalParameters, Value, toValue, fromValue", "include/ode_num_int/infra/Factory.h: newInstance, typeId", "include/ode_num_int/alg/reg/AlgebraicSolverClassesRegistrator.h", "include/ode_num_int/ode/reg/", "src/reg_ode_solvers.cpp", "include/ode_num_int/alg/interfaces/NewtonSolverInterface.h: parameters, setParameters", "include/ode_num_int/ode/interfaces/OdeSolver.h: parameters, setParameters", "include/ode_num_int/ode/OdeSolverConfiguration.h", "include/ode_num_int/ode/SpecifiedOdeInitState.h"]}
{"id": "C77", "title": "Times and counts that are reported are those that passed and happened", "statement": "A stopwatch reports the ticks between start, laps and stop, which add up to the whole time, even when the 64-bit tick counter overflows in between. Scopes measured one after the other report the total of their durations, which is at most the time they lie in, and their number. The statistics of a run report the number and time of the right-hand side calls that returned and of the Jacobian refreshes, and split the calls into those made for the Jacobian and the others. A calibrator converts ticks to milliseconds in the ratio it measured, exactly when it ran for at least 100 ms. A time span is printed as H:MM:SS[.mmm] with the right numbers, and different spans (below 2^32 hours) have different texts. The timing statistics of a solver are those of its components, or an exception if two share a key.", "quantifier": "all tick and clock readings (with overflow), numbers of laps and scopes, traces of right-hand side calls and Jacobian refreshes (with calls that throw), intervals, time spans, component statistics", "why_tests_cant": "overflow of a 64-bit counter and all traces of calls cannot be produced in tests", "anchors": ["src/OpaqueTickCounter.cpp: Start, Stop, Lap", "include/ode_num_int/timing/TimingStats.h: ScopedTimeMeasurer", "src/TimerCalibrator.cpp", "include/ode_num_int/util/sys_time.h: FormatTimeSpanSec, FormatTimeSpanMsec, GetClockTimeMsec", "include/ode_num_int/ode/ode_solver_output.h: OdeSolverStatisticsOutput", "include/ode_num_int/ode/interfaces/OdeSolver.h: timingStats"]}
{"id": "C78", "title": "The implicit solver converges; implicit Euler is contractive whatever the step size", "statement": "For a right-hand side that computes a Lipschitz function, every run of the implicit alpha solver whose steps all return follows the true solution with an error of first order in the step size plus Newton's tolerance over the step size, and of second order for alpha = 1/2. With alpha = 1 and a right-hand side whose solutions do not move apart (one-sided Lipschitz constant <= 0), however stiff, there is no condition on the step size and no Lipschitz constant in the bound, and two runs approach each other by the factor 1/(1 - h nu) per step. With alpha below one half two runs can move apart.", "quantifier": "all right-hand sides, Lipschitz and one-sided Lipschitz constants, dimensions, step sizes, numbers of steps, alpha in [0,1], descent directions, predictors, reorderings and solutions", "why_tests_cant": "a test runs one equation with a few step sizes; the claim is an error bound for all of them", "anchors": ["include/ode_num_int/ode/OdeSolverImplicitEuler.h: doStep", "include/ode_num_int/ode/OdeStepMappingEuler.h: map", "include/ode_num_int/alg/NewtonSolver.h: run"]}
{"id": "C79", "title": "The extrapolation solver has the order that the number of stages promises", "statement": "With an explicit Runge-Kutta reference solver that is consistent, every accepted step of the extrapolation solver with m stages is a step of one fixed Runge-Kutta method that satisfies all order conditions up to order m; with the Gragg solver, smoothed or not, up to order 2m if the solver is told that the expansion is in squares, else m rounded up to even. So order() is right for Euler without and for Gragg with the symmetric flag. For Lipschitz right-hand sides that are differentiable often enough the solver converges with that order, whatever the step size controller does. order() reports too much for RK4 (5 with two stages), for Euler with the symmetric flag, and for Gragg without it.", "quantifier": "all right-hand sides, dimensions, step sizes, histories of accepted and rejected attempts, numbers of stages, increasing step sequences, Runge-Kutta tables of order at least 1, and solutions", "why_tests_cant": "a test measures the error for one equation and a few step sizes; order is a statement about all equations and all small steps", "anchors": ["include/ode_num_int/ode/OdeSolverExtrapolator.h: doStep, order, lowOrder", "include/ode_num_int/ode/OdeSolverGragg.h: doStep, initialState, order", "include/ode_num_int/ode/OdeSolverExplicitRK.h: doStep"]}
{"id": "C80", "title": "The Gragg solver converges with order two", "statement": "After the step size is set, any number of steps of the Gragg solver on a Lipschitz right-hand side with a three times differentiable solution succeed, advance the time by that many step sizes, and end with an error of at most a constant times the initial error plus a constant times the square of the step size, with and without smoothing. The order is not three, and the solver is only weakly stable: the plain state grows on an equation whose solutions decay.", "quantifier": "all right-hand sides, dimensions, solver states, step sizes, numbers of steps and solutions", "why_tests_cant": "a test measures the error for one equation and a few step sizes; convergence is about all equations and all step sizes", "anchors": ["include/ode_num_int/ode/OdeSolverGragg.h: doStep, setInitialStepSize, initialState, order"]}
{"id": "C81", "title": "The Rosenbrock solvers converge, with a Jacobian that is computed once", "statement": "A run of W1 started afresh on a Lipschitz right-hand side with a twice differentiable solution, with any sequence of step sizes up to H small enough, ends with an error of at most a constant times the initial error plus a constant times H. A run of SW2(4) on a problem with a three times differentiable solution ends with an error of order H squared if every first attempt is accepted and of order H if attempts are refused. The Jacobian is the one of the first step, approximated by differences and without the columns of the last second order variables, and none of that hurts the order. For such step sizes no step fails, provided that no event cuts it short and the pattern of the Jacobian keeps the fill-in. W1 does not have order two.", "quantifier": "all right-hand sides, dimensions (first and second order variables), parameters d, sequences of step sizes, histories before the run, and solutions", "why_tests_cant": "a test measures the error for one equation and a few step sizes; convergence is about all equations and all step sequences", "anchors": ["include/ode_num_int/ode/OdeSolverRosenbrock_W1.h: doStep, initStep", "include/ode_num_int/ode/OdeSolverRosenbrock_SW2_4.h: doStep, initStep", "include/ode_num_int/ode/OdeSolverRosenbrock_W_base.h: initStep, linSolve"]}
{"id": "C82", "title": "After any failure of a Rosenbrock solver a hard setInitialState starts afresh; retrying the first step without it is undefined", "statement": "Whatever has been done with a W1 or SW2(4) solver before, including steps that ended in exceptions of the right-hand side, the observers or the event controller, after a hard setInitialState the next step does not fail and is that of the method, with the Jacobian at the new state and nothing left over from before. A step of W1 that throws leaves time, state and step size unchanged, and an attempt of SW2(4) that throws leaves time and state unchanged unless an event had cut the step. If the right-hand side throws in the first step of a new solver, calling doStep again without setInitialState is undefined, even if everything works by then.", "quantifier": "all uses of the solver with any callbacks, any exceptions at any point of any step, all right-hand sides, dimensions and states", "why_tests_cant": "exceptions can come from any callback at any point of any step of any history; a test throws in one place", "anchors": ["include/ode_num_int/ode/OdeSolverRosenbrock_W1.h: setInitialState, initStep, doStep", "include/ode_num_int/ode/OdeSolverRosenbrock_SW2_4.h: setInitialState, initStep, doStep", "include/ode_num_int/ode/OdeSolverRosenbrock_W_base.h: initStep, buildJacobian, updateW"]}
{"id": "C83", "title": "Explicit Runge-Kutta solvers keep their order in double arithmetic, up to the rounding errors", "statement": "In any arithmetic, without any law of addition or multiplication, a step of the explicit Runge-Kutta solvers performs the textbook operations in a fixed order. If every operation delivers the exact result with relative error u and absolute error eta, the coefficients are rounded and the right-hand side is computed with relative accuracy phi, then a fixed step run of count steps stays within C (phi + count (u + eta)) of the same run in exact arithmetic, and within C (d + h^p + phi + count (u + eta)) of the solution of the equation, for a table of order p and an initial error d; the same holds for the accepted steps of the adaptive solvers. C depends on the equation, the interval and the table only. The numbers of type double satisfy this with u = 2^-53 and eta = 2^-1075 as long as nothing overflows. The term with the number of steps cannot be dropped: with steps below 2^-60 Euler's method in double does not move at all.", "quantifier": "all roundings with a relative and an absolute error bound, all Lipschitz right-hand sides in any dimension, all tables, step sizes, numbers of steps and initial states", "why_tests_cant": "a run in double compares with one rounding, one step size and one equation; the bound is uniform over all of them", "anchors": ["include/ode_num_int/ode/ExplicitRKHelper.h: compute", "include/ode_num_int/ode/OdeSolverExplicitRK.h: doStep", "include/ode_num_int/ode/OdeSolverExplicitEmbeddedRK.h: doStep"]}
{"id": "C84", "title": "LU decomposition and solution in double arithmetic: backward error", "statement": "In any arithmetic, without any law of addition or multiplication, a matrix with an acceptable stencil is decomposed and right-hand sides are solved without access outside the arrays, also when a pivot vanishes, and the results are those of elimination without pivoting, with the products subtracted one after the other in the order of the columns. If every operation has relative error u, n u < 1 and no computed pivot is zero, the computed factors multiply to the given matrix up to gamma = n u / (1 - n u) times the product of their absolute values, element by element; and, if the stencil covers the fill-in, the computed solution has a residual of at most (3 gamma + gamma^2) |L| |U| |x| in each component. Numbers of type double satisfy this with u = 2^-53 as long as nothing underflows or overflows. Both conditions are needed: with a zero pivot or an uncovered stencil the claims fail even without rounding errors. For a matrix dominated by its diagonal with a margin above (1+8u)^n - 1 times the row sums no computed pivot is zero, so the decomposition and every solution succeed; the residual is at most kap = (3 gamma + gamma^2) 2 n (1+u) (1+8u)^n times the row sum and the largest component of the solution, and the error at most kap / mu times that component, mu being the margin. Strict dominance without a margin is not enough.", "quantifier": "all arithmetics with a relative error bound, all matrix sizes, stencils, element values and right-hand sides", "why_tests_cant": "a test compares a solution for some matrices in one arithmetic; the bound holds for every matrix, size and rounding", "anchors": ["include/ode_num_int/lu/LUFactorizer.h: setMatrix, factorize, solve"]}
{"id": "C85", "title": "Vector and matrix operations in double arithmetic: rounding errors", "statement": "If every floating-point operation has relative error u, the scalar product of two vectors (or views), each component of matrix times vector, of vector times square matrix and of matrix times matrix differs from the exact value of the elements read by at most gamma(n+1) = (n+1) u / (1 - (n+1) u) times the sum of the absolute values of the products, where n is the number of terms, whatever the storage of the matrix and whatever views are involved. One norms have the relative error gamma(n), squares of euclidean norms gamma(n+1), and maximum norms none. Destination elements beyond a product stay as they are, and a matrix product stores no zeros. The errors are not small relative to the result itself when products cancel.", "quantifier": "all arithmetics with a relative error bound, all vectors, matrices, views, storages and sizes", "why_tests_cant": "a test compares some products in one arithmetic; the bounds hold for every vector, matrix and rounding", "anchors": ["include/ode_num_int/la/VectorTemplate.h: dot, infNorm, oneNorm, euclideanNormSquare", "include/ode_num_int/la/SparseMatrixTemplate.h: mulVectRight, mulVectLeft, operator*, infNorm, oneNorm, euclideanNormSquare"]}
{"id": "C86", "title": "Numerical Jacobians in double arithmetic: truncation and rounding errors", "statement": "If every floating-point operation has relative error u, the outputs of the mapping are computed near x0 with an error of at most phi, the partial derivatives are Lipschitz with constant L within 2 dx of x0, and the increment dx is at least the rounding error of the perturbed components, then every element of the numerical Jacobian - stored or not, computed column by column or, at the stored positions of a pattern the mapping respects, by the compressed evaluation - is the partial derivative up to 16 L dx + (|D| u (|x_c| + 7 dx) + 8 phi) / dx. The condition on the increment is needed: the increment is an absolute number, and in doubles the numerical derivative of the identity at 2^40 with the increment 1e-6 is zero.", "quantifier": "all arithmetics with a relative error bound, all mappings with Lipschitz partial derivatives, all points, sizes and increments", "why_tests_cant": "a test compares Jacobians of some mappings at some points; the bound holds for every smooth mapping, point and increment", "anchors": ["include/ode_num_int/alg/computeJacobian.h: computeJacobian", "include/ode_num_int/alg/SparseJacobianCalculator.h: calculate, computeSparseJacobian", "include/ode_num_int/alg/DefaultJacobianProvider.h: computeJacobian"]}
{"id": "C87", "title": "Implicit solver and Newton's method in double arithmetic", "statement": "If every floating-point operation has absolute error at most w (1 + |z|) and rounding is idempotent, a run of Newton's method that reports convergence from a representable guess, with any descent direction, returns a representable point at which the mapping, evaluated in the same arithmetic, is within the absolute tolerance of zero. A step of the implicit alpha solver that returns satisfies the equation of the method up to that tolerance, 60 (1 + B + G)(1 + h) w and the error of the right-hand side times h, where B bounds the states and G the slopes; a run of steps follows the solution up to first order in the step size (second for alpha = 1/2) and that amount divided by h, with no condition on the step size for alpha = 1 and equations whose solutions do not move apart. Numbers of type double satisfy the assumptions as long as nothing overflows. The amount divided by h grows when the step size is reduced. For right-hand sides that grow at most linearly with the size of the state the bound on the states follows, if the solution itself stays within B minus the error bound.", "quantifier": "all arithmetics with that error bound, all right-hand sides with bounded slopes, descent directions, tolerances, orderings, predictors, step sizes and step counts", "why_tests_cant": "a test follows some solutions in one arithmetic; the bounds hold for every right-hand side, descent direction, step size and rounding", "anchors": ["include/ode_num_int/ode/OdeSolverImplicitEuler.h: doStep", "include/ode_num_int/ode/OdeStepMappingEuler.h: map, computeOdeState", "include/ode_num_int/alg/NewtonSolver.h: run", "include/ode_num_int/alg/NewtonIterationPerformerImpl.h: iteration", "include/ode_num_int/alg/SimpleNewtonLinearSearch.h: lineSearch", "include/ode_num_int/alg/SimpleErrorEstimator.h: currentStatus"]}
{"id": "C88", "title": "The Gragg solver in double arithmetic", "statement": "If every floating-point operation has absolute error at most w (1 + |z|) and the right-hand side is computed up to phi, then after the step size h is set any number of steps of the Gragg solver succeed. The time is off by at most two roundings per step. The state is off the solution by a constant times the initial error, a constant times h squared, and (1 + 2T/h) times the noise of one step, which is 40 (1 + B + G + phi)(1 + h) w, the error of the time and h phi, as long as the solution stays that much below the size B. The smoothed state has the like bound. Numbers of type double satisfy the assumptions as long as nothing overflows.", "quantifier": "all arithmetics with that error bound, all right-hand sides with bounded slopes, dimensions, solver states, step sizes and step counts", "why_tests_cant": "a test measures the error of some runs in one arithmetic; the bound holds for every right-hand side, state, step size and rounding", "anchors": ["include/ode_num_int/ode/OdeSolverGragg.h: doStep, setInitialStepSize, initialState"]}
{"id": "C89", "title": "The explicit Runge-Kutta solvers in IEEE doubles, with overflow", "statement": "The explicit Runge-Kutta solvers run in numbers of type double, where an overflow gives an infinity and an invalid operation NaN. If the coefficients, the step size, the initial time and the initial state are finite, the right-hand side gives finite numbers for finite arguments of moderate size, and the sizes of the states, slopes and times that follow are at most 2 to the 1000, then any number of steps succeed, no infinity and no NaN appears in the times and states, and every number is the one computed in rounded arithmetic without a largest number. For a smooth equation whose solution stays below a bound, nothing need be assumed on the run itself: the numbers are finite, and the error is a constant times the initial error, h to the power of the order, the accuracy of the right-hand side, and the number of steps times the rounding unit. Linear systems computed in doubles satisfy the assumptions. The adaptive solvers satisfy the same in both modes, whatever the step size controller and the error norm, if the accepted step sizes are finite and positive; rejected attempts may overflow.", "quantifier": "all tables, right-hand sides, dimensions, solver states, finite initial values, step sizes and step counts within the sizes", "why_tests_cant": "a test runs some equations with some step sizes; that no operation overflows and that the error bound holds is claimed for every equation, state and step count", "anchors": ["include/ode_num_int/ode/OdeSolverExplicitRK.h: doStep, setInitialState", "include/ode_num_int/ode/OdeSolverRK4.h", "include/ode_num_int/ode/OdeSolverExplicitEuler.h", "include/ode_num_int/ode/OdeSolverExplicitEmbeddedRK.h: doStep"]}
{"id": "C90", "title": "The Gragg solver in IEEE doubles, with overflow", "statement": "The Gragg solver runs in numbers of type double, where an overflow gives an infinity and an invalid operation NaN. If the step size, the initial time and the initial state are finite, the right-hand side gives finite numbers for finite arguments of moderate size, and the sizes that follow are at most 2 to the 1000, then any number of steps succeed, and the times, the states and the smoothed states are finite and are the numbers computed in rounded arithmetic without a largest number. For a smooth equation whose solution stays below a bound nothing need be assumed on the run itself: the state and the smoothed state have the second order error bound with the rounding errors added.", "quantifier": "all right-hand sides, dimensions, solver states, finite initial values, step sizes and step counts within the sizes", "why_tests_cant": "a test runs some equations with some step sizes; that no operation overflows and that the error bound holds is claimed for every equation, state and step count", "anchors": ["include/ode_num_int/ode/OdeSolverGragg.h: doStep, initialState, setInitialStepSize"]}
{"id": "C91", "title": "Scalar products, norms and products of matrices and vectors in IEEE doubles: overflow, underflow, NaN", "statement": "For vectors and views of finite doubles whose elementwise products add up in absolute value to at most 2^1000, dot returns a finite double that differs from the exact scalar product by at most gamma_(n+1) times that sum plus n 2^-1073 (underflow), u = 2^-53; the same holds for oneNorm and euclideanNormSquare with the sums they form. infNorm of finite doubles is finite and exact without any condition. An element that is NaN makes dot, oneNorm and euclideanNormSquare NaN, also next to infinities. The product of a sparse matrix (or a view of one) and a vector of finite doubles satisfies the bound of dot in every row whose elements are finite and whose products add up to at most 2^1000, whatever the other rows; a NaN stored in the matrix, or NaN in the vector met by a stored element, makes that element of the product NaN. The same holds for a vector times a square matrix, with the columns in place of the rows, and for every element of the product of two matrices whose factors are finite and whose products add up to at most 2^1000. The norms of a matrix or view behave like those of the vector of its stored elements. Outside these conditions: the square of the euclidean norm of one finite element can be infinite, that of a vector that is not zero can be zero, and infNorm of a vector or matrix does not see NaN. NaN in the vector does not reach the rows that have no element stored in its column.", "quantifier": "all vectors, matrices and views, all lengths up to 2^50, all doubles", "why_tests_cant": "all lengths and all values; overflow and underflow appear only for values tests do not use", "anchors": ["include/ode_num_int/la/VectorTemplate.h: dot, infNorm, oneNorm, euclideanNormSquare", "include/ode_num_int/la/SparseMatrixTemplate.h: operator*"]}
{"id": "C92", "title": "The linear solver in IEEE doubles: NaN and zero pivots show in the solution, an overflowing pivot need not, and finite solutions with finite pivots are accurate", "statement": "For every matrix of doubles (infinities and NaN included) with an acceptable stencil and every right-hand side, setMatrix, factorize and solve return normally. A NaN stored in a row of the matrix or in that component of the right-hand side makes that component of the solution NaN. A zero (of either sign) or NaN pivot makes its component of the solution infinite or NaN, so that a solution with finite components only proves that no pivot was zero. If all components are finite and the stencil covers the fill-in, all elements of the factors off the diagonal of U are finite, and the pivot of every component other than zero is finite and not zero. An infinite pivot may stay invisible: dividing by it gives a component zero. If all components of the solution and all pivots are finite (and n 2^-53 <= 1/4), nothing has overflown: the factors multiply to the matrix, and the solution satisfies every equation, up to the bounds of rounded arithmetic (C84, with u = 2^-53) plus terms of the size of the smallest doubles that account for underflow. The same bound on the equations holds, without looking at the pivots, if all components of the solution are finite and none is zero.", "quantifier": "all matrices of doubles with acceptable stencils, all sizes, all right-hand sides", "why_tests_cant": "all sizes, stencils and values, including NaN, infinities and signed zeros", "anchors": ["include/ode_num_int/lu/LUFactorizer.h: setMatrix, factorize, solve"]}
