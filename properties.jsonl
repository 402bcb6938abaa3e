{"id": "C01", "title": "Sparse products equal the dense products", "statement": "For every well-formed column-compressed matrix (duplicates and unsorted rows allowed) the product routine yields y = A x, y + A x, -A x or y - A x according to its mode, and the transposed routine yields -A'x or y - A'x (optionally leaving out diagonal entries); nothing outside the result vector changes, no access is out of bounds, and a matrix with zero entries leaves or clears y as documented.", "quantifier": "all matrices (any m, n, nnz, pattern with duplicates), all vectors, all four mode combinations", "why_tests_cant": "the matrix pattern is unbounded and mode/sign/pattern interact; a finite set of matrices cannot cover duplicates, empty columns, empty matrices and every mode", "anchors": ["src/spla.c:sparseMV", "src/spla.c:sparseMtVm", "src/spla.c:vadd", "src/spla.c:vsubscale", "src/spla.c:norm2", "src/spla.c:norminf", "src/spla.c:eddot"]}
{"id": "C02", "title": "Transposition is exact", "statement": "For every well-formed matrix with at least one entry, the transposed copy represents exactly the transposed matrix, is itself well-formed with rows sorted in every column when read in order, and the returned index map sends every entry of the input to the position of the same entry in the output, injectively.", "quantifier": "all well-formed CCS matrices with nnz > 0", "why_tests_cant": "index arithmetic (counting sort) must be right for every pattern; tests sample few patterns", "anchors": ["src/splamm.c:transposeSparseMatrix", "src/splamm.c:spla_cumsum"]}
{"id": "C03", "title": "An entry-free matrix can be transposed safely", "statement": "Transposing a matrix that has rows and columns but no stored entries (as happens for an all-zero A or G) yields a fully initialised, well-formed empty matrix.", "quantifier": "all shapes m x n with nnz = 0", "why_tests_cant": "uninitialised memory usually happens to be zero in test runs", "anchors": ["src/splamm.c:transposeSparseMatrix", "src/splamm.c:newSparseMatrix", "src/preproc.c:createKKT_U"]}
{"id": "C04", "title": "Permutations are inverted and applied exactly", "statement": "For every permutation the inverse routine yields its inverse; permuting a symmetric matrix stored by its upper triangle yields the upper triangle of exactly P K P', and the entry map returned sends each stored entry to its place in the permuted matrix, injectively.", "quantifier": "all permutations of any size, all symmetric sparse matrices", "why_tests_cant": "factorially many permutations", "anchors": ["src/splamm.c:pinv", "src/splamm.c:permuteSparseSymmetricMatrix"]}
{"id": "C05", "title": "Setup accepts exactly the dimensionally consistent problems", "statement": "Setup refuses the problem (returns no workspace) when l + sum q_i + 3*nexc differs from m and otherwise builds a workspace (if the fill-reducing ordering succeeds); the cone partition of the workspace is contiguous, disjoint and covers all m rows, and the cone degree is l + nsoc + 3*nexc.", "quantifier": "all dimension tuples (n,m,p,l,q,nexc) with any number of cones", "why_tests_cant": "the number and sizes of cones are unbounded", "anchors": ["src/preproc.c:ECOS_setup"]}
{"id": "C06", "title": "The KKT matrix is the one the method needs", "statement": "For every problem the assembled sparse KKT matrix is well-formed, upper triangular, has exactly the announced number of entries, and represents [dI A' G'; A -dI 0; G 0 -V] with d the static regularisation and V the identity scaling expanded with two extra columns per second-order cone and a full 3x3 block per exponential cone; the sign vector is +1 for x, -1 for y and z (and +1 for the last expansion variable).", "quantifier": "all problems: any n, m, p, any patterns of A and G, any list of second-order cones and exponential cones", "why_tests_cant": "dozens of interleaved index computations must agree for all cone lists and sparsity patterns", "anchors": ["src/preproc.c:createKKT_U", "src/preproc.c:ECOS_setup"]}
{"id": "C07", "title": "Updating problem data is equivalent to a fresh setup", "statement": "On every workspace in use, the data-update call with new G, A, c, h, b on the same sparsity pattern succeeds and makes the equilibrated data and scaling factors equal to the ones a fresh setup with the new data would produce; of the KKT matrix exactly the entries of A and G change, and they become the new ones; sizes, cones, iterates, settings and the symbolic factorization stay; the old arrays are handed back with the caller's values. The one exception: without equalities, a call with G elsewhere reads through the null pointer.", "quantifier": "all problems and all new numerical data with the same pattern", "why_tests_cant": "the update goes through two index maps composed with a permutation; errors show only for particular patterns", "anchors": ["src/ecos.c:ECOS_updateData", "src/preproc.c:ECOS_setup", "src/splamm.c:permuteSparseSymmetricMatrix"]}
{"id": "C08", "title": "Equilibration is undone exactly", "statement": "Setup scales the caller's G, A, h, b in place; cleanup scales them back. In exact arithmetic the caller's arrays after cleanup are equal to those before setup, for any number of solves in between that end normally.", "quantifier": "all problem data, all cone structures, all numbers of solves", "why_tests_cant": "quantifies over all data; zero rows and columns, and cones sharing scaling factors are corner cases", "anchors": ["src/equil.c:set_equilibration", "src/equil.c:unset_equilibration", "src/equil.c:use_ruiz_equilibration", "src/preproc.c:ECOS_cleanup"]}
{"id": "C09", "title": "Equilibration keeps the problem equivalent", "statement": "All equilibration factors are strictly positive and the row factors are constant within each second-order and each exponential cone; consequently a point is feasible (optimal) for the scaled problem exactly when its back-scaled image is feasible (optimal) for the caller's problem, in primal and dual, with the same objective value.", "quantifier": "all problem data and cone structures", "why_tests_cant": "one row factor that differs inside a cone breaks equivalence only for special data", "anchors": ["src/equil.c:use_ruiz_equilibration", "src/ecos.c:backscale"]}
{"id": "C10", "title": "The KKT update touches exactly the scaling block", "statement": "Any number of refreshes of the KKT matrix of a fresh workspace succeeds and leaves every entry of A, G and the regularisation of x and y untouched; after the last one the conic block acts on every vector as minus the squared scaling of the cones minus the static regularisation. The first refresh of a run writes the identity into the blocks of the linear and second-order cones and leaves the exponential cones' blocks as they were.", "quantifier": "all cone structures, all scalings, all permutations", "why_tests_cant": "index maps composed with permutations", "anchors": ["src/kkt.c:kkt_update", "src/kkt.c:kkt_init", "src/preproc.c:createKKT_U"]}
{"id": "C11", "title": "Symbolic factorisation counts are exact", "statement": "For every upper-triangular pattern the symbolic phase terminates and yields an elimination tree in which parents are larger than children, and column counts equal to the number of entries the numeric phase will store; so the numeric phase never writes outside the storage allocated for the factor.", "quantifier": "all symmetric sparsity patterns of any order", "why_tests_cant": "memory safety for all patterns", "anchors": ["external/ldl/src/ldl.c:LDL_symbolic2", "external/ldl/src/ldl.c:LDL_numeric2"]}
{"id": "C12", "title": "Numeric factorisation reproduces the matrix", "statement": "In exact arithmetic, for a matrix without repeated coordinates, the numeric phase yields unit lower-triangular L and diagonal D with L D L' equal to the input plus a diagonal perturbation that is non-zero only where a pivot had the wrong sign or was below the threshold; every pivot has the sign prescribed for it, and the call always reports success. (With repeated coordinates only the last of the repeated entries is used, although matrix products use their sum.)", "quantifier": "all symmetric matrices of any order and sparsity, all sign vectors, all thresholds", "why_tests_cant": "algebraic identity over all inputs", "anchors": ["external/ldl/src/ldl.c:LDL_numeric2", "src/kkt.c:kkt_factor"]}
{"id": "C13", "title": "Triangular solves solve", "statement": "Forward, diagonal and backward substitution with factors produced by the factorisation return the x with L D L' x = b, without out-of-bounds access.", "quantifier": "all factors of any order and all right-hand sides", "why_tests_cant": "algebraic identity over all inputs", "anchors": ["external/ldl/src/ldl.c:LDL_lsolve", "external/ldl/src/ldl.c:LDL_lsolve2", "external/ldl/src/ldl.c:LDL_dsolve", "external/ldl/src/ldl.c:LDL_ltsolve", "src/kkt.c:kkt_solve"]}
{"id": "C14", "title": "Iterative refinement is bounded and never worsens the kept solution", "statement": "The linear-system solve performs at most nitref refinement steps, terminates for every arithmetic behaviour (NaN included), touches only its own initialised memory, returns the number of steps it kept, and the direction it returns is the base solution plus the corrections that were kept; a correction that increased the measured error is taken back. In exact arithmetic the base solution and every correction solve the symmetric system M (the KKT matrix of the current scaling, up to replaced pivots) for the right-hand side resp. the measured residual, the largest measured residual never grows, and the measured residual is b - Kx except on the rows described by Spec/Refine.drift.", "quantifier": "all systems, all rounding behaviours", "why_tests_cant": "quantifies over all floating-point behaviours", "anchors": ["src/kkt.c:kkt_solve"]}
{"id": "C15", "title": "The starting point is strictly inside the cone", "statement": "The initialisation maps any residual vector to a point strictly inside the product of the orthant and the second-order cones, for every list of cones; with exponential cones present the fixed starting point is strictly inside the primal and dual cones.", "quantifier": "all vectors, all cone lists", "why_tests_cant": "all vectors in all dimensions", "anchors": ["src/cone.c:bring2cone", "src/cone.c:unitInitialization", "src/ecos.c:init"]}
{"id": "C16", "title": "Nesterov-Todd scaling maps s and z to the same point", "statement": "Whenever s and z are strictly inside the cone and not closer to its boundary than the 1e-13 guards of the divisions, the scaling update succeeds and the scaling W it stores satisfies W z = W^-1 s = lambda for orthant and second-order cones, W is linear, symmetric, maps the interior onto itself, and the scale and unscale routines compute W and W^-1. It reports failure when a second-order block of s or z leaves both the cone and its negative. The unconditional claims (failure whenever s or z leaves the cone; the identity for all interior points) are false and refuted.", "quantifier": "all s, z and all cone lists", "why_tests_cant": "algebraic identity over all interior points of all dimensions", "anchors": ["src/cone.c:updateScalings", "src/cone.c:scale", "src/cone.c:unscale"]}
{"id": "C17", "title": "The sparse expansion of the scaling is exact", "statement": "Eliminating the two extra variables per second-order cone from the expanded scaling block gives exactly the squared Nesterov-Todd scaling, and the routine that applies the expanded block computes that same matrix times a vector.", "quantifier": "all cones of any size >= 1 and all interior s, z", "why_tests_cant": "algebraic identity over all inputs", "anchors": ["src/cone.c:updateScalings", "src/cone.c:scale2add", "src/kkt.c:kkt_update"]}
{"id": "C18", "title": "Conic product and division are inverse Jordan operations", "statement": "The conic product is the Jordan product of the cone (and its return value the sum of the absolute first entries), and the conic division by an interior point whose entries and determinants are at least 1e-13 gives the unique solution of the product equation. Below 1e-13 the claim is false and refuted.", "quantifier": "all vectors, all cone lists", "why_tests_cant": "algebraic identity over all inputs", "anchors": ["src/cone.c:conicProduct", "src/cone.c:conicDivision"]}
{"id": "C19", "title": "Steps never leave the cone", "statement": "The step length of the symmetric line search lies in [1e-6, 0.999]; when it was not raised to the lower limit, moving along the scaled direction by that step keeps s, z, tau and kappa inside their cones.", "quantifier": "all interior iterates, all directions, all cone lists", "why_tests_cant": "quantifies over all directions", "anchors": ["src/ecos.c:lineSearch"]}
{"id": "C20", "title": "The status 'optimal' certifies near-optimality", "statement": "When the solver reports optimal, the returned point met the primal and dual residual tolerances and the absolute or relative gap tolerance; weak duality then bounds its objective against every feasible point of the problem: no feasible point is better by more than the gap plus residual terms.", "quantifier": "all problems, all runs, all settings, all arithmetic behaviours for the decision; all feasible points for the certificate", "why_tests_cant": "quantifies over all feasible points of all problems", "anchors": ["src/ecos.c:checkExitConditions", "src/ecos.c:updateStatistics", "src/ecos.c:computeResiduals"]}
{"id": "C21", "title": "The status 'primal infeasible' certifies infeasibility", "statement": "When the solver reports primal infeasible, the returned (y,z) is an approximate Farkas certificate: with z in the dual cone, every point that satisfies all constraints has norm larger than reltol/feastol (so for an exact certificate there is none).", "quantifier": "all problems, all runs, all candidate feasible points", "why_tests_cant": "quantifies over all feasible points", "anchors": ["src/ecos.c:checkExitConditions", "src/ecos.c:updateStatistics"]}
{"id": "C22", "title": "The status 'dual infeasible' certifies unboundedness", "statement": "When the solver reports dual infeasible, the returned x is an approximate improving ray: every dual feasible point has norm larger than a bound that grows as the tolerances shrink.", "quantifier": "all problems, all runs, all candidate dual points", "why_tests_cant": "quantifies over all dual feasible points", "anchors": ["src/ecos.c:checkExitConditions", "src/ecos.c:updateStatistics"]}
{"id": "C23", "title": "Solve terminates with a documented exit flag", "statement": "Solve, called on a workspace made by setup from valid data and used since then in any order (solves, changed settings, changed entries of h and c), returns one of the documented exit flags for every arithmetic behaviour and every interrupt schedule, after at most maxit+1 passes; it never reads or writes outside its arrays and never reads memory that was not written; -4 is returned only if an interrupt was pending, -7 exactly if maxit is negative, and the internal 'not converged yet' value never escapes. The only exception: no iterate was saved before and the call is abandoned at its starting point (interrupt before the first pass, maxit = 0, or a NaN objective); there the code reads a never-written iterate.", "quantifier": "all problems, all floating-point behaviours including NaN, all interrupt times", "why_tests_cant": "control flow under all numerical outcomes and interrupts", "anchors": ["src/ecos.c:ECOS_solve", "src/ecos.c:checkExitConditions"]}
{"id": "C24", "title": "The returned iterate is the best seen", "statement": "An iterate replaces the saved best one exactly under the documented criterion (first iteration, or gap and complementarity both strictly smaller together with the residual comparison the code makes); restoring the best iterate brings back exactly the saved point and statistics.", "quantifier": "all histories of iterates", "why_tests_cant": "all histories", "anchors": ["src/ecos.c:compareStatistics", "src/ecos.c:saveIterateAsBest", "src/ecos.c:restoreBestIterate"]}
{"id": "C25", "title": "Saved state is only restored after it was saved", "statement": "The result of solve does not depend on the best iterate left in the workspace by earlier calls: it is only restored after it was saved in the same call, provided the first pass through the loop does not end the run. When the first pass does end the run (iteration limit 0, interrupt pending, NaN cost at the starting point), the code reads an iterate that was never saved: the unconditional claim is false and refuted.", "quantifier": "all settings (including maxit = 0), all interrupt times, all numerical outcomes of the first iteration", "why_tests_cant": "needs NaN or an interrupt at the first iteration", "anchors": ["src/ecos.c:ECOS_solve", "src/ecos.c:restoreBestIterate"]}
{"id": "C26", "title": "Solve leaves the problem data as it found it", "statement": "On return from solve the matrices, right-hand sides, scalings and settings are unchanged on every exit path; on every normal exit the signal handler is the caller's, the cost vector holds the caller's values (exactly in exact arithmetic, up to a division and a multiplication in floating point), and the solution is in the caller's units. When solve reports that it left the cone, the handler and the scaling of the cost vector are left behind: the unconditional claim is false and refuted.", "quantifier": "all exit paths, repeated calls", "why_tests_cant": "rare exit paths (leaving the cone) are hard to trigger", "anchors": ["src/ecos.c:ECOS_solve", "src/ecos.c:backscale", "src/ctrlc.c:init_ctrlc", "src/ctrlc.c:remove_ctrlc"]}
{"id": "C27", "title": "Exponential cone barrier derivatives are exact", "statement": "The gradient and Hessian routines for the dual exponential cone return the true first and second derivatives of its logarithmic barrier at every interior point, and the Hessian is positive definite there.", "quantifier": "all interior points of the dual exponential cone", "why_tests_cant": "identity between analytic functions on an open set", "anchors": ["src/expcone.c:evalExpGradient", "src/expcone.c:evalExpHessian", "src/expcone.c:scaleToAddExpcone"]}
{"id": "C28", "title": "Exponential cone membership tests are sound", "statement": "The feasibility tests accept a vector if and only if each of its triples passes; a triple that strictly meets the sign pattern of its cone passes exactly if it lies in the closed primal (dual) exponential cone, boundary included, and a triple with a wrong non-zero sign fails; it is false that accepted triples always lie in the cone: a zero component makes the test value undefined and the triple passes.", "quantifier": "all vectors, all numbers of cones", "why_tests_cant": "all reals; boundary cases with zero components", "anchors": ["src/expcone.c:evalExpPrimalFeas", "src/expcone.c:evalExpDualFeas"]}
{"id": "C29", "title": "The exponential line search is bounded and sound", "statement": "The backtracking search of the exponential cones tries the step lengths alpha, alpha*scale, alpha*scale^2, ... in this order and at most max_bk_iter of them; each trial but an accepted one failed one of the four tests (dual feasibility, primal feasibility, balance, centrality), the reported counters say how often each failed, and the result is -1 or gamma times the step length that passed. With exponential cones present every step the solver takes is of the second kind, and in exact arithmetic the exponential triples of s and z therefore stay strictly inside the cone and its dual in every iteration. The number the centrality test compares with the limit is, inside the cones, the barrier of all cones plus (D+1) ln mu. (The tests do not keep tau, kappa and the positive orthant positive: there the symmetric barrier is minus instead of plus infinity and every limit is passed.)", "quantifier": "all iterates, directions and arithmetic behaviours", "why_tests_cant": "all floating-point behaviours", "anchors": ["src/ecos.c:expConeLineSearch", "src/ecos.c:ECOS_solve", "src/cone.c: evalSymmetricBarrierValue", "src/expcone.c: evalBarrierValue"]}
{"id": "C30", "title": "Mixed-integer setup encodes bounds on the right variables", "statement": "For every well-formed problem and every pair of lists of distinct boolean and integer variables, the relaxation the mixed-integer module builds and hands to the solver consists of the caller's constraints, unchanged and shifted below two new rows per integer variable that bound that variable from below and above (0/1 for booleans, +-2^23 for integers). Entering a node of the search puts exactly the node's bounds into those rows, as if the relaxation had been set up with them. A node's bounds restrict exactly the variables they are meant for if, and only if, the booleans followed by the integers are listed in ascending order; in any other order the bounds of one variable land on another, and a variable listed twice leaves right-hand sides uninitialised.", "quantifier": "all well-formed problems, all lists of boolean/integer variables, all node bounds, all points", "why_tests_cant": "variable lists can come in any order and mixture", "anchors": ["ecos_bb/ecos_bb_preproc.c:socp_to_ecos_bb", "ecos_bb/ecos_bb_preproc.c:contains", "ecos_bb/ecos_bb_preproc.c:ECOS_BB_setup", "ecos_bb/ecos_bb.c:set_prob"]}
{"id": "C31", "title": "Branching loses no integer point", "statement": "When a node is split, every integer assignment allowed by the parent is allowed by a child, never by both, and the point split on is excluded from both; no other node changes. No child allows anything the parent did not as long as the parent leaves the split variable free (a boolean not yet fixed, an integer variable with the split value between its bounds); when the parent has already fixed the split boolean to one, a child wrongly allows zero.", "quantifier": "all nodes, all fractional values, all split variables", "why_tests_cant": "all nodes reachable in all trees", "anchors": ["ecos_bb/ecos_bb.c:branch"]}
{"id": "C32", "title": "Branch and bound returns correct answers given correct relaxations", "statement": "If every relaxation solve is right (it returns a point meeting the node's bounds whose cost is, up to a given accuracy, no more than that of any feasible point within them, or an infeasibility code when there is none), then: with an optimal status the point returned is feasible, integral up to the integer tolerance, and within the absolute or the relative gap tolerance of every feasible integer point; with an infeasible status there is no feasible integer point; with the iteration-limit-feasible status the point is feasible and integral; no other status but iteration-limit-without-solution is returned; and after every pass of the search the global lower bound is a true lower bound on whatever beats the incumbent. Unbounded relaxations are outside the contract: the code reports them as infeasible.", "quantifier": "all integer programs, all node orders, all relaxation behaviours meeting the oracle contract", "why_tests_cant": "whole-tree invariant", "anchors": ["ecos_bb/ecos_bb.c:ECOS_BB_solve", "ecos_bb/ecos_bb.c:get_bounds", "ecos_bb/ecos_bb.c:get_next_node", "ecos_bb/ecos_bb.c:get_global_L"]}
{"id": "C33", "title": "Branch and bound terminates within its node budget", "statement": "For every behaviour of the relaxation solves - any exit code, any values that fit an int (a char for booleans) once rounded - branch and bound with at least one integer variable, maxit >= 1 and the most-infeasible, pseudocost, reliability or unset rule returns a documented status after fewer than maxit passes, without reading or writing outside the node storage or any other array. In double precision finite values of at most 2^30-1 (63 for booleans) are enough. It is not so in general: a relaxation accepted with a NaN, the strong-branching rule with relaxations that are not repeatable, and the random rule with unlucky draws each lead to undefined behaviour or to a run that never ends.", "quantifier": "all relaxation behaviours, all settings with maxit >= 1", "why_tests_cant": "all behaviours", "anchors": ["ecos_bb/ecos_bb.c:ECOS_BB_solve", "ecos_bb/ecos_bb.c:get_ret_code", "ecos_bb/ecos_bb.c:should_continue"]}
{"id": "C34", "title": "The incumbent never gets worse", "statement": "After the root node, the best integer solution kept by branch and bound stays or is replaced by one of strictly lower cost, over the whole run, whatever the relaxations do. At the root it is not so: the cost of a solution found there by rounding is forgotten, and a run that ends at the root reports that there is no solution although one is stored.", "quantifier": "all runs", "why_tests_cant": "history property", "anchors": ["ecos_bb/ecos_bb.c:get_bounds", "ecos_bb/ecos_bb.c:ECOS_BB_solve"]}
{"id": "C35", "title": "Integer rounding helpers are exact", "statement": "Floor, ceiling and rounding of relaxation values are the mathematical ones up to the stated tolerance for every value in the range of a 32-bit int, and undefined outside it; the candidate shuffle is a permutation for every random sequence. In double precision, for finite values of at most 2^30-1 and tolerances above 2^-22, the result is exactly an integer: floor and ceiling up to the tolerance plus 2^-22, rounding within 1/2 + 2^-22. Rounding is not to nearest there: 0.49999999999999994 rounds to 1.", "quantifier": "all values in range, all tolerances, all random sequences", "why_tests_cant": "all reals", "anchors": ["include/ecos_bb.h:pfloat_floor", "include/ecos_bb.h:pfloat_ceil", "include/ecos_bb.h:pfloat_round", "ecos_bb/ecos_bb.c:get_shuffled_array"]}
{"id": "C36", "title": "Interrupts are caught and handed back", "statement": "For every arrangement of interrupts around the library's accesses to the signal state: a check inside a solve answers yes exactly if an interrupt arrived since the solve installed its handler; the solve ends in the pass in which a check answers yes, with the code for 'interrupted' or one of the reduced-precision codes, and never returns 'interrupted' without an interrupt; interrupts before installation and after removal reach the application; after a solve that ends normally the application's handler is back. It does not hold (and is proved not to) that no interrupt is lost (one arriving after the last check is swallowed), that the handler always returns (after an early exit the application's handler never comes back, whatever is called later), or that the mixed-integer solver reports interruption (it reports 'infeasible' when the root relaxation is interrupted).", "quantifier": "all interrupt schedules, at every point between two accesses; all problems and settings; every number format", "why_tests_cant": "signals are asynchronous: a test sees a handful of arrival times out of all of them", "anchors": ["src/ctrlc.c:init_ctrlc", "src/ctrlc.c:remove_ctrlc", "src/ctrlc.c:check_ctrlc", "src/ecos.c:ECOS_solve", "ecos_bb/ecos_bb.c:get_bounds"]}
{"id": "C37", "title": "Cleanup frees everything once", "statement": "Setup called with live arrays of matching sizes does not touch or free anything it should not; it returns a workspace exactly when the cones match the rows of G and the ordering succeeds. If afterwards, at any time, the workspace and the caller's arrays are still there, cleanup with keepvars = k frees every block setup allocated exactly once, except the first k of x, y, s, z, which stay live, and frees no other block; it never reads a freed block or NULL. The same holds for the mixed-integer setup and cleanup, which leave settings passed in by the caller alone, and the branching rules free their temporaries. Not so: a rejected problem leaks what was allocated before the rejection, and the mixed-integer setup then reads through NULL; the caller's arrays must outlive the workspace, because cleanup writes to them.", "quantifier": "all problem shapes (with and without A, empty matrices, any number and sizes of cones, any outcome of the ordering), all keepvars, all heaps, every choice of what a request for zero bytes returns, all later heaps in which the blocks are still live", "why_tests_cant": "leaks and double frees do not fail tests", "anchors": ["src/preproc.c:ECOS_cleanup", "src/preproc.c:ECOS_setup", "src/equil.c:unset_equilibration", "src/splamm.c:freeSparseMatrix", "ecos_bb/ecos_bb_preproc.c:ECOS_BB_setup", "ecos_bb/ecos_bb_preproc.c:ECOS_BB_cleanup", "ecos_bb/ecos_bb.c:strong_branching"]}
{"id": "C38", "title": "Every iteration is a predictor-corrector step that shrinks infeasibility at the predicted rate", "statement": "One iteration of a solve is one step of Mehrotra's method on the homogeneous embedding of the scaled program: with the Nesterov-Todd scaling at the current slacks and multipliers, a predictor direction without centering, a corrector direction with the centering sigma reported in the statistics (between 1e-4 and 1), and a move of the reported step length a along it. The complementarity equations of the direction hold exactly. Every residual of the embedding becomes 1 - a(1 - sigma) times what it was, plus a times the amount by which the answers of the linear solver miss their right-hand sides; if the linear systems are solved exactly, it is exactly 1 - a(1 - sigma) times what it was. The point must keep a margin of 1e-13 from the boundary of the symmetric cones, because the floors of guarded divisions act below it.", "quantifier": "all problems, all workspaces in use, all iterations or other points placed in the loop with that margin and tau nonzero; exact real arithmetic", "why_tests_cant": "algebraic identity over all inputs", "anchors": ["src/ecos.c:RHS_affine", "src/ecos.c:RHS_combined", "src/ecos.c:ECOS_solve"]}
{"id": "C39", "title": "Single-entry updates set the caller's value", "statement": "Setting one entry of h (or of c) of a workspace makes it hold exactly what setup would have produced had the caller passed the changed vector: all scaled data and scaling factors agree with those of that setup. The call succeeds for every row (column) on every workspace in use and changes no other entry.", "quantifier": "all problems, all indices, all values", "why_tests_cant": "depends on internal row offset and scaling for all problems", "anchors": ["src/ecos.c:ecos_updateDataEntry_h", "src/ecos.c:ecos_updateDataEntry_c"]}
{"id": "C40", "title": "The fill-reducing ordering checks its input and returns a permutation", "statement": "The ordering's input check accepts exactly the well-formed patterns with strictly ascending columns, calls the other well-formed ones jumbled and anything else invalid, provided no column pointer exceeds the array of row indices (otherwise it reads past the end of that array). The preprocessing of a jumbled pattern yields the transposed pattern, sorted and without duplicates, inside the arrays it is given. The postorder of an assembly forest ends and numbers every subtree consecutively, root last, largest child directly before it. The final stage turns any assembly forest into a permutation that puts absorbed rows directly before their element, elements before their parents and dense rows last; so whenever pivot selection leaves an assembly forest the ordering is a permutation, which is what the solver's setup relies on.", "quantifier": "every pattern of every size, well-formed or not; every assembly forest; every content of the work arrays", "why_tests_cant": "the loops follow linked lists and parent chains of any length and shape, and an index wrong in one rare shape corrupts the factorization silently", "anchors": ["external/amd/src/amd_order.c", "external/amd/src/amd_valid.c", "external/amd/src/amd_preprocess.c", "external/amd/src/amd_postorder.c", "external/amd/src/amd_post_tree.c", "external/amd/src/amd_2.c (lines 1602-1842)", "src/preproc.c (lines 923-942)"]}
{"id": "C41", "title": "Single-entry updates of a mixed-integer problem set the caller's value (only without general integers)", "statement": "Changing one entry of the cost vector of a mixed-integer problem has the same effect as setting the problem up with the changed vector, and so has changing one entry of h if the problem has no general integer variables. With ni general integer variables an update of one of the first 2*ni entries of h has no effect on what is solved: it lands in a bound row that the next node overwrites.", "quantifier": "all valid mixed-integer problems, all entries and values", "why_tests_cant": "every entry, value and mixture of variables; no finite set of calls covers them", "anchors": ["ecos_bb/ecos_bb.c:updateDataEntry_h", "ecos_bb/ecos_bb.c:updateDataEntry_c"]}
{"id": "C42", "title": "Setup accepts exactly the problems that list no coordinate twice", "statement": "Given well-formed data whose cones have m rows in all, setup succeeds whenever neither A nor G lists a coordinate twice, in whatever order each column lists its rows, and returns no workspace whenever one of them does.", "quantifier": "all well-formed problems of every size, every arithmetic, every pivot selection that leaves an assembly forest", "why_tests_cant": "acceptance depends on the pattern of the whole assembled matrix after two transpositions; only a finite number of patterns can be tried", "anchors": ["src/preproc.c:ECOS_setup (lines 923-942)", "src/preproc.c:createKKT_U", "src/splamm.c:transposeSparseMatrix", "external/amd/src/amd_valid.c", "external/amd/src/amd_order.c"]}
{"id": "C43", "title": "Pivot selection of the ordering stays inside its workspace, ends, and eliminates every row once", "statement": "The counting pass gives every row of a square pattern the number of rows it shares an off-diagonal entry with, in the pattern or its transpose, and the storing pass stores exactly these rows, each once, in the workspace. From there pivot selection, with its degree lists, approximate degrees, absorption of elements, mass elimination, detection of indistinguishable rows and garbage collection, never leaves its arrays or reads a cell it has not written, ends after at most as many pivots as there are rows, and leaves an assembly forest in which every row that is not dense is a pivot or belongs to exactly one. Hence the ordering always returns a permutation, and setup depends on no assumption about it.", "quantifier": "every pattern of every size, every density threshold, with and without aggressive absorption, every limit of the flag counter, every content of the work arrays", "why_tests_cant": "the state is a set of linked lists packed into shared arrays that are moved by garbage collection; an index wrong in one rare sequence of absorptions corrupts the factorization silently", "anchors": ["external/amd/src/amd_aat.c", "external/amd/src/amd_1.c", "external/amd/src/amd_2.c (lines 579-1548)", "external/amd/src/amd_order.c (lines 140-174)", "external/amd/src/amd_defaults.c"]}
{"id": "C44", "title": "Solve is reproducible: its answer depends only on the problem and settings the workspace holds", "statement": "Take two workspaces set up with the same dimensions, cones and ordering from matrices with the same sparsity pattern (the numbers may differ), in memory with arbitrary contents, and let each go through its own history of solves, data updates, single-entry updates and settings changes. If both now hold the same data and settings, a call of solve on each returns the same exit flag, the same x, y, z, s, tau, kappa, iteration count and reported figures, bit for bit, and leaves c in the same state. So uninitialised memory, earlier solves and earlier data never influence an answer; after updateData a workspace answers like one freshly set up with the new values; and in exact arithmetic solving twice gives the same answer twice. The one exception is a call abandoned in its first pass (interrupt, iteration limit 0, objective not a number), which returns the iterate stored by an earlier call.", "quantifier": "all dimensions, cones, patterns, numerical values, contents of freshly allocated memory, pairs of histories of any length, interrupt schedules and settings; any arithmetic, rounding floating point included", "why_tests_cant": "An uninitialised read or a stale buffer shows only for particular memory contents and histories; a test compares a few runs on one allocator, the claim is about all pairs of histories.", "anchors": ["src/ecos.c: ECOS_solve, init, ECOS_updateData, ecos_updateDataEntry_h, ecos_updateDataEntry_c, saveIterateAsBest, restoreBestIterate", "src/preproc.c: ECOS_setup, createKKT_U", "src/kkt.c: kkt_update, kkt_init, kkt_solve", "src/cone.c: updateScalings"]}
{"id": "C45", "title": "Every run starts from the documented starting point", "statement": "Without exponential cones, solve starts from x and s taken from one solve of the KKT system with identity scaling and right-hand side (0, b, h), y and z taken from a second solve with the same factored matrix and right-hand side (-c, 0, 0), tau = kappa = 1. s is -z1 and z is z2, each moved along the unit e of the cone: by 1/100 if it is already inside the cone, and otherwise exactly as far as it takes to be at depth 1. So at the start A x - b is the error of the first solve, G x + s - h that error plus a positive multiple of e, A'y + G'z + c the error of the second solve plus a positive multiple of G'e, and s, z are strictly inside the cone. Were the solves exact and unregularised, h - G x would be as short as A x = b allows and z as short as A'y + G'z = -c allows. With exponential cones the start is x = 0, y = 0, tau = kappa = 1 and s = z, with the unit in the orthant and the second-order cones and one fixed ray, inside the exponential cone and its dual, in every exponential cone.", "quantifier": "all dimensions, cones, matrices without duplicate entries, data, settings with nonnegative eps and positive delta, and histories of the workspace; exact arithmetic", "why_tests_cant": "A wrong sign or a wrong shift in the starting point still converges on most test problems, only slower or less reliably; what the start is for every problem is not visible in the answers.", "anchors": ["src/ecos.c: init", "src/cone.c: bring2cone, unitInitialization", "src/kkt.c: kkt_factor, kkt_solve, kkt_init"]}
{"id": "C46", "title": "The barrier of the exponential cone is evaluated correctly", "statement": "The Wright omega function used for the barrier returns, for every argument t >= 1, the only solution of o + ln o = t up to an error of 6e-13. At every point inside the exponential cone its argument is above 1, and the barrier value formed from the solution is the conjugate of the barrier of the dual cone, that is the largest value of -<s,z> - F(z) over the inside of the dual cone. So the barrier routine returns the sum over the cones of the barrier at z and the conjugate barrier at s, with an error of at most 8e-12 divided by ln(y/z) - x/z, a measure of the distance of s = (x, y, z) to the boundary. With the exact solution the centrality measure made from it is at least -3 times the number of exponential cones at every point inside the cones.", "quantifier": "all real arguments t >= 1, all points inside the cones, any number of cones of each kind; exact arithmetic", "why_tests_cant": "The function is a fixed number of steps from an approximate start; whether the error is small for every argument, including arbitrarily large ones and those around the switch between the two starting formulas, is a statement about a continuum.", "anchors": ["src/wright_omega.c: wrightOmega", "src/expcone.c: evalBarrierValue", "src/cone.c: evalSymmetricBarrierValue"]}
{"id": "C47", "title": "Optimal means optimal up to tolerance also when the arithmetic rounds", "statement": "In IEEE double precision (and in any arithmetic whose operations have a relative error u, an underflow error eta and do not overflow below a bound), if solve returns ECOS_OPTIMAL or its reduced-accuracy variant and the numbers the caller sees (data, scalings, tau, the vectors returned) are at most 2^60 in size, scalings and tau also at least 2^-60, then within rounding error of the returned x, y, z, s there is a point whose exact residuals A x - b, G x + s - h, A'y + G'z + c have norms below feastol times the norms the solver divides by, and whose gap passes abstol or reltol and whose objectives have the signs tested, each up to an explicit rounding term: 2^-21 times the sum of the absolute values of the terms of the residual, and 2^-500 for underflow. Nothing is assumed about intermediate results: no overflow, underflow or cancellation inside the solver can make it report optimality at a point that is not.", "quantifier": "all problems with dimensions and nonzero counts up to 2^20 (any size for the general arithmetic), all data, settings with nonnegative tolerances, interrupt schedules and runs; every rounding arithmetic that satisfies the stated laws, IEEE binary64 among them", "why_tests_cant": "A test observes the residuals the solver computed, with the same rounding; that the true residuals of the returned point are small for every problem and every run is a statement about all combinations of rounding errors, including cancellation and overflow in intermediate results.", "anchors": ["src/ecos.c: ECOS_solve, computeResiduals, updateStatistics, checkExitConditions, backscale", "src/spla.c: sparseMV, sparseMtVm, eddot, norm2"]}
{"id": "C48", "title": "Infeasible means infeasible up to tolerance also when the arithmetic rounds", "statement": "In IEEE double precision (and in any arithmetic with the rounding laws of C47), if solve returns ECOS_PINF or ECOS_DINF or a reduced-accuracy variant and the numbers the caller sees are of moderate size (2^-60 to 2^60), then within rounding error of the vectors returned there is a certificate of infeasibility. For ECOS_PINF: b'y + h'z is at most -reltol times max(|y|+|z|, 1) while |A'y + G'z| is below feastol times the same. For ECOS_DINF: c'x is at most -reltol times max(|x|, 1) while |A x| and |G x + s| are below feastol times max(|x|, 1) and max(|x|+|s|, 1). Each holds for the exact values up to an explicit rounding term: a relative 2^-21 of the sum of the absolute values of the terms, and 2^-500 for underflow. In consequence every feasible point of the problem declared infeasible has a norm bounded from below by the margin divided by the residual, rounding included.", "quantifier": "all problems with dimensions and nonzero counts up to 2^20 (any size for the general arithmetic), all data, settings with nonnegative tolerances, interrupt schedules and runs; every rounding arithmetic that satisfies the stated laws, IEEE binary64 among them", "why_tests_cant": "A test sees the certificate evaluated with the solver's own rounding; that no accumulation of rounding errors, overflow, NaN or cancellation can turn a feasible problem's iterate into a passing certificate is a statement about all runs.", "anchors": ["src/ecos.c: ECOS_solve, computeResiduals, updateStatistics, checkExitConditions, backscale", "src/spla.c: sparseMV, sparseMtVm, eddot, norm2"]}
{"id": "C49", "title": "Setup and cleanup change the caller's numbers by rounding only", "statement": "In IEEE double precision (and in any arithmetic with the rounding laws of C47), whenever the workspace setup returns holds finite numbers: the problem the solver works on is exactly the row and column scaling, by positive factors that respect the cones, of a problem whose every number (entries of A and G, and c, b, h) equals the caller's up to a relative error of 2^-49 and an absolute error of 2^-1000 times its scaling. The sparsity patterns, the dimensions and the cones are the caller's. And after setup, any number of solves with any settings and any outcome, and cleanup, the caller's arrays A, G, b, h hold the numbers they held before setup, up to the same errors; array cells beyond the entries are untouched. The caller's cost vector c, which solve scales in place, is after k solves that return normally what it was up to 2k roundings (relative (1+2^-53)^(2k) - 1); it need not come back exactly.", "quantifier": "all problems of any size, all numbers (finite results of setup; for cleanup numbers and scalings below 2^1021), all orderings, all sequences of solves and settings; every rounding arithmetic that satisfies the stated laws, IEEE binary64 among them", "why_tests_cant": "A test sees that some matrices come back to within a tolerance. That no magnitude of the data, tiny, huge, subnormal or mixed, loses accuracy through the repeated scaling by square roots, and that no sequence of solves changes what cleanup restores, quantifies over all data and histories.", "anchors": ["src/equil.c: set_equilibration, unset_equilibration, equilibrate_rows, equilibrate_cols, restore, max_rows, max_cols", "src/preproc.c: ECOS_setup, ECOS_cleanup", "src/ecos.c: ECOS_solve, backscale (scaling of c)"]}
{"id": "C50", "title": "The exit codes are true of the caller's own problem, rounding included", "statement": "In IEEE double precision, take any problem a caller sets up and solves with any settings, such that the numbers the caller sees are finite and of moderate size. If solve returns ECOS_OPTIMAL (or the reduced-accuracy variant), then there is a problem whose every number agrees with the caller's to a relative 2^-49, and a point that agrees with the vectors returned to a relative 2^-49, such that the point satisfies the optimality conditions of that problem (equalities, inequalities, dual equations, gap) up to the tolerances chosen, in the row and column scaling of setup, and the explicit rounding errors of evaluating them. If it returns ECOS_PINF or ECOS_DINF (or a variant), the vectors returned are in the same sense a certificate of infeasibility, and every feasible point of that problem has a norm bounded from below by margin over residual. The same holds of every solve in the life of a workspace, after any history of solves, data updates, single-entry updates and changes of settings (for later solves, if the run does not end at iteration 0): the problem is then made of the arrays last given, and its cost is the one the caller's array holds when the call begins.", "quantifier": "all problems with dimensions and nonzero counts up to 2^20, all finite data and settings with nonnegative tolerances, all orderings, all interrupt schedules, all runs whose numbers the caller sees lie between 2^-60 and 2^60 in size; all histories of the workspace before the call", "why_tests_cant": "A test compares some answers to known ones. That the scaling in setup, the iteration, the exit tests and the scaling back of the answer, all in rounding arithmetic, never combine to a wrong claim about the caller's problem quantifies over all problems and runs.", "anchors": ["src/preproc.c: ECOS_setup", "src/equil.c: set_equilibration", "src/ecos.c: ECOS_solve, checkExitConditions, backscale, ECOS_updateData, ecos_updateDataEntry_h, ecos_updateDataEntry_c"]}
