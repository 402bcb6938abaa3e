{
 "claims": [
  {
   "property": "C01",
   "status": "proved",
   "theorems": [
    "C01_sparseMV",
    "C01_sparseMtVm",
    "C01_vectors"
   ],
   "note": "exact arithmetic; memory safety included"
  },
  {
   "property": "C02",
   "status": "proved",
   "theorems": [
    "C02_transpose",
    "C02_transpose_dense"
   ],
   "note": ""
  },
  {
   "property": "C03",
   "status": "proved",
   "theorems": [
    "C03_refuted",
    "C03_empty_rows",
    "C03_copy"
   ],
   "note": "refuted: the code violates the property; the refutation covers every entry-free matrix with rows"
  },
  {
   "property": "C04",
   "status": "proved",
   "theorems": [
    "C04_pinv",
    "C04_permute"
   ],
   "note": ""
  },
  {
   "property": "C20",
   "status": "proved",
   "theorems": [
    "C20_optimal_certificate",
    "C20_suboptimality",
    "C20_user_optimal"
   ],
   "note": "exact arithmetic with NaN, data numeric, tau > 0, dual cone membership of z as a hypothesis of the bound; concrete runs in Examples/RunH.v"
  },
  {
   "property": "C21",
   "status": "proved",
   "theorems": [
    "C21_primal_infeasibility_certificate",
    "C21_no_feasible_point_nearby",
    "C21_user_infeasible"
   ],
   "note": "as C20"
  },
  {
   "property": "C22",
   "status": "proved",
   "theorems": [
    "C22_dual_infeasibility_certificate",
    "C22_no_dual_feasible_point_nearby",
    "C22_user_unbounded"
   ],
   "note": "as C20"
  },
  {
   "property": "C23",
   "status": "proved",
   "theorems": [
    "C23_solve_returns",
    "C23_abandoned_at_start_undefined",
    "C23_exit_flags"
   ],
   "note": "for every arithmetic and interrupt schedule, on every workspace reachable from setup by solves, settings changes and single-entry updates, solve returns a documented flag without any out-of-bounds or indeterminate access; the only exception (first call abandoned at its starting point) is characterised exactly and is undefined behaviour"
  },
  {
   "property": "C24",
   "status": "proved",
   "theorems": [
    "C24_replaced_iff_better",
    "C24_best_replaced_by_better",
    "C24_restore_brings_back_saved",
    "C24_statistics_belong_to_point"
   ],
   "note": "every arithmetic"
  },
  {
   "property": "C25",
   "status": "proved",
   "theorems": [
    "C25_result_independent_of_stored_iterate",
    "C25_refuted_maxit_0",
    "C25_refuted_interrupt"
   ],
   "note": "every arithmetic; refutations are binary64 runs of the model"
  },
  {
   "property": "C26",
   "status": "proved",
   "theorems": [
    "C26_data_untouched",
    "C26_normal_exit",
    "C26_cost_restored_exactly",
    "C26_outcone_leaves_things_behind",
    "C26_refuted_outcone",
    "C26_refuted_rounding"
   ],
   "note": "every arithmetic, cost exactly restored in exact arithmetic; refutations are binary64 runs of the model"
  },
  {
   "property": "C15",
   "status": "proved",
   "theorems": [
    "C15_bring2cone",
    "C15_unit"
   ],
   "note": "exact arithmetic; the least-squares part of init is not part of the claim"
  },
  {
   "property": "C16",
   "status": "proved",
   "theorems": [
    "C16_scaling",
    "C16_rejects",
    "C16_refuted_negative",
    "C16_refuted_near_boundary"
   ],
   "note": "exact arithmetic with margin 1e-13; the unconditional claims are refuted"
  },
  {
   "property": "C17",
   "status": "proved",
   "theorems": [
    "C17_expansion"
   ],
   "note": "exact arithmetic, same margin as C16"
  },
  {
   "property": "C18",
   "status": "proved",
   "theorems": [
    "C18_product",
    "C18_division",
    "C18_refuted_near_boundary"
   ],
   "note": "exact arithmetic, divisor at least 1e-13 inside"
  },
  {
   "property": "C19",
   "status": "proved",
   "theorems": [
    "C19_lineSearch",
    "C19_iterates"
   ],
   "note": "exact arithmetic"
  },
  {
   "property": "C08",
   "status": "proved",
   "theorems": [
    "C08_equilibration_undone"
   ],
   "note": "exact arithmetic with NaN; any number of solves and settings changes in between, whatever they return"
  },
  {
   "property": "C09",
   "status": "proved",
   "theorems": [
    "C09_equivalent_problem"
   ],
   "note": "exact arithmetic with NaN"
  },
  {
   "property": "C11",
   "status": "proved",
   "theorems": [
    "C11_symbolic",
    "C11_storage"
   ],
   "note": "every arithmetic; the numeric phase run with any numbers stays inside the announced storage"
  },
  {
   "property": "C12",
   "status": "proved",
   "theorems": [
    "C12_numeric",
    "C12_refuted_duplicates"
   ],
   "note": "exact arithmetic; no repeated coordinates (with repeated coordinates the claim is refuted)"
  },
  {
   "property": "C13",
   "status": "proved",
   "theorems": [
    "C13_solve"
   ],
   "note": "exact arithmetic, non-zero pivots as C12 provides"
  },
  {
   "property": "C05",
   "status": "proved",
   "theorems": [
    "C05_refuses",
    "C05_accepts"
   ],
   "note": "every arithmetic; data satisfying valid_data, ordering routine any function that answers with permutations"
  },
  {
   "property": "C06",
   "status": "proved",
   "theorems": [
    "C06_structure",
    "C06_entries"
   ],
   "note": "structure in every arithmetic, entries in exact arithmetic"
  },
  {
   "property": "C10",
   "status": "proved",
   "theorems": [
    "C10_untouched",
    "C10_scaling",
    "C10_init",
    "C10_supplied"
   ],
   "note": "any number of refreshes; untouched part in every arithmetic, entries in exact arithmetic"
  },
  {
   "property": "C14",
   "status": "proved",
   "theorems": [
    "C14_bounded",
    "C14_refines",
    "C14_refines_init"
   ],
   "note": "bound, memory safety and accepted corrections in every arithmetic; what base solution, corrections and residual are in exact arithmetic (for matrices without repeated coordinates)"
  },
  {
   "property": "C27",
   "status": "proved",
   "theorems": [
    "C27_gradient",
    "C27_hessian",
    "C27_times"
   ],
   "note": "exact arithmetic with undefined results; every interior point, any number of cones"
  },
  {
   "property": "C28",
   "status": "proved",
   "theorems": [
    "C28_cones",
    "C28_primal",
    "C28_dual",
    "C28_refuted_boundary"
   ],
   "note": "exact arithmetic with undefined results; any number of cones; the interior reading is refuted"
  },
  {
   "property": "C07",
   "status": "proved",
   "theorems": [
    "C07_update",
    "C07_matrix",
    "C07_refuted_no_equalities",
    "C07_old_arrays"
   ],
   "note": "any history of setup, solves and updates; data and scaling in every arithmetic, KKT entries and returned arrays in exact arithmetic"
  },
  {
   "property": "C39",
   "status": "proved",
   "theorems": [
    "C39_entry_h",
    "C39_entry_c",
    "C39_entry_total"
   ],
   "note": "every arithmetic"
  },
  {
   "property": "C29",
   "status": "proved",
   "theorems": [
    "C29_search",
    "C29_step",
    "C29_inside",
    "C29_start",
    "C29_measure",
    "C29_refuted_guard",
    "C29_refuted_guard_example"
   ],
   "note": "C29_search and C29_step hold in every arithmetic (the latter where -1 == -1); C29_inside in exact arithmetic with IEEE infinities (EOps), with 0 < gamma < 1; C29_start shows every such solve has an iterate. C29_measure (exact arithmetic): inside the cones the number the centrality test compares with its limit is the barrier of all cones plus (D+1) ln mu, as Spec/Barrier.v defines it. C29_refuted_guard: a trial point with tau <= 0, kappa <= 0 or outside the positive orthant passes the centrality test because evalSymmetricBarrierValue subtracts ECOS_INFINITY (src/cone.c:245-247); C29_refuted_guard_example is such a point."
  },
  {
   "property": "C35",
   "status": "proved",
   "theorems": [
    "C35_floor",
    "C35_ceil",
    "C35_bracket",
    "C35_round",
    "C35_shuffle",
    "C35_refuted_range",
    "C35_refuted_round_binary64",
    "C35_binary64_floor",
    "C35_binary64_ceil",
    "C35_binary64_round",
    "C35_binary64_example"
   ],
   "note": "real arithmetic with infinities and truncation to int, every value and tolerance in [0,1); in IEEE double precision every finite value of at most 2^30-1 and tolerance in (2^-22,1], where the result is exactly an integer and the tolerance grows by 2^-22; the shuffle in every arithmetic and for every stream of rand() values; the two refuted ones are the failures"
  },
  {
   "property": "C31",
   "status": "proved",
   "theorems": [
    "C31_covers",
    "C31_disjoint",
    "C31_narrows",
    "C31_excludes",
    "C31_others",
    "C31_defined",
    "C31_example",
    "C31_refuted_refixed"
   ],
   "note": "real arithmetic with infinities; any tree, node, split variable and value"
  },
  {
   "property": "C32",
   "status": "proved",
   "theorems": [
    "C32_optimal",
    "C32_infeasible",
    "C32_feasible",
    "C32_codes",
    "C32_lower_bound",
    "C32_incumbent",
    "C32_refuted_unbounded",
    "C32_example"
   ],
   "note": "real arithmetic with infinities; the relaxations are solved by any function meeting Spec/MixedInteger.v's relaxation_solver; every node order, branching rule and stream of rand() values. C32_refuted_unbounded: an unbounded relaxation is reported as infeasible"
  },
  {
   "property": "C33",
   "status": "proved",
   "theorems": [
    "C33_terminates",
    "C33_no_cutoff",
    "C33_setup",
    "C33_convertible",
    "C33_example",
    "C33_nan",
    "C33_refuted_nan",
    "C33_refuted_random",
    "C33_refuted_strong",
    "C33_binary64_convertible",
    "C33_binary64_nan",
    "C33_binary64_inf",
    "C33_binary64_example",
    "C33_binary64_terminates",
    "C33_binary64_run"
   ],
   "note": "every arithmetic and every relaxation behaviour meeting Spec/Solver.v's total_solver (no claim that its answers are right); setup establishes the allocation hypothesis; the excluded cases are refuted by name"
  },
  {
   "property": "C34",
   "status": "proved",
   "theorems": [
    "C34_improves",
    "C34_delivered",
    "C34_order_E",
    "C34_order_F",
    "C34_binary64_order",
    "C34_refuted_root",
    "C34_refuted_code",
    "C34_refuted_discarded"
   ],
   "note": "every arithmetic with a transitive order, which the extended reals and binary64 have; every rule, node order and relaxation behaviour; what is kept is the complete result of one call of the solver, and what the caller gets is what is kept; the root is the exception and is refuted, with a complete run"
  },
  {
   "property": "C30",
   "status": "proved",
   "theorems": [
    "C30_relaxation",
    "C30_setup",
    "C30_rows",
    "C30_node",
    "C30_order",
    "C30_refuted_order",
    "C30_refuted_duplicates",
    "C30_example"
   ],
   "note": "C30_relaxation/C30_setup/C30_node in any arithmetic; C30_rows/C30_order over the reals. The order of the variable lists matters: C30_order is an equivalence, C30_refuted_order a concrete failing case."
  },
  {
   "property": "C41",
   "status": "proved",
   "theorems": [
    "C41_entry_h",
    "C41_entry_c",
    "C41_refuted_integers",
    "C41_example"
   ],
   "note": "In any arithmetic. With general integer variables the update of h is lost or hits another row (C41_refuted_integers)."
  },
  {
   "property": "C36",
   "status": "proved",
   "theorems": [
    "C36_restored",
    "C36_seen",
    "C36_delivered",
    "C36_consistent",
    "C36_stops",
    "C36_codes",
    "C36_not_invented",
    "C36_refuted_lost",
    "C36_refuted_abandoned",
    "C36_refuted_mixed_integer",
    "C36_refuted_mixed_integer_example",
    "C36_example"
   ],
   "note": "Signals may arrive between any two accesses to the signal state; C36_stops, C36_codes and C36_not_invented are about ECOS_solve in any arithmetic. That the flag is neither volatile nor sig_atomic_t is outside the model."
  },
  {
   "property": "C37",
   "status": "proved",
   "theorems": [
    "C37_setup",
    "C37_cleanup",
    "C37_refuted_rejected",
    "C37_bb_setup",
    "C37_bb_cleanup",
    "C37_refuted_bb_rejected",
    "C37_branching",
    "C37_refuted_data_freed",
    "C37_refuted_twice",
    "C37_refuted_rejected_example",
    "C37_example",
    "C37_bb_example"
   ],
   "note": "About blocks and pointers, not their contents. Allocation failure and the blocks AMD_order uses internally are not modelled."
  },
  {
   "property": "C38",
   "status": "proved",
   "theorems": [
    "C38_newton",
    "C38_residuals",
    "C38_exact",
    "C38_example"
   ],
   "note": "exact real arithmetic; the answers of the linear solver are arbitrary and their misses appear in the statement (C13 and C14 say how large they are)"
  },
  {
   "property": "C40",
   "status": "proved",
   "theorems": [
    "C40_valid",
    "C40_preprocess",
    "C40_postorder",
    "C40_finish",
    "C40_order",
    "C40_setup_call",
    "C40_refuted_pointers",
    "elim_plain_ok",
    "C40_order_example",
    "C40_forest_example",
    "C40_finish_example",
    "C40_pointers_example"
   ],
   "note": "Pivot selection (AMD_aat, AMD_1, AMD_2 up to line 1602) is a parameter of C40_order and C40_setup_call, assumed to leave an assembly forest; C43 proves that of the library's."
  },
  {
   "property": "C42",
   "status": "proved",
   "theorems": [
    "C42_setup_accepts",
    "C42_example"
   ],
   "note": "every arithmetic; pivot selection as in C40, for the library's own see C43_setup_accepts. Because of it the premise of C13 and C14 that no coordinate is repeated holds for every workspace setup returns."
  },
  {
   "property": "C43",
   "status": "proved",
   "theorems": [
    "C43_graph",
    "C43_elimination",
    "C43_order",
    "C43_setup_call",
    "C43_setup_accepts",
    "C43_example",
    "C43_example_graph",
    "C43_example_dense"
   ],
   "note": "integers are unbounded; the flag counter's limit is a parameter, so its overflow is not an issue in the model. The quality of the ordering (fill) is not part of the statement. The debug checks and the statistics in Info are not modelled."
  },
  {
   "property": "C44",
   "status": "proved",
   "theorems": [
    "C44_reproducible",
    "C44_memory",
    "C44_update",
    "C44_again",
    "C44_exception",
    "C44_example"
   ],
   "note": "every arithmetic, except C44_again which is about exact arithmetic (rounding changes c, C26_refuted_rounding). The ordering is a function of the pattern of the KKT matrix. C44_exception shows in binary64 that the exception (a call abandoned in its first pass) is real."
  },
  {
   "property": "C45",
   "status": "proved",
   "theorems": [
    "C45_start",
    "C45_residuals",
    "C45_least",
    "C45_unit",
    "C45_ray",
    "C45_example",
    "C45_example_exp",
    "C45_least_example"
   ],
   "note": "exact arithmetic. C45_start assumes no duplicate entries (they would be added up by the matrix products and not by the factorisation, C12). C45_least explains the two systems without the static regularisation."
  },
  {
   "property": "C46",
   "status": "proved",
   "theorems": [
    "C46_wright",
    "C46_conjugate",
    "C46_barrier",
    "C46_floor",
    "C46_example"
   ],
   "note": "exact arithmetic. The polynomial bounds behind C46_wright come from an interval checker that is proved sound (Proofs/IvlQ.v) and run by the kernel. C46_floor is for the exact solution of o + ln o = t. The floor is -3 per exponential cone and not 0 because src/cone.c:267 subtracts D + 1, which counts the exponential cones, while src/expcone.c:104 has already subtracted 3 for each; the centrality test is that much more lenient."
  },
  {
   "property": "C47",
   "status": "proved",
   "theorems": [
    "C47_optimal",
    "C47_optimal_moderate",
    "C47_binary64",
    "C47_binary64_precision",
    "C47_binary64_optimal",
    "C47_examples"
   ],
   "note": "any arithmetic that satisfies the rounding laws of Spec/Rounding.v; C47_binary64 proves them for IEEE double precision, rounding to nearest even, with the Flocq library (no axioms of its own; x87 extended precision and contraction to fused operations are not covered). C47_examples runs the model in binary64 on two problems and checks every hypothesis. The infeasibility codes are C48."
  },
  {
   "property": "C48",
   "status": "proved",
   "theorems": [
    "C48_infeasible",
    "C48_infeasible_moderate",
    "C48_binary64_infeasible",
    "C48_no_feasible_point_nearby",
    "C48_no_dual_feasible_point_nearby",
    "C48_examples"
   ],
   "note": "same arithmetics as C47. The certificate is about the equilibrated problem, as C21 and C22; membership of z (of s) in the cone is a hypothesis of the two consequences only. C48_examples runs the model in binary64 on an infeasible and on an unbounded problem and checks every hypothesis."
  },
  {
   "property": "C49",
   "status": "proved",
   "theorems": [
    "C49_setup",
    "C49_cleanup",
    "C49_binary64_fine",
    "C49_binary64_setup",
    "C49_binary64_cleanup",
    "C49_examples",
    "C49_cost",
    "C49_binary64_cost",
    "C49_cost_example"
   ],
   "note": "same arithmetics as C47, with in addition: absolute values are exact, the constant 1e-6 is at least 2^-20, and rounding is not too coarse; C49_binary64_fine proves these for IEEE double precision. That the workspace holds numbers is a hypothesis (overflow is possible for entries near the largest double); no bound on the size of the data is needed for setup. C49_examples checks every hypothesis on two binary64 problems. C49_cost_example is a binary64 run after which the caller's c differs from before."
  },
  {
   "property": "C50",
   "status": "proved",
   "theorems": [
    "C50_binary64_optimal",
    "C50_binary64_infeasible",
    "C50_no_feasible_point_nearby",
    "C50_no_dual_feasible_point_nearby",
    "C50_examples",
    "C50_binary64_session_optimal",
    "C50_binary64_session_infeasible",
    "C50_session_examples"
   ],
   "note": "IEEE double precision; setup (C49) and the first solve after it (C47, C48) in one statement about the caller's problem. Residuals are measured in the row and column scaling of setup, as the code does; the answer need not satisfy the tolerances in the caller's units. Cone membership of the certificate is a hypothesis of the two consequences. C50_examples checks every hypothesis on four binary64 runs (two optimal, one primal infeasible, one dual infeasible). C50_binary64_session_* say the same of every solve in the life of a workspace, after any number of solves, updates of the data and of single entries and changes of settings: the problem is then made of the arrays last given, and its cost is what the caller's array holds when the call begins (what solving does to it is C49_cost). They need that the answer is not returned at iteration 0 of a later solve, since there the best iterate is stale (C25). C50_session_examples checks the hypotheses on four workspaces used for several solves, one with a full update, one that becomes primal infeasible and one dual infeasible by a single-entry update."
  }
 ]
}