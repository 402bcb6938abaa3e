# A Rocq model of ECOS: design

Everything is under `rocq/theories/`:

| directory | content |
|-----------|---------|
| `Base.v`, `Num*.v` | arrays, loops, undefined behaviour; the arithmetics |
| `Model/` | the code, function by function, each definition citing file and lines |
| `Spec/` | small definitions in which the properties are stated (dense matrices, cones, certificates, trees, ...); no model function is used there except the record types and, where said, array reading |
| `Proofs/` | lemmas |
| `Properties/` | the theorems listed in `MANIFEST.json`, each stated in full, with non-vacuity examples and `Print Assumptions` |
| `Examples/` | complete runs of the model on concrete problems |

## 1. How the code is modelled

* **Arrays and undefined behaviour.** A C array is a list of `option T` whose length is the
  allocated size; `None` marks a cell never written. Reading or writing outside the list, or
  reading an unwritten cell, makes the whole computation `None` ("undefined behaviour").
  Functions live in the option monad, so a theorem of the form
  `exists s', f s = Some s' /\ ...` includes memory safety (`Base.v`).
* **Loops.** `for` loops are `for_loop`/`for_`/`for_down` (structural recursion). `while`
  loops take fuel; running out of fuel is `None` as well, so the same statements include
  termination.
* **Indices** (`idxint`, 64 bit) are `nat`, or `Z` where the code uses negative values.
  Overflow of index arithmetic (sizes near 2^63) is not modelled. The casts of doubles to
  `int` in `ecos_bb.c` are modelled (`ToInt`), including their failure.
* **Numbers.** Numeric code is written once over a record `Ops` of floating-point
  operations (`Num.v`) and read in several arithmetics:

  | arithmetic | file | used for |
  |---|---|---|
  | any `Ops` | `Num.v` | memory safety, termination, exit logic, frame conditions: hold for IEEE doubles with NaN, since nothing about the operations is assumed |
  | `ROps` | `Num.v` | exact reals: algebraic correctness |
  | `XOps` | `NumX.v` | reals plus one undefined value (0/0, root or logarithm of a negative number): equilibration, certificates and cone tests where the program may hit NaN |
  | `HOps` | `NumH.v` | rationals where the result is rational, reals otherwise, plus undefined value; computes what `XOps` computes: concrete runs |
  | `EOps` | `NumE.v` | reals with +inf, -inf and NaN: line search guards, branch and bound bounds |
  | `FOps` | `Num.v` | IEEE binary64 from Coq's `SpecFloat` (axiom-free, computable): witnesses of refuted properties |
  | `BOps` | `Proofs/RoundB.v` | IEEE binary64 from the Flocq library, whose error bounds give the rounding laws of `Spec/Rounding.v` (C47 to C50); exp and log are parameters |
  | `ToInt` | `NumI.v` | truncation of a number to a 32-bit `int`, failing outside its range |

  `reads O phi` says that an arithmetic maps homomorphically where defined; it is how a
  theorem over `R` is moved to `XOps`/`HOps`.
* **Workspace.** `Model/Types.v` has the `pwork` of `ecos.h` field by field (data, iterate,
  best iterate, cones, KKT, info, settings). Aliasing of caller arrays with the workspace is
  by value except in the heap model below and in C07/C39/C41, where it is discussed.
* **Heap.** `Model/Heap.v` re-reads the allocation and freeing statements of setup, cleanup,
  branch and bound setup and cleanup, and the branching rules, as a monad over a list of live
  blocks with use-after-free, double free and NULL dereference as failures (C37).
* **Signals.** `Model/Ctrlc.v` is `ctrlc.c` as accesses to a state (installed handler, saved
  handler, flag), with a signal allowed between any two accesses (C36). `ECOS_solve` takes
  the interrupt schedule as a function from iteration to bool.
* **Ordering.** `Model/Amd.v` models `AMD_order` with validation, preprocessing, the
  postordering and the final passes of `AMD_2`; `Model/Amd2.v` models `AMD_aat`, `AMD_1` and
  pivot selection, `AMD_2` up to line 1602, with its degree lists and hash buckets threaded
  through shared arrays, and garbage collection. In C40 and C42 pivot selection is a parameter
  `elim`, constrained by `elimination_ok` (it leaves an assembly forest); C43 proves this of
  the library's, `amd_elim`, for every density threshold, every limit of the flag counter and
  both settings of aggressive absorption. `ecos_elim` is the instance `ECOS_setup` uses.
* **Branch and bound.** `Model/Bb.v` models `ecos_bb.c` and `ecos_bb_preproc.c` over an
  abstract relaxation solver and a stream of `rand()` values. `ecos_solver` instantiates the
  former with the model of `ECOS_solve`.
* **Build configuration**: the one in the repository: CONEMODE 0, STATICREG 1, EXPCONE,
  EQUILIBRATE 1, RUIZ_EQUIL with EQUIL_ITERS 3, CTRLC 1, DLONG, PROFILING 1, PRINTLEVEL 2,
  DEBUG 0.

## 2. Trusted base

* Coq 8.16.1's kernel (`coqchk` accepts all files). No axioms of our own, no plugins, no
  functors, nothing admitted. Computation by `vm_compute` is part of the kernel; it is used
  for examples and for the interval checker of Proofs/IvlQ.v.
* The transcription of C into the model. Every definition cites what it models, and what it
  leaves out is said there and in section 4.
* The axioms below, all from Coq's standard library (they come with `Reals`). The list is what `Print Assumptions` prints.

**Closed under the global context (no axiom at all):**

* C02: `C02_transpose`
* C03: `C03_refuted`, `C03_empty_rows`, `C03_copy`
* C04: `C04_pinv`
* C05: `C05_refuses`, `C05_accepts`
* C06: `C06_structure`
* C07: `C07_update`, `C07_refuted_no_equalities`
* C10: `C10_untouched`, `C10_supplied`
* C11: `C11_symbolic`, `C11_storage`
* C14: `C14_bounded`
* C16: `C16_refuted_negative`
* C23: `C23_solve_returns`, `C23_abandoned_at_start_undefined`, `C23_exit_flags`
* C24: `C24_replaced_iff_better`, `C24_best_replaced_by_better`, `C24_restore_brings_back_saved`, `C24_statistics_belong_to_point`
* C25: `C25_result_independent_of_stored_iterate`, `C25_refuted_maxit_0`, `C25_refuted_interrupt`
* C26: `C26_data_untouched`, `C26_normal_exit`, `C26_outcone_leaves_things_behind`, `C26_refuted_outcone`, `C26_refuted_rounding`
* C29: `C29_search`, `C29_step`
* C30: `C30_relaxation`, `C30_setup`, `C30_node`, `C30_refuted_duplicates`
* C33: `C33_terminates`, `C33_no_cutoff`, `C33_setup`, `C33_refuted_nan`, `C33_refuted_random`
* C34: `C34_improves`, `C34_delivered`, `C34_order_F`, `C34_binary64_order`, `C34_refuted_root`, `C34_refuted_code`
* C35: `C35_shuffle`, `C35_refuted_round_binary64`
* C36: `C36_restored`, `C36_seen`, `C36_delivered`, `C36_consistent`, `C36_stops`, `C36_codes`, `C36_not_invented`, `C36_refuted_lost`, `C36_refuted_abandoned`, `C36_example`
* C37: `C37_setup`, `C37_cleanup`, `C37_refuted_rejected`, `C37_bb_setup`, `C37_bb_cleanup`, `C37_refuted_bb_rejected`, `C37_branching`, `C37_refuted_data_freed`, `C37_refuted_twice`, `C37_refuted_rejected_example`, `C37_example`, `C37_bb_example`
* C39: `C39_entry_h`, `C39_entry_c`, `C39_entry_total`
* C40: `C40_valid`, `C40_preprocess`, `C40_postorder`, `C40_finish`, `C40_order`, `C40_setup_call`, `C40_refuted_pointers`, `elim_plain_ok`, `C40_order_example`, `C40_forest_example`, `C40_finish_example`, `C40_pointers_example`
* C41: `C41_entry_h`, `C41_entry_c`, `C41_refuted_integers`
* C42: `C42_setup_accepts`, `C42_example`
* C43: `C43_graph`, `C43_elimination`, `C43_order`, `C43_setup_call`, `C43_setup_accepts`, `C43_example`, `C43_example_graph`, `C43_example_dense`
* C44: `C44_reproducible`, `C44_memory`, `C44_update`, `C44_exception`

**`ClassicalDedekindReals.sig_forall_dec`, `FunctionalExtensionality.functional_extensionality_dep`:**

* C02: `C02_transpose_dense`
* C04: `C04_permute`
* C45: `C45_least_example`
* C47: `C47_binary64_precision`

**`ClassicalDedekindReals.sig_forall_dec`, `ClassicalDedekindReals.sig_not_dec`, `FunctionalExtensionality.functional_extensionality_dep`:**

* C45: `C45_least`
* C47: `C47_optimal`, `C47_optimal_moderate`
* C48: `C48_infeasible`, `C48_infeasible_moderate`
* C49: `C49_setup`, `C49_cleanup`, `C49_cost`

**`ClassicalDedekindReals.sig_forall_dec`, `ClassicalDedekindReals.sig_not_dec`, `Classical_Prop.classic`, `FunctionalExtensionality.functional_extensionality_dep`:**

* C01: `C01_sparseMV`, `C01_sparseMtVm`, `C01_vectors`
* C06: `C06_entries`
* C07: `C07_matrix`, `C07_old_arrays`
* C08: `C08_equilibration_undone`
* C09: `C09_equivalent_problem`
* C10: `C10_scaling`, `C10_init`
* C12: `C12_numeric`, `C12_refuted_duplicates`
* C13: `C13_solve`
* C14: `C14_refines`, `C14_refines_init`
* C15: `C15_bring2cone`, `C15_unit`
* C16: `C16_scaling`, `C16_rejects`, `C16_refuted_near_boundary`
* C17: `C17_expansion`
* C18: `C18_product`, `C18_division`, `C18_refuted_near_boundary`
* C19: `C19_lineSearch`, `C19_iterates`
* C20: `C20_optimal_certificate`, `C20_suboptimality`, `C20_user_optimal`
* C21: `C21_primal_infeasibility_certificate`, `C21_no_feasible_point_nearby`, `C21_user_infeasible`
* C22: `C22_dual_infeasibility_certificate`, `C22_no_dual_feasible_point_nearby`, `C22_user_unbounded`
* C26: `C26_cost_restored_exactly`
* C27: `C27_gradient`, `C27_hessian`, `C27_times`
* C28: `C28_cones`, `C28_primal`, `C28_dual`, `C28_refuted_boundary`
* C29: `C29_inside`, `C29_start`, `C29_measure`, `C29_refuted_guard`, `C29_refuted_guard_example`
* C30: `C30_rows`, `C30_order`, `C30_refuted_order`, `C30_example`
* C31: `C31_covers`, `C31_disjoint`, `C31_narrows`, `C31_excludes`, `C31_others`, `C31_defined`, `C31_example`, `C31_refuted_refixed`
* C32: `C32_optimal`, `C32_infeasible`, `C32_feasible`, `C32_codes`, `C32_lower_bound`, `C32_incumbent`, `C32_refuted_unbounded`, `C32_example`
* C33: `C33_convertible`, `C33_example`, `C33_nan`, `C33_refuted_strong`, `C33_binary64_convertible`, `C33_binary64_nan`, `C33_binary64_inf`, `C33_binary64_example`, `C33_binary64_terminates`, `C33_binary64_run`
* C34: `C34_order_E`, `C34_refuted_discarded`
* C35: `C35_floor`, `C35_ceil`, `C35_bracket`, `C35_round`, `C35_refuted_range`, `C35_binary64_floor`, `C35_binary64_ceil`, `C35_binary64_round`, `C35_binary64_example`
* C36: `C36_refuted_mixed_integer`, `C36_refuted_mixed_integer_example`
* C38: `C38_newton`, `C38_residuals`, `C38_exact`, `C38_example`
* C41: `C41_example`
* C44: `C44_again`, `C44_example`
* C45: `C45_start`, `C45_residuals`, `C45_unit`, `C45_ray`, `C45_example`, `C45_example_exp`
* C46: `C46_wright`, `C46_conjugate`, `C46_barrier`, `C46_floor`, `C46_example`
* C47: `C47_binary64`, `C47_binary64_optimal`, `C47_examples`
* C48: `C48_binary64_infeasible`, `C48_no_feasible_point_nearby`, `C48_no_dual_feasible_point_nearby`, `C48_examples`
* C49: `C49_binary64_fine`, `C49_binary64_setup`, `C49_binary64_cleanup`, `C49_examples`, `C49_binary64_cost`, `C49_cost_example`
* C50: `C50_binary64_optimal`, `C50_binary64_infeasible`, `C50_no_feasible_point_nearby`, `C50_no_dual_feasible_point_nearby`, `C50_examples`, `C50_binary64_session_optimal`, `C50_binary64_session_infeasible`, `C50_session_examples`


## 3. Properties

"Arithmetic" says in which reading the theorem is proved; "any" is every `Ops`. A theorem with
`refuted` in its name proves that the code breaks the stronger claim one would expect; the
statement in `properties.jsonl` is then the true one.

| id | modelled code | arithmetic | how it is proved |
|----|------|-----------|------------------|
| C01 | `spla.c` | R | loop invariants against the dense sum |
| C02 | `transposeSparseMatrix`, `spla_cumsum` | any | counting-sort invariant |
| C03 | the same with nnz = 0 | any | refuted: uninitialised column pointers are read |
| C04 | `pinv`, `permuteSparseSymmetricMatrix` | any | counting-sort invariant, permutation facts |
| C05 | `ECOS_setup` | any | the dimension tests decide consistency; every accepted problem yields a fully written workspace |
| C06 | `createKKT_U` | any / R | column-by-column invariant, dense meaning of the result |
| C07 | `ECOS_updateData` | any / R | relation between workspace and caller data kept by every call (`Spec/UpdateSpec.v`) |
| C08 | `set_equilibration`, `unset_equilibration` | X | elementwise field algebra, any history in between |
| C09 | `use_ruiz_equilibration`, `backscale` | X | positivity and constancy on cones, invariance of cones under scaling |
| C10 | `kkt_update`, `kkt_init` | any / R | frame and write set |
| C11 | `LDL_symbolic2` | any | row subtrees of the elimination tree |
| C12 | `LDL_numeric2` | R | row-by-row invariant |
| C13 | `LDL_lsolve2`, `LDL_dsolve`, `LDL_ltsolve` | R | column invariants |
| C14 | `kkt_solve` | any / R | bounded loop; kept corrections are those that reduce the residual; what the residual measures |
| C15 | `bring2cone`, `unitInitialization` | R | maximal violation invariant |
| C16 | `updateScalings`, `scale`, `unscale` | R | field algebra, Cauchy-Schwarz |
| C17 | `u0,u1,v1,d1`, `scale2add` | R | field algebra |
| C18 | `conicProduct`, `conicDivision` | R | field algebra |
| C19 | `lineSearch`, step | R | cone geometry |
| C20-C22 | `computeResiduals`, `updateStatistics`, `checkExitConditions`, `backscale` | H/X | decision facts, weak duality |
| C23 | `ECOS_solve` | any | safety of every kernel by wp, induction on iterations |
| C24 | `compareStatistics`, `saveIterateAsBest`, `restoreBestIterate` | any | loop invariant of the main loop |
| C25 | the same | any | noninterference; binary64 runs for the refutations |
| C26 | `ECOS_solve` | any / X | frame, backscale |
| C27 | `evalExpGradient`, `evalExpHessian`, `scaleToAddExpcone` | X | derivatives, with the derivative rules of the standard library |
| C28 | `evalExpPrimalFeas`, `evalExpDualFeas` | X | monotonicity of exp and ln |
| C29 | `expConeLineSearch`, `evalSymmetricBarrierValue` | any / E | bounded recursion |
| C30 | `socp_to_ecos_bb`, `ECOS_BB_setup`, `set_prob` | any / R | loop invariants over the bound rows |
| C31 | `branch` | E | case analysis on boxes |
| C32 | `ECOS_BB_solve` | E | tree invariant: every integer point is in an open node or no better than the incumbent |
| C33 | `ECOS_BB_solve` | any; B | node budget, safety of all branching rules; in binary64 the values that can be rounded (Properties/PassesB.v, PassesBT.v) |
| C34 | `store_solution`, `load_solution` | any with transitive order | invariant of the main loop |
| C35 | `pfloat_round`, `pfloat_ceil`, `pfloat_floor`, `get_shuffled_array` | E, B | floor facts; permutation; rounding error of one sum in binary64 (Properties/PassesB.v) |
| C36 | `ctrlc.c`, exits of `ECOS_solve` | any | trace semantics |
| C37 | allocation and freeing | - | balance of live blocks |
| C38 | `RHS_affine`, `RHS_combined`, step | R | linear algebra, residuals of the linear solves kept in the statement |
| C39 | `updateDataEntry_*` | any | direct |
| C40 | `AMD_order` around pivot selection | - | loop invariants, forest orders |
| C41 | `updateDataEntry_*` of branch and bound | any | direct; refuted with general integers |
| C42 | `ECOS_setup` with `AMD_order` | any | repeated coordinates survive equilibration, transposition and KKT assembly and make `AMD_valid` answer "jumbled" |
| C43 | `AMD_aat`, `AMD_1`, `AMD_2` up to line 1602 | - | invariant of the quotient graph (symmetry, duplicate-free lists, packed memory, degree lists, sums of supervariable sizes, assembly forest), kept by every pivot; the number of rows left is the measure |
| C44 | all of setup, solve and the data updates | any; `C44_again` exact | relational: a solve on a workspace with its numbers erased is below, in the order "more cells written", the solve on each of two workspaces with the same problem (Proofs/Mono*.v); the erased solve succeeds by C23; what setup computes besides numbers depends on the patterns only (Proofs/ReproPat.v) |
| C45 | init, bring2cone, unitInitialization, kkt_factor, kkt_solve | exact | the two right-hand sides and the identity scaling as arrays (init_rhs_unit), the factorisation and refinement theorem of C14 for each solve, bring2cone as a move along the unit of the cone by a characterised amount; the residuals of the point by linearity |
| C46 | wrightOmega, evalBarrierValue, evalSymmetricBarrierValue | exact | the residual of a step is an explicit rational function of the residual before it: fourth order, predicted by the code up to fifth order; the two starting values by derivative bounds, with the polynomial inequalities settled by a checker for interval arithmetic proved sound in Proofs/IvlQ.v; the conjugate by tangents of ln in each variable; the floor by comparing every cone with the mean mu |
| C47 | ECOS_solve, computeResiduals, updateStatistics, checkExitConditions, backscale, sparseMV, sparseMtVm, eddot, norm2 | any arithmetic with rounding laws (Spec/Rounding.v); IEEE binary64 through Flocq | every loop is given an invariant: the entry is a number, then it is within k roundings of the exact sum, relative to the sum of the absolute values; norms by the triangle inequality; the quotients tested are either numbers or have overflowed, and an overflowed quotient passes no test with the wrong sign; the returned vectors are traced back through the scaling; hypotheses checked on two binary64 runs inside the kernel |
| C48 | ECOS_solve, computeResiduals, updateStatistics, checkExitConditions, backscale, sparseMV, sparseMtVm, eddot, norm2 | any arithmetic with rounding laws (Spec/Rounding.v); IEEE binary64 through Flocq | the homogeneous residuals are intermediate results of the same loops (C47); denominators are bounded from both sides; the quotient tests are inverted with the division error; NaN cannot pass a test |
| C49 | ECOS_setup, ECOS_cleanup, set_equilibration, unset_equilibration and the loops they call | any arithmetic with rounding laws (Spec/Rounding.v, Spec/Nearby.v); IEEE binary64 through Flocq | an entry after three passes is a chain of six rounded divisions by square roots; each factor is at least 2^-11 by the 1e-6 threshold, so an absolute underflow error at one step is absorbed into a relative one of the next or stays below tiny; the product of the factors is the scaling up to rounding; a finite result makes every intermediate value finite; solves do not write the data (C26); c after k solves by induction on k, one division and one product each |
| C50 | ECOS_setup, ECOS_solve, ECOS_updateData, single-entry updates | IEEE binary64 through Flocq | C47, C48 and C49 composed: the scaled problem of C49 carries the residuals, objectives and gap to the caller's units exactly (Spec/Scaling.v); the returned vectors agree with the solver's point because scalings and tau are bounded from below; for later solves, an invariant of all histories: the data in the workspace are bit for bit those of a fresh setup with the arrays last given and the current cost (C07, C26, C39) |

## 4. Not modelled

* Rounding-error analysis beyond C47 and C48 (the exit tests) and C49 (the data). Theorems over `R`, `X`, `H`, `E` are
  about exact arithmetic; those for any arithmetic cover rounding.
* `AMD_control`, `AMD_info`, `AMD_defaults`,
  `AMD_dump`, `AMD_debug_init`, and the blocks AMD allocates for itself.
* Printing (`printProgress`, `deleteLastProgressLine`, `print_*`, `dump*`), `ECOS_ver`, timing
  (`tic`, `toc` and the time fields of the statistics).
* Code not compiled in the repository's configuration: `sum_sq_rows`, `sum_sq_cols`,
  `use_alternating_norm_equilibration`, CONEMODE 1, DEBUG blocks.
* Overflow of 64-bit indices; failure of `malloc`; the missing `volatile` on the signal flag;
  concurrency (the library has none).
* The Matlab and Python interfaces, `ecos/runecos*.c` and the tests.

## 5. What the proofs found in the code

Each item is proved unless marked "(read)", which means noticed while modelling.

* `transposeSparseMatrix` with no entries leaves the column pointers unwritten (C03).
* The LDL scatter assigns instead of adding, so repeated coordinates change the matrix (C12);
  setup rejects them, by way of AMD's "jumbled" status (C42).
* `ECOS_updateData` dereferences a NULL pointer when there are no equality constraints (C07).
* Solve's early exits (OUTCONE, FATAL) leave the cost scaled and the signal handler installed
  (C26, C36). In binary64 even the normal exit does not restore the cost bit for bit (C26).
* With maxit 0, an interrupt, or NaN at iteration 0, the never-written best iterate is used on
  the first call (C23, C25) and a stale one on later calls (C25).
* `updateScalings` accepts points of the negative cone and does not test the linear part;
  the floors in `safediv` break the scaling identity near the boundary (C16, C18).
* The residual `kkt_solve` measures differs from the true one on the last row of every
  second-order cone and on the expansion rows (C14).
* The exponential-cone tests accept NaN, and boundary points, as interior (C28).
* `evalSymmetricBarrierValue` subtracts infinity where it should add, so that points outside
  the cone pass the centrality test (C29).
* Mixed-integer variable lists must be sorted and free of duplicates (C30); single-entry
  updates of `h` ignore the rows of general integers (C41).
* Fixing a boolean to one twice re-allows zero (C31). An unbounded relaxation is reported as
  infeasible (C32), and so is an interrupted one (C36). NaN bounds, random branching and strong
  branching with non-repeatable relaxations each break termination or safety (C33). The root
  discards the incumbent of its rounding heuristic (C34).
* `pfloat_*` cast to 32-bit `int` and overflow; 0.49999999999999994 rounds to 1 (C35).
* A rejected setup leaks; a rejected mixed-integer setup dereferences NULL (C37).
* `AMD_valid` reads out of bounds when a column pointer exceeds the array (C40; setup never
  passes such a matrix).
* A second garbage collection during the same pivot of `AMD_2` would subtract `knt1` from
  `Len [me]` twice and corrupt the row of the pivot. It cannot happen: the workspace has n
  cells more than the graph, so one collection makes room for the whole element (C43).
* (read) With p = 0 a NaN primal residual is reported as 0, since `MAX(0, NaN)` is 0. The
  test against `ECOS_NAN` by `!=` is always true, so one branch of `compareStatistics` is dead
  and another compares `pinfres` with `pres`. The stagnation test uses the macro `GAMMA` rather
  than the setting. `wrightOmega` evaluates its Taylor series at `q`. `lineSearch` does not
  advance past a cone whose scaled norm is not positive. `int_detected` is neither `volatile` nor
  `sig_atomic_t`.

## 6. Tests of the theorems

`seeded/LOG.jsonl` has one line per wrong program tried: the definition edited, the edit, the
claim it breaks, the theorems that then fail to build, and the theorems tightened as a result.

"killed" means that a proof stopped building, often that of a lemma below the theorem:
`theorems_failed` names where. That is evidence, not a proof, that the theorem's statement is
false of the edited program: a proof script can also stop for reasons of form. Lines with a
`witness` go further: a value computed with the edited model contradicts the statement.
Lines M501 to M520 built only the files of the rounding properties and what they use; lines
M601 to M606 only `Properties/PassesB.v` and `Properties/Round.v`, and there `PassesB.v` was
also compiled without its import of `Passes.v`, so that it was tested on its own; lines M607
and M608 only `Properties/RoundingSession.v` and `Properties/Update.v`.
`property_files_not_built` is computed from the dependencies of the files that failed.
