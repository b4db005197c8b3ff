{
 "claims": [
  {
   "property": "C01",
   "status": "proved",
   "theorems": [
    "C01_immutable",
    "C01_readable"
   ],
   "note": "Over all client histories, including arbitrary writes to the caches."
  },
  {
   "property": "C02",
   "status": "proved",
   "theorems": [
    "C02_identity",
    "C02_encoding",
    "C02_id_overflow_refuted"
   ],
   "note": "Holds as long as ids fit into 28 bits (C02_encoding); beyond that Go values collide (C02_id_overflow_refuted)."
  },
  {
   "property": "C03",
   "status": "proved",
   "theorems": [
    "C03_meaning"
   ],
   "note": "All fourteen formula-creating calls."
  },
  {
   "property": "C04",
   "status": "proved",
   "theorems": [
    "C04_involution",
    "C04_negation",
    "C04_literals"
   ],
   "note": ""
  },
  {
   "property": "C05",
   "status": "proved",
   "theorems": [
    "C05_flat",
    "C05_condensed",
    "C05_after_minterm_refuted"
   ],
   "note": "The restriction to condensing constructors is necessary: C05_after_minterm_refuted."
  },
  {
   "property": "C06",
   "status": "partial",
   "theorems": [
    "C06_commutative_partial",
    "C06_identity_refuted"
   ],
   "note": "The documented identity is false of the code (C06_identity_refuted); what holds is equivalence."
  },
  {
   "property": "C07",
   "status": "proved",
   "theorems": [
    "C07_sorts",
    "C07_rebuild",
    "C07_operands"
   ],
   "note": ""
  },
  {
   "property": "C19",
   "status": "proved",
   "theorems": [
    "C19_at_most_one",
    "C19_exactly_one",
    "C19_product_bound_one_refuted"
   ],
   "note": "All eight encoders and the Best selection, every list of literals. Group sizes for which the Go code never returns are excluded; for the product encoder that is C19_product_bound_one_refuted."
  },
  {
   "property": "C20",
   "status": "proved",
   "theorems": [
    "C20_at_most_k",
    "C20_at_most_k_solver",
    "C20_solver_network_refuted"
   ],
   "note": "In the formula factory the literal 0 of the cardinality network is the constant false; on a solver it is an arbitrary variable, and then the claim is false for that encoder (C20_solver_network_refuted)."
  },
  {
   "property": "C21",
   "status": "proved",
   "theorems": [
    "C21_at_least_k",
    "C21_at_least_k_solver",
    "C21_solver_network_refuted"
   ],
   "note": "Same remark as C20."
  },
  {
   "property": "C22",
   "status": "proved",
   "theorems": [
    "C22_exactly_k"
   ],
   "note": ""
  },
  {
   "property": "C23",
   "status": "partial",
   "theorems": [
    "C23_every_constraint_partial",
    "C23_every_constraint_solver_partial",
    "C23_less_than_zero_refuted"
   ],
   "note": "Every comparator and bound except 'less than 0', where the Go code panics (C23_less_than_zero_refuted)."
  },
  {
   "property": "C24",
   "status": "proved",
   "theorems": [
    "C24_upper_bounds",
    "C24_lower_bounds",
    "C24_upper_bounds_solver",
    "C24_lower_bounds_solver",
    "C24_strict",
    "C24_impossible_bound_refuted"
   ],
   "note": "For every sequence of tightening bounds. Bounds that no assignment can meet panic or are refused: C24_impossible_bound_refuted."
  },
  {
   "property": "C25",
   "status": "partial",
   "theorems": [
    "C25_normalize_partial",
    "C25_negate",
    "C25_zero_coefficient_refuted"
   ],
   "note": "Holds unless the comparator is EQ and a coefficient is 0, where it is false (C25_zero_coefficient_refuted). Integers are unbounded in the model."
  },
  {
   "property": "C26",
   "status": "partial",
   "theorems": [
    "C26_sequential_weight_counter",
    "C26_adder_network",
    "C26_binary_merge",
    "C26_binary_merge_solver",
    "C26_encode_partial",
    "C26_encode_solver_partial",
    "C26_adder_large_bound_refuted"
   ],
   "note": "Every constraint except EQ with a zero coefficient; the adder network needs a bound below 2^31 (C26_adder_large_bound_refuted)."
  },
  {
   "property": "C27",
   "status": "proved",
   "theorems": [
    "C27_cnf",
    "C27_dnf",
    "C27_cnf_handler",
    "C27_dnf_handler"
   ],
   "note": "For every formula, every handler and every history of the library on the factory. Moreover every clause of the result is one of the input's and every non-tautological clause of the input contains one of the result's; a formula in the wrong form gives the error, and the call is cancelled exactly if the handler cancelled."
  },
  {
   "property": "C28",
   "status": "partial",
   "theorems": [
    "C28_distribute",
    "C28_factorOut",
    "C28_minimizeNegations",
    "C28_minimizeNegations_constraints",
    "C28_propagateBackbone",
    "C28_advanced",
    "C28_qmc",
    "C28_propagateUnits",
    "C28_propagateUnits_cached",
    "C28_propagateUnits_equivalence_refuted"
   ],
   "note": "Distribute, FactorOut (for every rating function, including termination), MinimizeNegations, PropagateBackbone and the advanced simplifier (for every configuration, rating function and cancellation, with right solver answers); the Quine-McCluskey simplifier returns a smallest disjunction of prime implicants. PropagateUnits never panics, leaves no unit that could be propagated, its result implies the formula and has its models up to reserved variables; it is equivalent if it has no reserved variable, and equivalence is refuted if the configured CNF adds variables. Missing: the advanced simplifier with negation simplification on formulas with constraints, where MinimizeNegations may return an encoding, which has the same models up to reserved variables but is not equivalent."
  },
  {
   "property": "C08",
   "status": "proved",
   "theorems": [
    "C08_new",
    "C08_evaluate",
    "C08_evaluate_total",
    "C08_negVars_refuted"
   ],
   "note": "C08_negVars_refuted: NegVars returns the negative literals, contrary to its documentation."
  },
  {
   "property": "C09",
   "status": "proved",
   "theorems": [
    "C09_restrict",
    "C09_restrict_total"
   ],
   "note": ""
  },
  {
   "property": "C10",
   "status": "proved",
   "theorems": [
    "C10_constant"
   ],
   "note": "Soundness, and exactness when all variables are assigned."
  },
  {
   "property": "C18",
   "status": "proved",
   "theorems": [
    "C18_substitute"
   ],
   "note": "Includes exactly when Substitute reports an error."
  },
  {
   "property": "C11",
   "status": "proved",
   "theorems": [
    "C11_nnf",
    "C11_nnf_constraints",
    "C11_isNNF"
   ],
   "note": "Over every history of factory calls and library operations. With arithmetic constraints the models projected to the original variables are those of the formula."
  },
  {
   "property": "C12",
   "status": "proved",
   "theorems": [
    "C12_factorizedCNF",
    "C12_factorizedCNF_constraints",
    "C12_factorizedCNF_handler",
    "C12_isCNF"
   ],
   "note": "Including the handler variant, where a missing result implies that the handler cancelled."
  },
  {
   "property": "C13",
   "status": "proved",
   "theorems": [
    "C13_factorizedDNF",
    "C13_factorizedDNF_constraints",
    "C13_factorizedDNF_handler",
    "C13_isDNF"
   ],
   "note": ""
  },
  {
   "property": "C14",
   "status": "proved",
   "theorems": [
    "C14_tseitin",
    "C14_tseitin_unique"
   ],
   "note": "Also with an auxiliary state reused from earlier Tseitin calls."
  },
  {
   "property": "C15",
   "status": "partial",
   "theorems": [
    "C15_pg",
    "C15_cnf_config",
    "C15_pg_reused_state_refuted"
   ],
   "note": "Proved for a fresh auxiliary state and for the CNF dispatcher with every configuration. False for a reused state (C15_pg_reused_state_refuted)."
  },
  {
   "property": "C16",
   "status": "partial",
   "theorems": [
    "C16_aig",
    "C16_aig_shape_partial",
    "C16_aig_constraints_partial",
    "C16_isAIG",
    "C16_aig_shape_refuted",
    "C16_aig_constraints_refuted"
   ],
   "note": "Equivalence is proved. The shape fails for equivalences with operands that are not and-inverter graphs (C16_aig_shape_refuted); negated arithmetic constraints change the meaning (C16_aig_constraints_refuted)."
  },
  {
   "property": "C17",
   "status": "proved",
   "theorems": [
    "C17_variables",
    "C17_literals",
    "C17_subnodes",
    "C17_sizes"
   ],
   "note": ""
  },
  {
   "property": "C29",
   "status": "proved",
   "theorems": [
    "C29_bdds_denote_their_functions",
    "C29_compile",
    "C29_negate",
    "C29_binary",
    "C29_constraint_panics_refuted",
    "C29_negated_constraint_refuted"
   ],
   "note": "Every BDD held by a client after any history of factory calls, compilations (also cancelled ones), operations, restrictions, quantifications, counts, normal forms and enumerations on its kernel denotes its function; compiling a formula without constraints terminates, does not panic and only a handler cancels it. For formulas with constraints the claim is refuted: compilation panics if there is no room for auxiliary variables, and the BDD of a negated constraint is wrong."
  },
  {
   "property": "C30",
   "status": "proved",
   "theorems": [
    "C30_canonical",
    "C30_constants"
   ],
   "note": "For all BDDs held after any such history."
  },
  {
   "property": "C31",
   "status": "partial",
   "theorems": [
    "C31_model_count_partial",
    "C31_model_count_refuted"
   ],
   "note": "Proved for the first call of ModelCount on a kernel. The full claim is false of the code: the second call can return a wrong number."
  },
  {
   "property": "C32",
   "status": "partial",
   "theorems": [
    "C32_path_count_partial",
    "C32_path_count_refuted"
   ],
   "note": "Proved for the first such count on a kernel and diagrams without shared nodes. The full claim is false of the code: a <=> (b <=> c) has 4 paths to true, 5 are reported."
  },
  {
   "property": "C33",
   "status": "proved",
   "theorems": [
    "C33_restrict",
    "C33_quantify"
   ],
   "note": "Right after the call, for consistent literals and any history."
  },
  {
   "property": "C34",
   "status": "partial",
   "theorems": [
    "C34_bdds_stay_valid",
    "C34_restrict_result_refuted"
   ],
   "note": "Proved for the results of compilation, negation and the binary operations after any later history. False of the code for the results of Restrict, Exists and ForAll."
  },
  {
   "property": "C35",
   "status": "partial",
   "theorems": [
    "C35_formulas",
    "C35_enumeration_partial",
    "C35_enumeration_refuted"
   ],
   "note": "CNF, DNF and ToFormula proved for any history. ModelEnumeration proved for variables known to the kernel; other variables are silently dropped."
  },
  {
   "property": "C36",
   "status": "proved",
   "theorems": [
    "C36_model_count",
    "C36_structural_count",
    "dcount_models"
   ],
   "note": "Counts on every deterministic decomposable tree, in every state of the factory caches; C36_structural_count says what is computed on every other negation normal form."
  },
  {
   "property": "C37",
   "status": "proved",
   "theorems": [
    "C37_core_distinct",
    "C37_satisfiable",
    "C37_unsatisfiable",
    "C37_decides",
    "C37_addClause_result",
    "C37_no_panic",
    "C37_basic_minimization_refuted"
   ],
   "note": "Partial correctness: calls that return. Every heuristic decision is an arbitrary oracle. The basic clause minimization together with at-most constraints is excluded because the claim is false there (C37_basic_minimization_refuted)."
  },
  {
   "property": "C38",
   "status": "proved",
   "theorems": [
    "C38_load",
    "C38_stale",
    "C38_save"
   ],
   "note": "Over all interleavings of variables, clauses, at-most constraints, calls, saves and loads."
  },
  {
   "property": "C51",
   "status": "partial",
   "theorems": [
    "C51_cancelled_call_partial",
    "C37_cancelled_conflict_refuted"
   ],
   "note": "Proved for cancellation at the start or end of a call. False of the code for a cancellation at a conflict: the next call may answer satisfiable for unsatisfiable clauses."
  },
  {
   "property": "C41",
   "status": "proved",
   "theorems": [
    "C41_insertion",
    "C41_deletion",
    "C41_proper_subsets",
    "C41_no_repetition",
    "C41_empty_insertion_refuted"
   ],
   "note": "Both MUS algorithms as the code has them (fresh solvers, saved states, the in-place removal loop), over any solver whose answers are correct and any cancelling handler. Repeated propositions are allowed. Refuted for the insertion-based function on an empty list: it returns an empty core and no error."
  },
  {
   "property": "C42",
   "status": "proved",
   "theorems": [
    "C42_smus"
   ],
   "note": "The hitting-set loop with its two solvers and the optimizer of C52. The loop of the code is unbounded; the theorem shows that 2^n+1 rounds suffice. Hypothesis: the formulas do not use the reserved selector names."
  },
  {
   "property": "C52",
   "status": "proved",
   "theorems": [
    "C52_optimum",
    "C52_model",
    "C52_unknown_literal_refuted"
   ],
   "note": "Maximize and Minimize with their selector variables and incremental bounds. Refuted: a literal whose variable is unknown to the solver is missing from the returned model."
  },
  {
   "property": "C43",
   "status": "proved",
   "theorems": [
    "C43_primes",
    "C43_completes"
   ],
   "note": "Both cover sorts and both optimization directions, over any solver whose answers are correct and any cancelling handler, with the optimizer of C52. The loop of the code is unbounded; the theorem shows that 2^(2n)+1 rounds suffice for n variables."
  },
  {
   "property": "C40",
   "status": "partial",
   "theorems": [
    "C40_enumeration",
    "C40_count",
    "C40_terminates",
    "C40_basic_strategy",
    "C40_no_split",
    "C40_split_outside_refuted",
    "C40_overlap_refuted",
    "C40_cancelled_call_refuted",
    "C40_cancelled_split_refuted",
    "C40_unknown_variables_refuted"
   ],
   "note": "Proved for every correct solver, every handler and every strategy that splits on variables that are left. The full statement is false of the code: split variables outside the enumerated ones give repeated models; a handler that cancels once and then resumes can make an incomplete enumeration count as successful; unknown variables can make the recursion endless."
  },
  {
   "property": "C44",
   "status": "proved",
   "theorems": [
    "C44_components",
    "C44_split"
   ],
   "note": "All sequences of AddNode and Connect calls; for splitting, all formula lists with the constraint graph generated from them. f.Variables is a parameter (duplicate free lists)."
  },
  {
   "property": "C47",
   "status": "partial",
   "theorems": [
    "C47_contents",
    "C47_total",
    "C47_removeMin_partial",
    "C47_build_restores",
    "C47_removeMin_refuted"
   ],
   "note": "Contents and totality hold for all histories; the returned minimum is right for all histories without remove and after every rebuild. The full statement is false of the code: remove, used when a solver state is loaded, only percolates down, after which removeMin can return a variable that another one precedes."
  },
  {
   "property": "C48",
   "status": "proved",
   "theorems": [
    "C48_queue"
   ],
   "note": "All capacities and all sequences of pushes and clears."
  },
  {
   "property": "C49",
   "status": "proved",
   "theorems": [
    "C49_history",
    "C49_new",
    "C49_set",
    "C49_or",
    "C49_and",
    "C49_clear_clone",
    "C49_cardinality",
    "C49_nextSetBit",
    "C49_toBoolSlice"
   ],
   "note": "All operation sequences and indices, words of 64 bits."
  },
  {
   "property": "C50",
   "status": "proved",
   "theorems": [
    "C50_backbone",
    "C50_solver_unchanged",
    "C50_implied",
    "C50_negated_at_most_refuted"
   ],
   "note": "ComputeBackboneWithHandler on the concrete core solver: every reachable state, variable list, sort and decision heuristic; save/load and the solver calls inside are the modelled ones. Theorems assume a handler that does not stop at a conflict. For at-most constraints with negated literals (not built by Solver.Add) the claim is refuted."
  },
  {
   "property": "C45",
   "status": "partial",
   "theorems": [
    "C45_write",
    "C45_write_other",
    "C45_read",
    "C45_read_last_line",
    "C45_roundtrip_partial",
    "C45_long_clause_refuted"
   ],
   "note": "All CNF formulas on every library history, every order of set elements, every reading factory and prefix. The round trip needs clause lines shorter than 65536 bytes: longer lines are written but the reader's scanner fails on them, so the unrestricted claim is refuted. Files are byte strings; file system errors are not modelled."
  },
  {
   "property": "C46",
   "status": "proved",
   "theorems": [
    "C46_roundtrip",
    "C46_meaning",
    "C46_file",
    "C46_number_panics_refuted",
    "C46_number_swapped_refuted",
    "C46_name_refuted",
    "C46_below0_refuted",
    "C46_trailing_refuted"
   ],
   "note": "All formulas of every library history with names of the grammar; the parsed formula is the identical one on the same factory (cardinality constraints < 0 become pseudo-Boolean constraints: refuted), an equivalent one on every factory; files with and without splitting. Refuted: numbers as variable names in constraints (panic or swapped with the coefficient), names outside the grammar; text after a formula is ignored."
  },
  {
   "property": "C53",
   "status": "proved",
   "theorems": [
    "C53_answer",
    "C53_model",
    "C53_no_model",
    "C53_call_keeps",
    "C53_load",
    "C53_no_panic",
    "C53_add_reorders_refuted"
   ],
   "note": "Solver on formulas (Add, Call, SaveState, LoadState) down to the modelled core solver, with all three CNF methods, the constraint encoders and at-most clauses. Assumes that added formulas use no reserved names, that the encoders handle their constraints (encodable), that at-most constraints have distinct variables in creation order, no basic clause minimization with at-most clauses (refuted in C37), a handler that does not stop at a conflict, and calls that terminate. Proof tracing is off. Adding an unordered constraint with at-most clauses changes the factory (refuted)."
  },
  {
   "property": "C54",
   "status": "partial",
   "theorems": [
    "C54_complete_refuted",
    "C54_sound_refuted",
    "C54_count_refuted",
    "C54_unsatisfiable_partial"
   ],
   "note": "The whole compiler is modelled: dtree generation, solver with conflict analysis, cache. The claim is refuted in all its parts: satisfiable CNF formulas with an empty backbone whose compilation loses models, gains models, or is equivalent but has a wrong model count. Each needs a conflict after which the learnt clause is asserted. Proved: unsatisfiable formulas are compiled to false. Missing: a positive theorem for runs without conflicts. The answers of the full solver that the compiler asks for are arguments and assumed right."
  },
  {
   "property": "C39",
   "status": "partial",
   "theorems": [
    "C39_core_partial",
    "C39_assumption_order_refuted",
    "C39_assumption_panic_refuted",
    "C39_at_most_panic_refuted"
   ],
   "note": "Proof recording, the DRUP checker with its backward analysis, and the map back to propositions are modelled; the theorem holds for every history (clauses with propositions, at-most constraints, saved states, calls), every heuristic and every recorded proof: a returned core consists of given propositions and is unsatisfiable. It needs the additional literals in the order of the factory: otherwise refuted (a satisfiable core is returned). That a core is returned for every unsatisfiable call is refuted for calls with assumptions after a conflict and for at-most constraints (panic). Missing: the translation from propositions to clauses is a hypothesis of the theorem; that the computation never panics without assumptions and at-most constraints."
  },
  {
   "property": "C55",
   "status": "proved",
   "theorems": [
    "C55_tracing_add",
    "C55_tracing_call"
   ],
   "note": "All states, clauses, additional propositions and heuristics: adding and calling on a solver that records proofs gives the same answer and the same core solver state (model included) as on one that does not, whenever it returns."
  },
  {
   "property": "C56",
   "status": "proved",
   "theorems": [
    "C56_solve",
    "C56_optimum",
    "C56_infeasible",
    "C56_algorithms_agree",
    "C56_no_panic",
    "C56_solve_keeps",
    "C56_weighted_refused"
   ],
   "note": "LinearSU with and without BMO, LinearUS and MSU3 with both incremental strategies and WBO with and without symmetry breaking, on the modelled CDCL solver, for problems given as clauses; every history with additions, searches, saved and loaded states, every heuristic. Answers are right whenever the search returns (termination of the search loops is not proved). The translation of formulas to clauses before they reach these algorithms and handlers that cancel at a conflict inside a SAT call are not part of it."
  },
  {
   "property": "C57",
   "status": "proved",
   "theorems": [
    "C57_load",
    "C57_load_no_panic",
    "C57_still_valid"
   ],
   "note": "Every history of a solver with unweighted problems, for LinearSU with BMO also with problems of Boolean multilevel optimization, for WBO without symmetry breaking with all weighted problems; searches in the history are not cancelled (see C59)."
  },
  {
   "property": "C58",
   "status": "partial",
   "theorems": [
    "C58_bmo_partial",
    "C58_bmo_optimum_partial",
    "C58_bmo_no_panic_partial",
    "C58_weighted_linear_su_refuted",
    "C58_weighted_default_refuted"
   ],
   "note": "Proved for LinearSU with BMO set, as in the default configuration, on problems of Boolean multilevel optimization (no weight is smaller than the sum of all smaller weights), after every history. Refuted for the other weighted problems, with BMO set or not: with weights 5, 4 and 3 the reported cost is 4 although 3 can be reached, since the encoding of weighted sums forbids the only literal that is left. For WBO see C60; IncWBO, WMSU3 and OLL are not modelled."
  },
  {
   "property": "C59",
   "status": "partial",
   "theorems": [
    "C59_cancelled_result_kept_refuted",
    "C59_cancelled_at_end_refuted"
   ],
   "note": "Refuted: the empty result of a cancelled search is kept and returned by later searches as if it were an answer; a search that is cancelled at its end does not restore the problem, and a later search reports a wrong optimum."
  },
  {
   "property": "C60",
   "status": "proved",
   "theorems": [
    "C60_wbo_solve",
    "C60_wbo_optimum",
    "C60_wbo_infeasible",
    "C60_wbo_no_panic",
    "C60_wbo_agrees_bmo",
    "C60_wbo_strategies_agree"
   ],
   "note": "All weighted and unweighted problems given as clauses, after every history, for every heuristic and every conflict the modelled CDCL solver reports. All three weight strategies are covered: the normal search and the stratified searches WeightNormal and WeightDiversify. Symmetry breaking is proved for unweighted problems only (C56)."
  },
  {
   "property": "C61",
   "status": "partial",
   "theorems": [
    "C61_optimum_partial",
    "C61_unsat_partial",
    "C61_load_no_panic_partial",
    "C61_hard_false_refuted",
    "C61_repeated_literal_refuted"
   ],
   "note": "Proved for all histories, with saved and loaded states, in which no clause vector is longer than its set of literals (ghost flag padded), no earlier search was cancelled, and the weights fit the algorithm (all weights 1, or WBO without symmetry breaking, or LinearSU with BMO on multilevel weights; see C56, C58 and C60). Refuted without the first condition: the constant false as a hard formula, and a clause with a repeated literal, get a vector filled up with the literal of the first variable, and the solver reports an optimum for hard formulas that have no model."
  },
  {
   "property": "C62",
   "status": "proved",
   "theorems": [
    "C62_queens",
    "C62_squares",
    "C62_small_boards"
   ],
   "note": "For every board size, also 0 and 1, in every factory history. The configuration of the generator (pure encoding) is modelled; int overflow of the counter is not."
  },
  {
   "property": "C63",
   "status": "partial",
   "theorems": [
    "C63_wcnf",
    "C63_cnf",
    "C63_read_solve_partial",
    "C63_long_line_refuted",
    "C63_short_line_refuted",
    "C63_empty_line_refuted"
   ],
   "note": "Proved for all files in the standard form (one clause per line, single spaces) whose lines fit into the buffer of the scanner, in every client history; for the optimum under the conditions of C61. Refuted for the rest: a line of 64 KiB or more is dropped with all lines after it and no error is reported, a line with a weight only panics, and an empty line or a comment after the header is reported as an error. Overflow of numbers is not modelled."
  },
  {
   "property": "C64",
   "status": "proved",
   "theorems": [
    "C64_pigeonhole",
    "C64_variables"
   ],
   "note": "For every n and every factory history; int overflow is not modelled."
  },
  {
   "property": "C65",
   "status": "proved",
   "theorems": [
    "C65_existential",
    "C65_universal"
   ],
   "note": "For every history, formula and list of variables."
  },
  {
   "property": "C66",
   "status": "proved",
   "theorems": [
    "C66_literals",
    "C66_variables"
   ],
   "note": "For every history, formula and map of literals."
  },
  {
   "property": "C67",
   "status": "partial",
   "theorems": [
    "C67_anonymize",
    "C67_new",
    "C67_numbered",
    "C67_fresh_refuted"
   ],
   "note": "The renaming is proved for one call from every state of the map, which covers sequences of calls. That the generated variables are new is refuted: the anonymized form of v0 is v0. Prefixes with which a generated name starts with @RESERVED_ are excluded. The edits in seeded/LOG.jsonl do not cover this model."
  }
 ]
}