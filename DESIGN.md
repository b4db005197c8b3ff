# Formal model of booleworks/logicng-go in Rocq (Coq 8.16.1)

## Approach

* The model consists of total, computable Gallina functions, one per Go function.
  Every model definition carries a comment citing the file and the lines of /repo.
* Go panics, missing map entries and run-away recursion are explicit results.
  They are never replaced by a harmless default unless the Go code does so itself
  (for instance a Go map read of a missing key yields the zero value).
* Recursion over the formula DAG uses fuel.
  Out-of-fuel is an explicit value and the theorems show that enough fuel exists
  (`returns m s a s'`: from some fuel on the result is `a`).
* Specifications live in small files of their own and do not use model helpers:
  `Spec.v` (formula trees and their truth value), `EncSpec.v` (clauses, counts, weights),
  `SatSpec.v`, `ExplainSpec.v`, `PrimeSpec.v`, and the specification sections at the top of the `*Props.v` files.
* A theorem that carries only part of a property ends in `_partial`.
* A property which the real code violates is stated as a theorem ending in `_refuted`:
  an existence statement about the faithful model, with a concrete reachable witness.
* Beside the theorems of every `*Props.v` file there is an `Example` in which a concrete case meets
  the hypotheses.

## Layout: Go code, model, proofs, theorems

All names are files in `rocq/theories`. The headline theorems are in the files of the last column.

| Go code | model | proofs | theorems |
|---|---|---|---|
| formula/{factory, formula}.go | Factory | FactoryProofs, FactoryProofs2, FactoryProofs3, FactoryApi | FactoryProps |
| encoding/{amo, cc_*, config, result}.go | EncAmo, EncCc, EncCn, EncApi | EncLemmas, EncAmoProofs, EncTotProofs, EncModProofs, EncCnProofs, EncApiProofs | EncProps |
| encoding/{normalize, pbc_*}.go | EncPbc | EncPbcProofs, EncAdderProofs, EncMergeProofs, EncBinProofs, EncNormProofs | EncProps |
| assignment | Assign | NfBase, NfAssign | AssignProps |
| normalform/{nnf, cnf, dnf, aig, term, handler}.go, functions of package formula, transformation/substitution.go | NormalForm | NfEnc, NfNnf, NfCnf, NfTseitin, NfPg, NfAig, NfFun, NfSubst, NfApi | NfProps, AssignProps |
| simplification (subsumption, distribution, factoring out, negations) | Simplify | SubsTree, SubsProofs, SimpBase, SimpProofs | SimplifyProps |
| simplification (advanced.go), with the answers of the solvers as arguments | Advanced | AdvancedSpec, AdvProofs | AdvancedProps |
| simplification (unit_propagation.go), sat (unit_propagator.go) | UnitProp | UnitPropSpec, UnitPropProofs | UnitPropProps |
| sat (queen.go) | Queens | QueensSpec | QueensProps |
| maxsat (reader.go) | Wcnf | (WcnfProps, first section) | WcnfProps |
| sat (pigeon_hole.go) | Pigeon | (PigeonProps, first section) | PigeonProps |
| transformation (qe.go) | Qe | (QeProps, first section) | QeProps |
| transformation (literal_substitution.go) | LitSubst | (LitSubstProps, first section) | LitSubstProps |
| transformation (anonymizer.go) | Anonymize | (AnonymizeProps, first section) | AnonymizeProps |
| bdd | Bdd, BddApi, BddQuery | BddTable, BddKernel, BddNode, BddSem, BddOps, BddPres, BddQuant, BddCompile, BddCanon, BddCount, BddPaths, BddForm, BddEnum, BddHandles, BddHist, BddClient | BddProps |
| sat/{core, datastructures}.go | Sat | SatInv, SatProp, SatAttach, SatAdd, SatAna, SatMin, SatFind, SatLoop, SatSearch, SatState, SatSolve | SatProps |
| sat/{solver, call, pg_on_solver, encoding_result}.go | SatApi | SatApiInv, SatApiPg, SatApiAdd, SatApiHist | SatApiProps |
| sat/backbone.go | Backbone | | BackboneProps |
| sat/{heap, queue}.go | Heap, Queue | HeapProofs | HeapProps, QueueProps |
| sat/{solver, call}.go as an interface | Solver | | |
| sat/optimizer_function.go | Optimize | | OptimizeProps |
| sat/proofs.go (DRUP check) | Drup | DrupProofs, DrupVerify, DrupSound | CoreProps |
| sat/{core, call}.go with ProofGeneration, sat/unsat_core.go | Trace | TraceProofs, CoreProofs | CoreProps |
| maxsat/{solver, algorithm, alg_linear_su, alg_linear_us, alg_msu3, alg_wbo, enc_totalizer, enc_swc, encoder}.go on clauses | MaxSat | MaxSpec, MaxBase, MaxTot, MaxAlg, MaxLoop, MaxBmo, MaxWbo, MaxSym, MaxRun | MaxProps |
| maxsat/{solver, algorithm}.go on formulas (AddHardFormula, AddSoftFormula, Solve, models) | MaxApi | MaxApiInv | MaxApiProps |
| explanation/{mus, smus} | Mus, Smus | | MusProps, SmusProps |
| primeimplicant | Primes | | PrimeProps |
| model/{iter, enum, count} | Enum | EnumProps | EnumThms |
| graph | Graph | GraphProofs | GraphProps |
| dnnf/bitset.go | BitSet | | BitSetProps |
| dnnf/{compiler,dtree,dtree_generator}.go, sat/dnnf_solver.go | DnnfCompile | | DnnfCompileProps |
| dnnf/dnnf.go | Dnnf | DnnfSpec, DnnfCount, DnnfFun | DnnfProps |
| io/dimacs_{reader, writer}.go | Dimacs | | DimacsProps |
| formula/printer.go, parser/propositional_parser.go, parser/LogicNGPropositional.g4, io/formula_{reader, writer}.go | Print | PrintSpec, PrintLex, PrintParse, PrintProofs | PrintProps |

## Formulas and the factory

`formula/factory.go` is modelled as a state record and a state-and-error monad.
A formula is a pair (sort, id), as encoded in the Go `uint32`.
Ids are unbounded numbers in the model; the 28-bit packing is treated in separate theorems.
Maps are functions into `option`.

`Reads s f t` says that walking through `f` with the accessors of the factory in state `s` gives the tree `t`.
`history ok cv s H` describes all states a client can reach with the constructors (and arbitrary cache writes);
`library cv s H X` those reachable with the constructors and all modelled operations of the library, caches included.

## Plan per property

| id | modelled | proof |
|---|---|---|
| C01 | all constructors of the factory on the state record | every step is an extension, `Den` is monotone, induction over histories |
| C02 | same | well-formedness invariant: caches and tables are inverse to each other |
| C03 | same | per-constructor semantic theorem |
| C04 | `Not`, id arithmetic | invariant on ids |
| C05 | `condenseOperands*` | invariant on stored operand lists |
| C06 | `And` | expected refuted: lookup is by ordered operand list |
| C07 | accessors | from the invariant |
| C08-C10 | `Evaluate`, `Restrict`, `EvaluatesToTrue/False` | induction on trees |
| C11-C13, C16 | `nnfRec`, `factorizedCNFRec`, `factorizedDNFRec`, `AIG` with their caches | cache invariant and induction on trees |
| C14, C15 | `computeTseitin`, `computeTransformation` with `CNFAuxState` | definitional-extension argument; reuse of the PG state expected refuted |
| C17 | functions with their caches | cache invariant |
| C18 | `Substitute` | induction on trees |
| C19-C22 | every encoder as a clause-emitting state machine | combinatorial induction, auxiliary assignment built explicitly |
| C23 | dispatch in `cc_encoding.go` | case analysis; panic for `< 0` expected refuted |
| C24 | `CCIncrementalData` | from the encoder invariants |
| C25 | `Normalize`, `normalizeLE` | arithmetic; `=` with zero coefficients expected refuted |
| C26 | three encoders | arithmetic invariants |
| C27 | UB-tree | trie invariant |
| C28 | distribution, factor-out, negation simplifier, unit and backbone propagation, the advanced and the Quine-McCluskey simplifier | induction on trees; the advanced simplifier by composition of the theorems on prime implicants, smallest unsatisfiable sets, restriction and factoring out |
| C29-C35 | kernel: node table, lossy caches, GC | table invariant (ordered, reduced, unique) |
| C36 | DNNF count | induction on decomposable deterministic trees |
| C37-C38 | CDCL core | implication invariant of clause database; watch invariant |
| C39 | records and proof of the core solver, backward proof checker | the marked clauses imply every literal the checker assigns; records come from the client |
| C40-C43, C50 | algorithms over a SAT oracle that answers correctly | loop invariants |
| C44 | graph search | reachability invariant |
| C45 | DIMACS writer and reader on token level | induction |
| C46 | printer and parser on token level | induction |
| C47-C49 | heap, queue, bit set | data structure invariants |
| C53 | solver on formulas over the core solver | invariant linking clauses, names and factory along client histories |
| C54 | DNNF compiler on the core solver | witnesses for the refuted parts, run analysis |
| C55 | solver with and without records | simulation |
| C56-C57 | MaxSAT solver: totalizer, LinearSU, LinearUS, MSU3, WBO, saved states, on the core solver | loop invariants; symmetry breaking: exchange of the choices of two cores, the newest core first: clauses of the SAT solver are a conservative extension of the relaxed problem; history invariant |
| C58-C59 | BMO search and weighted sums of LinearSU, cancelled searches | BMO: the levels are minimized one after the other, an exchange argument gives the minimal sum; witnesses for the refuted parts |
| C60 | WBO: relaxation of cores, exactly-one encoding, rebuilt solvers | loop invariant: every assignment to the original variables extends to the relaxed problem with the cost reduced by the lower bound, and back |
| C61 | the solver's formula level: CNF, selectors, numbering of names, clause vectors, models | invariant over client histories: the numbered hard clauses hold exactly for the assignments (up to auxiliary variables) that make the hard formulas true and give every selector the value of its formula |
| C62 | the n-queens generator: variables, lines of the board, pure encodings | the lines cover every row, column and diagonal with two squares (arithmetic); the pure encoding is equivalent to the constraint |
| C63 | the reader of MaxSAT files: lines, header, tokens, literals, calls of the solver | tokens of a written line are the words written; induction over the clauses with the client relation of C61 |
| C64 | the pigeonhole generator | the clauses are equivalent to the placement; no placement exists by the pigeonhole principle |
| C65 | quantifier elimination on top of the model of Restrict | induction on the variables; one round is the Shannon expansion, by the theorem on Restrict |
| C66 | the substitution of literals | induction on the formula; the literals looked up are those of the factory before the call |
| C67 | the anonymizer on top of the models of Variables and Substitute | invariant of its map: no variable and no number twice, numbers below the counter |

## Outcome per property

Notes on hypotheses and exceptions are in MANIFEST.json. `R` marks theorems that refute part of the claim for the code as it is.

| id | title | status | theorems |
|---|---|---|---|
| C01 | Formulas are immutable | proved | C01_immutable, C01_readable |
| C02 | Structural identity is identity | proved | C02_identity, C02_encoding, **R** C02_id_overflow_refuted |
| C03 | Constructors mean what they say | proved | C03_meaning |
| C04 | Negation is an involution | proved | C04_involution, C04_negation, C04_literals |
| C05 | And and Or return condensed formulas | proved | C05_flat, C05_condensed, **R** C05_after_minterm_refuted |
| C06 | Commutative variants are one formula | partial | C06_commutative_partial, **R** C06_identity_refuted |
| C07 | Negation and operands are recoverable | proved | C07_sorts, C07_rebuild, C07_operands |
| C08 | Evaluation agrees with the truth tables | proved | C08_new, C08_evaluate, C08_evaluate_total, **R** C08_negVars_refuted |
| C09 | Restriction | proved | C09_restrict, C09_restrict_total |
| C10 | Evaluation to a constant is sound | proved | C10_constant |
| C11 | NNF | proved | C11_nnf, C11_nnf_constraints, C11_isNNF |
| C12 | CNF by factorization | proved | C12_factorizedCNF, C12_factorizedCNF_constraints, C12_factorizedCNF_handler, C12_isCNF |
| C13 | DNF by factorization | proved | C13_factorizedDNF, C13_factorizedDNF_constraints, C13_factorizedDNF_handler, C13_isDNF |
| C14 | Tseitin CNF | proved | C14_tseitin, C14_tseitin_unique |
| C15 | Plaisted-Greenbaum CNF | partial | C15_pg, C15_cnf_config, **R** C15_pg_reused_state_refuted |
| C16 | AIG | partial | C16_aig, C16_aig_shape_partial, C16_aig_constraints_partial, C16_isAIG, **R** C16_aig_shape_refuted, **R** C16_aig_constraints_refuted |
| C17 | Variables, literals and sizes | proved | C17_variables, C17_literals, C17_subnodes, C17_sizes |
| C18 | Substitution | proved | C18_substitute |
| C19 | At-most-one encodings | proved | C19_at_most_one, C19_exactly_one, **R** C19_product_bound_one_refuted |
| C20 | At-most-k encodings | proved | C20_at_most_k, C20_at_most_k_solver, **R** C20_solver_network_refuted |
| C21 | At-least-k encodings | proved | C21_at_least_k, C21_at_least_k_solver, **R** C21_solver_network_refuted |
| C22 | Exactly-k encodings | proved | C22_exactly_k |
| C23 | EncodeCC covers every constraint | partial | C23_every_constraint_partial, C23_every_constraint_solver_partial, **R** C23_less_than_zero_refuted |
| C24 | Incremental bounds | proved | C24_upper_bounds, C24_lower_bounds, C24_upper_bounds_solver, C24_lower_bounds_solver, C24_strict, **R** C24_impossible_bound_refuted |
| C25 | Pseudo-Boolean normalization | partial | C25_normalize_partial, C25_negate, **R** C25_zero_coefficient_refuted |
| C26 | Pseudo-Boolean encodings | partial | C26_sequential_weight_counter, C26_adder_network, C26_binary_merge, C26_binary_merge_solver, C26_encode_partial, C26_encode_solver_partial, **R** C26_adder_large_bound_refuted |
| C27 | Subsumption | proved | C27_cnf, C27_dnf, C27_cnf_handler, C27_dnf_handler |
| C28 | Simplifications preserve meaning | partial | C28_distribute, C28_factorOut, C28_minimizeNegations, C28_minimizeNegations_constraints, C28_propagateBackbone, C28_advanced, C28_qmc, C28_propagateUnits, C28_propagateUnits_cached, **R** C28_propagateUnits_equivalence_refuted |
| C29 | BDD operations | proved | C29_bdds_denote_their_functions, C29_compile, C29_negate, C29_binary, **R** C29_constraint_panics_refuted, **R** C29_negated_constraint_refuted |
| C30 | BDD canonicity | proved | C30_canonical, C30_constants |
| C31 | BDD model count | partial | C31_model_count_partial, **R** C31_model_count_refuted |
| C32 | BDD path counts | partial | C32_path_count_partial, **R** C32_path_count_refuted |
| C33 | BDD restriction and quantification | proved | C33_restrict, C33_quantify |
| C34 | BDDs stay valid | partial | C34_bdds_stay_valid, **R** C34_restrict_result_refuted |
| C35 | BDD normal forms | partial | C35_formulas, C35_enumeration_partial, **R** C35_enumeration_refuted |
| C36 | DNNF model count | proved | C36_model_count, C36_structural_count, dcount_models |
| C37 | SAT answers | proved | C37_core_distinct, C37_satisfiable, C37_unsatisfiable, C37_decides, C37_addClause_result, C37_no_panic, **R** C37_basic_minimization_refuted |
| C38 | Saved solver states | proved | C38_load, C38_stale, C38_save |
| C39 | Unsat cores | partial | C39_core_partial, **R** C39_assumption_order_refuted, **R** C39_assumption_panic_refuted, **R** C39_at_most_panic_refuted |
| C40 | Model enumeration | partial | C40_enumeration, C40_count, C40_terminates, C40_basic_strategy, C40_no_split, **R** C40_split_outside_refuted, **R** C40_overlap_refuted, **R** C40_cancelled_call_refuted, **R** C40_cancelled_split_refuted, **R** C40_unknown_variables_refuted |
| C41 | MUS | proved | C41_insertion, C41_deletion, C41_proper_subsets, C41_no_repetition, **R** C41_empty_insertion_refuted |
| C42 | SMUS | proved | C42_smus |
| C43 | Prime implicants and implicates | proved | C43_primes, C43_completes |
| C44 | Connected components | proved | C44_components, C44_split |
| C45 | DIMACS export | partial | C45_write, C45_write_other, C45_read, C45_read_last_line, C45_roundtrip_partial, **R** C45_long_clause_refuted |
| C46 | Printing and parsing | proved | C46_roundtrip, C46_meaning, C46_file, **R** C46_number_panics_refuted, **R** C46_number_swapped_refuted, **R** C46_name_refuted, **R** C46_below0_refuted, **R** C46_trailing_refuted |
| C47 | Solver priority queue | partial | C47_contents, C47_total, C47_removeMin_partial, C47_build_restores, **R** C47_removeMin_refuted |
| C48 | Bounded queue averages | proved | C48_queue |
| C49 | Bit set | proved | C49_history, C49_new, C49_set, C49_or, C49_and, C49_clear_clone, C49_cardinality, C49_nextSetBit, C49_toBoolSlice |
| C50 | Backbone | proved | C50_backbone, C50_solver_unchanged, C50_implied, **R** C50_negated_at_most_refuted |
| C51 | Cancelled SAT calls | partial | C51_cancelled_call_partial, **R** C37_cancelled_conflict_refuted |
| C52 | Optimization | proved | C52_optimum, C52_model, **R** C52_unknown_literal_refuted |
| C53 | SAT solver on formulas | proved | C53_answer, C53_model, C53_no_model, C53_call_keeps, C53_load, C53_no_panic, **R** C53_add_reorders_refuted |
| C54 | DNNF compilation | partial | **R** C54_complete_refuted, **R** C54_sound_refuted, **R** C54_count_refuted, C54_unsatisfiable_partial |
| C55 | Proof tracing changes no answer | proved | C55_tracing_add, C55_tracing_call |
| C56 | MaxSAT on unweighted problems | proved | C56_solve, C56_optimum, C56_infeasible, C56_algorithms_agree, C56_no_panic, C56_solve_keeps, C56_weighted_refused |
| C57 | Saved states of a MaxSAT solver | proved | C57_load, C57_load_no_panic, C57_still_valid |
| C58 | MaxSAT on weighted problems | partial | C58_bmo_partial, C58_bmo_optimum_partial, C58_bmo_no_panic_partial, **R** C58_weighted_linear_su_refuted, **R** C58_weighted_default_refuted |
| C59 | Cancelled MaxSAT searches | partial | **R** C59_cancelled_result_kept_refuted, **R** C59_cancelled_at_end_refuted |
| C60 | MaxSAT with the WBO algorithm | proved | C60_wbo_solve, C60_wbo_optimum, C60_wbo_infeasible, C60_wbo_no_panic, C60_wbo_agrees_bmo, C60_wbo_strategies_agree |
| C61 | MaxSAT on formulas | partial | C61_optimum_partial, C61_unsat_partial, C61_load_no_panic_partial, **R** C61_hard_false_refuted, **R** C61_repeated_literal_refuted |
| C62 | N-queens generator | proved | C62_queens, C62_squares, C62_small_boards |
| C63 | Reading MaxSAT files | partial | C63_wcnf, C63_cnf, C63_read_solve_partial, **R** C63_long_line_refuted, **R** C63_short_line_refuted, **R** C63_empty_line_refuted |
| C64 | Pigeonhole generator | proved | C64_pigeonhole, C64_variables |
| C65 | Quantifier elimination | proved | C65_existential, C65_universal |
| C66 | Substitution of literals | proved | C66_literals, C66_variables |
| C67 | Anonymizer | partial | C67_anonymize, C67_new, C67_numbered, **R** C67_fresh_refuted |

## Simplifications

Each model file repeats its own at the top.

* Factory: ids and counters are unbounded (C02_encoding and C02_id_overflow_refuted treat the packing).
  Configurations, statistics and the string cache are left out.
* Encoders: clauses are emitted into lists. Reading outside a slice, a panic in Go, reads the literal `Bad`.
  Integers are unbounded. Bounds of machine integers appear as hypotheses where the code depends on them (adder network).
* Operations on formulas: fuel; `None` is a panic or exhausted fuel. Handlers are arbitrary functions of the number of events.
* BDD: node indices and sizes are unbounded; the primes for table sizes come from an arbitrary function `grow`.
  Dynamic reordering and the statistics counters are left out.
* Core SAT solver: literals are pairs. Activities, clause scores, restarts, phase choice and clause deletion are decided by an
  arbitrary oracle, so the theorems hold for every heuristic. The proof trace is left out there and added in `Trace.v`. Termination of the search is not claimed:
  the theorems are about calls that return (partial correctness).
* Solver on formulas (`SatApi.v`): names and numbers of variables are one list; one cache of subformula variables; the clauses of a
  constraint are computed before they are added, so auxiliary variables may get other numbers. Duplicate assumptions, for which the
  LBD computation of the code can index out of range, are not distinguished from single ones.
* Unsat cores (`Drup.v`, `Trace.v`): the flat clause array of the checker is a list of clauses; its hash function is arbitrary; a proposition is
  a number whose meaning the theorems quantify over; clients add clauses, the translation of a proposition to clauses is a hypothesis.
* Solver interface (`Solver.v`): used by MUS, SMUS, optimization, prime implicants and enumeration.
  The content of a solver is the list of added formulas. `env_ok` says that its answers are right.
  C37 and C38 establish this for the core solver, C11-C15 and C19-C26 for the translation to clauses.
* Parser: the ANTLR runtime is modelled by its specification: longest match and first rule for the lexer, one token of look-ahead for the
  parser. Error recovery is not modelled; numbers do not overflow.
* DIMACS: files are byte strings; errors of the file system are left out; white space is ASCII white space.

## Not modelled

* The parser for pseudo-Boolean input as generated by ANTLR (its grammar is modelled), graphical output, randomizer.
* MaxSAT: IncWBO, WMSU3 and OLL. On formulas: CNF methods other than the factory's.
* BDD reordering, BDD graphical output.
* Concurrency: the library documents no concurrent use of a factory, a kernel or a solver.

## Trusted base

* The kernel of Coq 8.16.1, and `coqchk` for the recheck.
* The correspondence between Go code and model, established by reading; every definition cites the lines it models.
* `Print Assumptions` is run for every headline theorem at the end of its file.
  Each prints "Closed under the global context": no axioms are used.
* `coqchk` lists seven axioms of `Coq.ssr.ssrunder`, which the standard library loads with ssreflect; no theorem depends on them.
* No axioms, `Admitted`, functors, module types, or plugins are used and no kernel check is switched off.

## Testing the theorems against wrong programs

`seeded/LOG.jsonl` lists edits of the model in a scratch copy. Each line names the edited definition, the edit, the
claim it breaks, the theorems (files) that fail to compile, and what was tightened when nothing failed.
