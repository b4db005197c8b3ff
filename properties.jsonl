{"id": "C01", "title": "Formulas are immutable", "statement": "A formula returned by a factory keeps exactly the structure (and so the truth value under every assignment) it had when it was returned, whatever calls are made on the factory afterwards.", "quantifier": "all factories, all histories of constructor calls, all previously returned formulas", "why_tests_cant": "It ranges over every history of calls on one factory; a unit test fixes one history.", "anchors": ["formula/factory.go: CachingFactory, Var, Lit, Not, And, Or, Implication, Equivalence, Minterm, Clause, CC, PBC"]}
{"id": "C02", "title": "Structural identity is identity", "statement": "Two formulas obtained from the same factory are the same value if and only if they have the same structure (same operator, same operands in the same order; same name and phase for literals).", "quantifier": "all factories, all histories, all pairs of returned formulas", "why_tests_cant": "It ranges over every history of calls on one factory; a unit test fixes one history.", "anchors": ["formula/factory.go: andCache, orCache, notCache, implCache, equivCache, ccCache, pbcCache, nextPosId, negId", "formula/formula.go: EncodeFormula"]}
{"id": "C03", "title": "Constructors mean what they say", "statement": "The formula returned by And, Or, Not, Implication, Equivalence, Minterm, Clause, CC, AMO, EXO and PBC is true under an assignment exactly when the corresponding Boolean or arithmetic condition on its operands holds, for both settings of conserveVars.", "quantifier": "all factories and histories, all operand lists, all assignments", "why_tests_cant": "It ranges over all formulas of any size and all truth assignments. The simplifications applied depend on what was built before.", "anchors": ["formula/factory.go: And, Or, Not, Implication, Equivalence, Minterm, Clause, CC, PBC, condenseOperandsAnd, condenseOperandsOr, containsComplement"]}
{"id": "C04", "title": "Negation is an involution", "statement": "Negating a formula twice returns the identical formula, a formula is never its own negation, and a formula and its negation carry IDs that differ exactly in the lowest bit.", "quantifier": "all factories, histories and returned formulas", "why_tests_cant": "It ranges over every history of calls on one factory; a unit test fixes one history.", "anchors": ["formula/factory.go: Not, negId, nextPosId", "formula/formula.go: Literal.Negate, Formula.IsPos"]}
{"id": "C05", "title": "And and Or return condensed formulas", "statement": "If only the condensing constructors were used, a formula returned by And (Or) that is a conjunction (disjunction) has at least two operands, none of which is a constant or again a conjunction (disjunction), none repeated, and (unless conserveVars is set) none the negation of another.", "quantifier": "all histories of condensing constructors, all operand lists", "why_tests_cant": "It ranges over every history of calls on one factory; a unit test fixes one history.", "anchors": ["formula/factory.go: And, Or, condenseOperandsAnd, condenseOperandsOr, addFormulaAnd, addFormulaOr"]}
{"id": "C06", "title": "Commutative variants are one formula", "statement": "As the documentation of CachingFactory states, A & B and B & A are represented by one formula.", "quantifier": "all factories, all operand lists and permutations of them", "why_tests_cant": "It is a claim about all permutations of all operand lists.", "anchors": ["formula/factory.go: CachingFactory doc comment, hashOperands, findAnd"]}
{"id": "C07", "title": "Negation and operands are recoverable", "statement": "NotOperand, NaryOperands, BinaryLeftRight, PBCOps, LitNamePhase and Operands return exactly the components a stored formula was built from, and succeed exactly on formulas of the matching sort.", "quantifier": "all factories, histories and returned formulas", "why_tests_cant": "It ranges over every history of calls on one factory; a unit test fixes one history.", "anchors": ["formula/factory.go: NotOperand, NaryOperands, BinaryLeftRight, PBCOps, LitNamePhase, Operands"]}
{"id": "C08", "title": "Evaluation agrees with the truth tables", "statement": "Evaluate returns the truth value of the formula under the assignment, where a variable that is not assigned counts as false.", "quantifier": "all formulas, all partial assignments", "why_tests_cant": "It ranges over all formulas of any size and all truth assignments.", "anchors": ["assignment/evaluate.go: Evaluate, evaluateCoeffs", "assignment/assignment.go"]}
{"id": "C09", "title": "Restriction", "statement": "Restrict returns a formula that agrees with the original on every total extension of the assignment and mentions no assigned variable and no variable the original did not mention.", "quantifier": "all formulas, all partial assignments, all histories of the factory", "why_tests_cant": "It ranges over all formulas of any size and all truth assignments.", "anchors": ["assignment/restrict.go: Restrict"]}
{"id": "C10", "title": "Evaluation to a constant is sound", "statement": "If EvaluatesToTrue (EvaluatesToFalse) reports true for a partial assignment then the formula is true (false) under every total extension of that assignment.", "quantifier": "all formulas and partial assignments", "why_tests_cant": "It ranges over all formulas of any size and all truth assignments.", "anchors": ["assignment/evaluate_to_constant.go"]}
{"id": "C11", "title": "NNF", "statement": "NNF of a formula without arithmetic constraints is logically equivalent to it and is in negation normal form (negations only on variables, no implications or equivalences).", "quantifier": "all formulas, all factory histories including all cache contents produced by the library", "why_tests_cant": "It ranges over all formulas of any size and all truth assignments. Results are cached, so it also ranges over histories.", "anchors": ["normalform/nnf.go: NNF, nnfRec"]}
{"id": "C12", "title": "CNF by factorization", "statement": "FactorizedCNF returns an equivalent formula in conjunctive normal form.", "quantifier": "all formulas without arithmetic constraints, all histories", "why_tests_cant": "It ranges over all formulas of any size and all truth assignments.", "anchors": ["normalform/cnf.go: FactorizedCNF, factorizedCNFRec, distributeCNF, IsCNF"]}
{"id": "C13", "title": "DNF by factorization", "statement": "FactorizedDNF returns an equivalent formula in disjunctive normal form.", "quantifier": "all formulas without arithmetic constraints, all histories", "why_tests_cant": "It ranges over all formulas of any size and all truth assignments.", "anchors": ["normalform/dnf.go: FactorizedDNF, factorizedDNFRec, distributeDNF, IsDNF"]}
{"id": "C14", "title": "Tseitin CNF", "statement": "TseitinCNF returns a CNF whose models, restricted to the original variables, are exactly the models of the formula. For a formula without arithmetic constraints every model of the formula extends to exactly one model of the CNF. Both hold as well when the auxiliary state is reused from earlier Tseitin calls.", "quantifier": "all formulas without reserved variable names, all clause boundaries, all histories of library calls, all assignments", "why_tests_cant": "It ranges over all formulas of any size and all truth assignments.", "anchors": ["normalform/cnf.go: TseitinCNF, TseitinCNFWithBoundary, computeTseitin, handleNary"]}
{"id": "C15", "title": "Plaisted-Greenbaum CNF", "statement": "PGCNF returns a CNF whose models, restricted to the original variables, are exactly the models of the formula; with a reused auxiliary state this holds for every formula of the sequence.", "quantifier": "all formulas without reserved variable names, boundaries and sequences of calls sharing an auxiliary state", "why_tests_cant": "It ranges over all formulas of any size and all truth assignments.", "anchors": ["normalform/cnf.go: PGCNF, PGCNFWithBoundary, computeTransformation, computePosPolarity, pgVariable, CNFAuxState"]}
{"id": "C16", "title": "AIG", "statement": "AIG returns an equivalent formula built from conjunctions and negations only.", "quantifier": "all formulas", "why_tests_cant": "It ranges over all formulas of any size and all truth assignments.", "anchors": ["normalform/aig.go: AIG, IsAIG"]}
{"id": "C17", "title": "Variables, literals and sizes", "statement": "Variables and Literals return exactly the variables and literals occurring in the formula, NumberOfAtoms and NumberOfNodes count the atoms and nodes of its tree, Depth is its height, and a cached answer is the same as a fresh one.", "quantifier": "all formulas, all histories", "why_tests_cant": "It ranges over every history of calls on one factory; a unit test fixes one history.", "anchors": ["formula/function.go", "formula/number_of_atoms.go", "formula/number_of_nodes.go", "formula/formula_depth.go"]}
{"id": "C18", "title": "Substitution", "statement": "The result of Substitute is true under an assignment exactly when the original is true under the assignment that first evaluates the substituted formulas.", "quantifier": "all formulas, all substitutions, all assignments", "why_tests_cant": "It ranges over all formulas of any size and all truth assignments.", "anchors": ["transformation/substitution.go: Substitute"]}
{"id": "C19", "title": "At-most-one encodings", "statement": "For each of the AMO encoders an assignment of the constrained variables extends to the auxiliary variables satisfying all emitted clauses if and only if at most one of the variables is true.", "quantifier": "all numbers of variables, all assignments, all admissible encoder parameters", "why_tests_cant": "Every length has its own recursion shape; tests enumerate a few lengths.", "anchors": ["encoding/amo.go: amoPure, amoLadder, amoProduct, amoNested, amoCommander, amoBinary, amoBimander"]}
{"id": "C20", "title": "At-most-k encodings", "statement": "For each AMK encoder (totalizer, modular totalizer, cardinality network) an assignment of the variables extends to the auxiliary variables satisfying all emitted clauses iff at most k variables are true.", "quantifier": "all n, all k, all assignments", "why_tests_cant": "All lengths and bounds.", "anchors": ["encoding/cc_totalizer.go: totalizerAMK, toCNF, adderAMK", "encoding/cc_modular_totalizer.go: modtotalizerAMK", "encoding/cc_cardinality_network.go: cnAmk"]}
{"id": "C21", "title": "At-least-k encodings", "statement": "For each ALK encoder an assignment extends to the auxiliary variables satisfying all emitted clauses iff at least k variables are true.", "quantifier": "all n, all k, all assignments", "why_tests_cant": "All lengths and bounds.", "anchors": ["encoding/cc_totalizer.go: totalizerALK, adderALK", "encoding/cc_modular_totalizer.go: modtotalizerALK", "encoding/cc_cardinality_network.go: cnAlk"]}
{"id": "C22", "title": "Exactly-k encodings", "statement": "For each EXK encoder an assignment extends to the auxiliary variables satisfying all emitted clauses iff exactly k variables are true.", "quantifier": "all n, all k, all assignments", "why_tests_cant": "All lengths and bounds.", "anchors": ["encoding/cc_totalizer.go: totalizerEXK", "encoding/cc_cardinality_network.go: cnExk"]}
{"id": "C23", "title": "EncodeCC covers every constraint", "statement": "EncodeCC terminates without panicking for every cardinality constraint the factory can build and the emitted clauses are equivalent to it on the constrained variables.", "quantifier": "all cardinality constraints, all encoder configurations", "why_tests_cant": "All comparators, bounds and lengths including the degenerate ones.", "anchors": ["encoding/cc_encoding.go: EncodeCC, EncodeCCInResult"]}
{"id": "C24", "title": "Incremental bounds", "statement": "After encoding an at-most-k (at-least-k) constraint incrementally, the clauses added by NewUpperBound (NewLowerBound) restrict the solutions to exactly those meeting the new bound.", "quantifier": "all n, k and sequences of tightened bounds", "why_tests_cant": "All lengths, bounds and sequences of tightenings.", "anchors": ["encoding/cc_incremental_data.go"]}
{"id": "C25", "title": "Pseudo-Boolean normalization", "statement": "Normalize of a pseudo-Boolean constraint returns <=-constraints with positive coefficients over distinct variables whose conjunction is equivalent to the constraint.", "quantifier": "all constraints: all comparators, literals with repetitions and both phases, all integer coefficients", "why_tests_cant": "Infinitely many coefficient vectors.", "anchors": ["encoding/normalize.go: Normalize"]}
{"id": "C26", "title": "Pseudo-Boolean encodings", "statement": "For each PBC encoder (sequential weight counter, binary merge, adder network) an assignment extends to the auxiliary variables satisfying the emitted clauses iff the weighted sum is at most the bound.", "quantifier": "all literal lists, positive coefficients, bounds, assignments", "why_tests_cant": "Infinitely many coefficient vectors and bounds.", "anchors": ["encoding/pbc_swc.go", "encoding/pbc_binary_merge.go", "encoding/pbc_adder.go"]}
{"id": "C27", "title": "Subsumption", "statement": "CNFSubsumption and DNFSubsumption return an equivalent formula in which no clause (term) is subsumed by another.", "quantifier": "all CNFs and DNFs", "why_tests_cant": "It ranges over all formulas of any size and all truth assignments.", "anchors": ["simplification/subsumption.go: CNFSubsumption, DNFSubsumption, ubtree"]}
{"id": "C28", "title": "Simplifications preserve meaning", "statement": "DistributiveSimplification, FactorOut, negation simplification, unit/backbone propagation and the advanced simplifier return formulas equivalent to the input; the Quine-McCluskey simplifier returns a smallest disjunction of prime implicants.", "quantifier": "all formulas", "why_tests_cant": "It ranges over all formulas of any size and all truth assignments.", "anchors": ["simplification/distribution.go", "simplification/factor_out.go", "simplification/negation_simplifier.go", "simplification/backbone.go", "simplification/advanced.go", "simplification/unit_propagation.go", "sat/unit_propagator.go"]}
{"id": "C29", "title": "BDD operations", "statement": "The BDD returned by And, Or, Negate, Implies, Equivalence and Compile denotes the corresponding Boolean function, whatever was computed on the kernel before (operation caches, garbage collections, table resizes).", "quantifier": "all kernels, all histories of operations, all assignments", "why_tests_cant": "Cache entries and collections depend on the history of the kernel.", "anchors": ["bdd/kernel.go: applyRec, makeNode, gbc, nodeResize", "bdd/construction.go: notRec", "bdd/bdd.go: compile"]}
{"id": "C30", "title": "BDD canonicity", "statement": "Two BDDs of one kernel denote the same function iff they have the same index; in particular IsTautology and IsContradiction are exact.", "quantifier": "all kernels and histories, all pairs of BDDs", "why_tests_cant": "All functions and histories.", "anchors": ["bdd/bdd.go: IsTautology, IsContradiction", "bdd/kernel.go: makeNode"]}
{"id": "C31", "title": "BDD model count", "statement": "ModelCount returns the number of satisfying assignments over the kernel's variables, every time it is called.", "quantifier": "all BDDs and all sequences of calls", "why_tests_cant": "A cached big integer is shared between calls.", "anchors": ["bdd/operation.go: satCount, satCountRec"]}
{"id": "C32", "title": "BDD path counts", "statement": "PathCountOne, PathCountZero and NumberOfCNFClauses return the number of paths to the respective terminal.", "quantifier": "all BDDs and all sequences of calls", "why_tests_cant": "Wrong only for shared nodes.", "anchors": ["bdd/operation.go: pathCountRecOne, pathCountRecZero"]}
{"id": "C33", "title": "BDD restriction and quantification", "statement": "Restrict, Exists and ForAll return BDDs denoting the cofactor and the projections.", "quantifier": "all BDDs, all variable sets, all histories", "why_tests_cant": "All functions and histories.", "anchors": ["bdd/construction.go: restrictRec, quantRec"]}
{"id": "C34", "title": "BDDs stay valid", "statement": "A BDD handed to the user keeps denoting the same function after any later operation on its kernel.", "quantifier": "all histories of kernel operations after the BDD was returned", "why_tests_cant": "Needs a garbage collection at the right moment.", "anchors": ["bdd/kernel.go: gbc, addRef", "bdd/bdd.go: Restrict, Exists, ForAll"]}
{"id": "C35", "title": "BDD normal forms", "statement": "BDD.CNF (BDD.DNF, ToFormula) is equivalent to the BDD, and ModelEnumeration lists each projected model exactly once.", "quantifier": "all BDDs, all variable sets", "why_tests_cant": "All functions.", "anchors": ["bdd/operation.go: allSat, allUnsat, toFormula", "bdd/function.go"]}
{"id": "C36", "title": "DNNF model count", "statement": "ModelCount of a deterministic decomposable formula is its number of satisfying assignments over the given original variables.", "quantifier": "all deterministic decomposable formulas, all sets of original variables that include the formula's variables, after every history of library calls on the factory (so with every content of the count cache)", "why_tests_cant": "All formulas; counts are unbounded integers.", "anchors": ["dnnf/dnnf.go: ModelCount, count"]}
{"id": "C37", "title": "SAT answers", "statement": "The solver answers satisfiable only with an assignment that satisfies every added clause, at-most constraint and assumption, and unsatisfiable only if no assignment does; then the reported conflict is a set of negated assumptions one of which holds in every model. No call panics.", "quantifier": "all clause and constraint sets, all histories of additions, calls, saving and loading in which no handler stops a search at a conflict, all decision, restart and deletion heuristics, all clause minimizations (the basic one only for clauses)", "why_tests_cant": "All search histories.", "anchors": ["sat/core.go: AddClause, Solve, search, propagate, analyze"]}
{"id": "C38", "title": "Saved solver states", "statement": "After LoadState the solver's answers are those for the constraints present when the state was saved.", "quantifier": "all interleavings of additions, solving, SaveState and LoadState", "why_tests_cant": "All interleavings.", "anchors": ["sat/core.go: saveState, loadState"]}
{"id": "C39", "title": "Unsat cores", "statement": "The propositions in the core returned for an unsatisfiable call are among those given to the solver and are jointly unsatisfiable.", "quantifier": "all proposition lists and assumptions in any order", "why_tests_cant": "All orders of assumptions.", "anchors": ["sat/call.go: initCall", "sat/unsat_core.go", "sat/solver.go: generateClauseVector"]}
{"id": "C40", "title": "Model enumeration", "statement": "Enumeration over a variable set yields each projected model exactly once; when the handler cancels, the result is not reported as successful.", "quantifier": "all formulas, variable sets, split strategies, and all handlers (every event at which the handler may cancel)", "why_tests_cant": "All cancellation points and split strategies.", "anchors": ["model/iter/iteration.go: iterRecursive, iterate, iterSATCall"]}
{"id": "C41", "title": "MUS", "statement": "The computed MUS is a subset of the given propositions, unsatisfiable, and every proper subset of it is satisfiable; a satisfiable input is reported as an error.", "quantifier": "all proposition lists", "why_tests_cant": "All lists.", "anchors": ["explanation/mus/mus.go"]}
{"id": "C42", "title": "SMUS", "statement": "The computed SMUS is a smallest subset of the propositions which is unsatisfiable together with the additional constraints; nil is returned iff all together is satisfiable.", "quantifier": "all proposition lists and constraints", "why_tests_cant": "Minimality over all subsets.", "anchors": ["explanation/smus/smus.go"]}
{"id": "C43", "title": "Prime implicants and implicates", "statement": "CoverMin and CoverMax return prime implicants and prime implicates; the selected sort is complete and the other one covers the formula.", "quantifier": "all formulas", "why_tests_cant": "All formulas.", "anchors": ["primeimplicant/computation.go"]}
{"id": "C44", "title": "Connected components", "statement": "ComputeConnectedComponents partitions the nodes of the graph into its connected components and SplitFormulasByComponent assigns every formula to the component of its variables.", "quantifier": "all graphs, all formula lists", "why_tests_cant": "All graphs.", "anchors": ["graph/connected_components.go", "graph/formula_graph.go"]}
{"id": "C45", "title": "DIMACS export", "statement": "The clauses written by WriteDimacs describe the formula under the returned variable numbering, and reading them back yields the same clauses up to renaming.", "quantifier": "all CNF formulas", "why_tests_cant": "All CNFs.", "anchors": ["io/dimacs_writer.go", "io/dimacs_reader.go"]}
{"id": "C46", "title": "Printing and parsing", "statement": "Parsing the printed form of a formula on the same factory yields the formula itself and changes nothing; parsing it on any other factory yields a formula with the same meaning. Writing a formula to a file, as one line or as one line per conjunct, and reading the file back yields a formula with the same meaning, as long as no line reaches the reader's limit.", "quantifier": "all formulas over the grammar's variable names (in constraints: names that are not numbers), all factories", "why_tests_cant": "All formulas, nestings and factories.", "anchors": ["formula/printer.go", "parser/propositional_parser.go", "parser/LogicNGPropositional.g4", "io/formula_reader.go", "io/formula_writer.go"]}
{"id": "C47", "title": "Solver priority queue", "statement": "The solver's variable heap contains exactly the inserted and not yet removed variables and removeMin returns one that no other precedes in the activity order.", "quantifier": "all sequences of heap operations and activity updates", "why_tests_cant": "All operation sequences.", "anchors": ["sat/heap.go: lngheap"]}
{"id": "C48", "title": "Bounded queue averages", "statement": "The bounded queue reports the sum of the last maxSize pushed values.", "quantifier": "all sequences of pushes", "why_tests_cant": "All operation sequences.", "anchors": ["sat/queue.go: boundedQueue"]}
{"id": "C49", "title": "Bit set", "statement": "The DNNF bit set behaves like a finite set of naturals under set, get, or, and, nextSetBit and cardinality.", "quantifier": "all sequences of operations and indices", "why_tests_cant": "Word boundaries at every multiple of 64.", "anchors": ["dnnf/bitset.go"]}
{"id": "C50", "title": "Backbone", "statement": "ComputeBackbone reports exactly the variables that have the same value in all models (positive, negative), all others as optional, and unsatisfiable formulas as such.", "quantifier": "all formulas, variable sets and backbone sorts", "why_tests_cant": "All formulas.", "anchors": ["sat/backbone.go"]}
{"id": "C51", "title": "Cancelled SAT calls", "statement": "A SAT call that is cancelled by its handler does not change the answers of later calls.", "quantifier": "all histories, all moments of cancellation", "why_tests_cant": "All moments of cancellation in all searches.", "anchors": ["sat/core.go: Solve, search"]}
{"id": "C52", "title": "Optimization", "statement": "Maximize (Minimize) returns a model of the solver's content in which the number of true literals among the given ones is the largest (smallest) possible, nil exactly if the content is unsatisfiable, and leaves the content and the saved states of the solver as they were.", "quantifier": "all solver contents, literal lists, additional variables, and all handlers", "why_tests_cant": "the optimum is compared with every model of every content, whatever the solver's heuristics answer", "anchors": ["sat/optimizer_function.go: optimize, maximize", "encoding/cc_encoding.go: alkIncremental", "encoding/cc_incremental_data.go: computeLbConstraint"]}
{"id": "C53", "title": "SAT solver on formulas", "statement": "A Call of a solver that is not cancelled answers satisfiable exactly if some assignment satisfies all formulas that were added to the solver and not removed by LoadState, together with the additional formulas of the call. The reported model gives values only to the requested variables, agrees with such an assignment, and if all occurring variables are requested every assignment that agrees with the model satisfies the formulas. A call leaves the content of the solver as it was; after LoadState the content is that of the saved state. No operation panics.", "quantifier": "all histories of factory, normal form and solver operations on one factory and one solver, all CNF methods and encoder configurations, all decision heuristics", "why_tests_cant": "Every formula, every history of additions, calls, saves and loads, and every search the core solver may take.", "anchors": ["sat/solver.go: Add, SaveState, LoadState, addFormulaAsCNF, computeModel", "sat/call.go: Call", "sat/pg_on_solver.go: addCNFToSolver, computeTransformation", "sat/encoding_result.go"]}
{"id": "C54", "title": "DNNF compilation", "statement": "Compile returns a deterministic decomposable formula that is equivalent to its input, so that its model count is the number of models of the input; an unsatisfiable formula is compiled to the constant false.", "quantifier": "all formulas, all histories of the factory", "why_tests_cant": "The result depends on the order of decisions, conflicts, learnt clauses and cache hits; equivalence must hold for every input.", "anchors": ["dnnf/compiler.go: Compile, cnf2ddnnf, conjoin, cnfAux, leaf2ddnnf", "dnnf/dtree.go: cacheKey, dynamicSeparator", "dnnf/dtree_generator.go: generateMinFillDtree", "sat/dnnf_solver.go: Decide, AssertCdLiteral, NewlyImplied"]}
{"id": "C55", "title": "Proof tracing changes no answer", "statement": "A solver that records proofs gives the same answers and models as one that does not.", "quantifier": "all solver states, added clauses, additional propositions and decisions of the heuristics", "why_tests_cant": "Every search must agree, whatever is recorded in between.", "anchors": ["sat/core.go: AddClause, search, reduceDB, Solve, saveState, loadState", "sat/call.go: initCall, close"]}
{"id": "C56", "title": "MaxSAT on unweighted problems", "statement": "Solve of LinearSU, LinearUS, MSU3 and WBO (with and without symmetry breaking) reports the minimal number of violated soft clauses among the assignments that satisfy all hard clauses, with a model that attains it, or reports that no assignment satisfies the hard clauses. A search leaves the problem unchanged and never panics; algorithms that do not support weights refuse weighted problems.", "quantifier": "all histories of additions, searches, saved and loaded states of a solver, all unweighted problems, all incremental strategies, all decisions of the SAT heuristics, all handlers at the start and end of calls and at bounds", "why_tests_cant": "Every problem, every history and every run of the underlying SAT solver.", "anchors": ["maxsat/solver.go: AddHardFormula, AddSoftFormula, Solve, SolveWithHandler", "maxsat/alg_linear_su.go: normalSearch", "maxsat/alg_linear_us.go: none, iterative", "maxsat/alg_msu3.go: none, iterative", "maxsat/enc_totalizer.go: build, join, updateWithAssumptions, incremental", "maxsat/alg_wbo.go: normalSearch, symmetryBreaking, symmetryLog, relaxCore"]}
{"id": "C57", "title": "Saved states of a MaxSAT solver", "statement": "After a saved state is loaded the solver answers for the problem it held when the state was saved. Loading never panics, and a state stays valid while clauses are added and searches run.", "quantifier": "all histories of one MaxSAT solver, all states saved in it", "why_tests_cant": "Searches add variables, relaxation literals and weights to the same arrays; every interleaving with saves and loads must restore them.", "anchors": ["maxsat/solver.go: SaveState, LoadState", "maxsat/algorithm.go: saveState, loadState, innerSearch"]}
{"id": "C58", "title": "MaxSAT on weighted problems", "statement": "Solve of an algorithm that supports weights reports the minimal sum of the weights of violated soft clauses among the assignments that satisfy all hard clauses.", "quantifier": "all weighted problems, all decisions of the SAT heuristics", "why_tests_cant": "The weighted encodings depend on all weights and bounds.", "anchors": ["maxsat/alg_linear_su.go: normalSearch", "maxsat/enc_swc.go: encode, update"]}
{"id": "C59", "title": "Cancelled MaxSAT searches", "statement": "A search that is cancelled by its handler leaves the solver as it was: a later search that is not cancelled reports the right answer for the problem on the solver.", "quantifier": "all problems, all points at which the handler cancels", "why_tests_cant": "A handler may cancel at any event; each leaves a different internal state.", "anchors": ["maxsat/solver.go: SolveWithHandler", "maxsat/algorithm.go: innerSearch, foundLowerBound, foundUpperBound"]}
{"id": "C60", "title": "MaxSAT with the WBO algorithm", "statement": "Solve of WBO without symmetry breaking reports, for every problem with or without weights and for every weight strategy, the minimal sum of the weights of violated soft clauses among the assignments that satisfy all hard clauses, with a model that attains it, or reports that no assignment satisfies the hard clauses. It never panics.", "quantifier": "all histories of additions, searches, saved and loaded states, all weighted problems, all decisions of the SAT heuristics, all conflicts the SAT solver may report", "why_tests_cant": "Each unsatisfiable core splits and relaxes soft clauses; every sequence of cores must keep the optimum.", "anchors": ["maxsat/alg_wbo.go: normalSearch, unsatSearch, relaxCore, computeCostCore, rebuildSolver, initAssumptions", "maxsat/alg_wbo.go: weightSearch, updateCurrentWeight, findNextWeight, findNextWeightDiversity, rebuildWeightSolver", "maxsat/alg_wbo.go: encodeEO"]}
{"id": "C61", "title": "MaxSAT on formulas", "statement": "After any sequence of AddHardFormula, AddSoftFormula, Solve, SaveState and LoadState, a reported optimum comes with a model: every assignment that agrees with it makes all hard formulas true and violates soft formulas of exactly the reported total weight, and no assignment that makes the hard formulas true violates less. A report of unsatisfiability means that no assignment makes all hard formulas true. The names of the solver's selectors do not show in the model. After a successful LoadState the hard and the soft formulas are those of the time of SaveState; an unsuccessful one changes nothing.", "quantifier": "all factories, all histories of the factory and the solver, all hard and soft formulas and weights, all CNF configurations, all decisions of the SAT heuristics", "why_tests_cant": "Formulas go through a cached CNF transformation with auxiliary variables, selectors and a numbering of the variables; each combination of formulas, caches and earlier calls must keep the meaning.", "anchors": ["maxsat/solver.go: AddHardFormula, AddSoftFormula, Solve, SaveState, LoadState, addFormulaAsCNF, addCNF", "maxsat/algorithm.go: addClause, addClauseVec, literal, saveState, loadState, createModel"]}
{"id": "C62", "title": "N-queens generator", "statement": "GenerateNQueens(n) returns a formula whose models are exactly the solutions of the n-queens problem: reading variable v(i*n+j+1) as a queen in row i and column j, every row and every column has exactly one queen and no two queens share a diagonal. Different squares have different variables, the formula does not depend on any auxiliary variable, and the existing formulas of the factory are unchanged.", "quantifier": "all board sizes n, all histories of the factory before the call, all assignments", "why_tests_cant": "Tests count the solutions of a few boards; index arithmetic of the diagonals must be right for every n, and in factories that already hold formulas over the same names.", "anchors": ["sat/queen.go: GenerateNQueens", "encoding/cc_encoding.go: EncodeCC, amo, exo, amoPure"]}
{"id": "C63", "title": "Reading MaxSAT files", "statement": "Reading a DIMACS file with weights into a MaxSAT solver adds exactly the problem of the file: one hard formula for each clause with the weight given in the header, one soft formula with its weight for each other clause, and, for a file without weights, one soft formula with weight 1 for each clause; number i of the file is the variable vi. Solving a new solver then reports the optimum of the file. The reader never panics, and if it cannot read a clause it reports an error.", "quantifier": "all weighted clause lists, all header values, all histories of the factory and the solver before the call, all CNF configurations", "why_tests_cant": "Tests read a few files; tokenizing, weights and signs must be right for every file and in every factory and solver state.", "anchors": ["maxsat/reader.go: ReadDimacsToSolver", "maxsat/solver.go: AddHardFormula, AddSoftFormula"]}
{"id": "C64", "title": "Pigeonhole generator", "statement": "GeneratePigeonHole(n) returns a formula whose models are exactly the placements of n+1 pigeons in n holes, every pigeon in some hole and no two in the same, where variable v((i-1)*n+j) says that pigeon i sits in hole j. So the formula is unsatisfiable for every n. The existing formulas of the factory are unchanged.", "quantifier": "all n including 0 and 1, all histories of the factory before the call, all assignments", "why_tests_cant": "Tests refute a few sizes with a solver; that the clauses describe the problem for every n needs a proof.", "anchors": ["sat/pigeon_hole.go: GeneratePigeonHole, placeInSomeHole, onlyOnePigeonInHole"]}
{"id": "C65", "title": "Quantifier elimination", "statement": "ExistentialQE (UniversalQE) returns a formula that mentions none of the given variables and no variable the original does not mention, and that is true under an assignment exactly when some (all) values of the given variables make the original true. The existing formulas of the factory are unchanged.", "quantifier": "all formulas including arithmetic constraints, all lists of variables including repeated and unused ones, all histories of the factory, all assignments", "why_tests_cant": "Tests compare a few results; the meaning ranges over all formulas, all lists of variables and all assignments.", "anchors": ["transformation/qe.go: ExistentialQE, UniversalQE"]}
{"id": "C66", "title": "Substitution of literals", "statement": "SubstituteLiterals returns a formula equivalent to the original with every literal replaced by its best fit: the image of the literal itself if it is mapped, for a negative literal otherwise the negation of the image of its variable, otherwise the literal. If only variables are mapped the result is true under an assignment exactly when the original is true under the assignment that gives each variable the value of its image. The existing formulas of the factory are unchanged.", "quantifier": "all formulas including arithmetic constraints, all maps from literals to literals, all histories of the factory, all assignments", "why_tests_cant": "Tests fix a few formulas and maps; the claim ranges over all of them, including overlapping and cyclic maps.", "anchors": ["transformation/literal_substitution.go: SubstituteLiterals"]}
{"id": "C67", "title": "Anonymizer", "statement": "Anonymize returns the formula in which every variable is renamed to its generated variable (the prefix followed by a number). Different variables get different generated variables, and a variable keeps its generated variable in all later calls of the same anonymizer. As the documentation says, the generated variables are new. The existing formulas of the factory are unchanged.", "quantifier": "all formulas, all prefixes, all sequences of calls of an anonymizer, all histories of the factory, all assignments", "why_tests_cant": "Tests fix a few formulas; collisions depend on the names in the factory and on the earlier calls.", "anchors": ["transformation/anonymizer.go: NewAnonymizer, Anonymize, Anonymizer.Anonymize"]}
