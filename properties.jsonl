{"id": "C01", "title": "Successor enumeration is exactly the set of enabled transitions", "statement": "Preparing the successor generator on a marking and calling next until it returns false yields every transition that is enabled in that marking (all normal input places hold at least the arc weight, all inhibitor places hold less than the inhibitor weight) exactly once and no other transition, and the marking written for each is the parent minus the normal inputs plus the outputs, every other place unchanged.", "quantifier": "every well-formed net, every marking (with no token count overflowing 32 bits)", "why_tests_cant": "Nets and markings are unbounded; a test samples finitely many nets and the resumable two-counter iteration must be right at every resume point.", "anchors": ["src/PetriEngine/SuccessorGenerator.cpp: SuccessorGenerator::next, checkPreset, consumePreset, producePostset, _fire", "include/PetriEngine/SuccessorGenerator.h", "src/PetriEngine/PetriNet.cpp: PetriNet::fireable"]}
{"id": "C02", "title": "Deadlock test agrees with the absence of enabled transitions", "statement": "PetriNet::deadlocked(m) returns true exactly when no transition of the net is enabled in m.", "quantifier": "every well-formed net with at least one place and every marking; plus the corner case of nets without places", "why_tests_cant": "The test uses an index by first consumed place and skips empty places; agreement has to hold for all markings.", "anchors": ["src/PetriEngine/PetriNet.cpp: PetriNet::deadlocked"]}
{"id": "C03", "title": "Building a net preserves the declared behaviour", "statement": "A net obtained from PetriNetBuilder by any sequence of addPlace/addTransition/addInputArc/addOutputArc calls followed by makePetriNet enables and fires exactly as the declared arcs say: parallel normal arcs between the same place and transition add up, parallel inhibitor arcs take the smaller weight, the initial marking is the declared one; the result is the same up to renumbering whether or not reordering is requested; and the transition indexing satisfies the layout invariant the successor generator relies on.", "quantifier": "every sequence of builder calls", "why_tests_cant": "Call sequences are unbounded and layout errors only appear for particular arc shapes.", "anchors": ["src/PetriEngine/PetriNetBuilder.cpp: addPlace, addTransition, addInputArc, addOutputArc, makePetriNet"]}
{"id": "C04", "title": "Marking compression is lossless", "statement": "Encoding a marking with AlignedEncoder and decoding the produced bytes returns the marking, for whichever of the encodings is selected; two different markings never get the same bytes; the number of bytes written equals the announced size.", "quantifier": "every number of places and every marking of 32-bit counts", "why_tests_cant": "The encoder switches between many formats at thresholds on place count, token values and zero count; the product space cannot be enumerated.", "anchors": ["src/PetriEngine/Structures/AlignedEncoder.cpp: encode, decode, getType, size", "include/PetriEngine/Structures/AlignedEncoder.h"]}
{"id": "C05", "title": "The state store is a set with stable identifiers", "statement": "Adding a marking reports it as new exactly when it was never added before; a new marking gets an identifier equal to the number of markings stored before it; decoding an identifier at any later time gives back that marking; lookup succeeds exactly for stored markings and does not change the store.", "quantifier": "every finite history of add/lookup/decode calls", "why_tests_cant": "Histories are unbounded.", "anchors": ["include/PetriEngine/Structures/StateSet.h: StateSet::_add, lookup, decode"]}
{"id": "C06", "title": "A satisfied reachability answer has a reachable witness", "statement": "If explicit reachability search answers that a goal formula is satisfied, then a marking reachable from the initial marking satisfies the goal.", "quantifier": "every net, initial marking, list of queries, search order and k-bound", "why_tests_cant": "Depends on all nets and all search orders.", "anchors": ["include/PetriEngine/Reachability/ReachabilitySearch.h: tryReach", "src/PetriEngine/Reachability/ReachabilitySearch.cpp: checkQueries"]}
{"id": "C07", "title": "A negative reachability answer is exhaustive", "statement": "If explicit search (no stubborn reduction, k-bound not exceeded) runs to completion and leaves a query unsatisfied, no reachable marking satisfies that query, whatever search order was used.", "quantifier": "every net with finite state space, initial marking, list of queries and search order", "why_tests_cant": "Exhaustiveness is a universally quantified claim over all reachable markings.", "anchors": ["include/PetriEngine/Reachability/ReachabilitySearch.h: tryReach", "src/PetriEngine/Structures/Queue.cpp"]}
{"id": "C08", "title": "Printed traces are executable", "statement": "The trace reported for a satisfied query is a list of transitions that can be fired one after another from the initial marking and that ends in a marking satisfying the query.", "quantifier": "every net, query and search order", "why_tests_cant": "The trace is reconstructed from parent links written during the search; correctness depends on the whole history.", "anchors": ["src/PetriEngine/Reachability/ResultPrinter.cpp: printTrace", "include/PetriEngine/Structures/StateSet.h: TracableStateSet::setHistory, getHistory"]}
{"id": "C09", "title": "The token bound limits the explored markings", "statement": "With a k-bound, a marking is stored only if its total number of tokens does not exceed the bound.", "quantifier": "every marking and every bound", "why_tests_cant": "The sum is computed in machine arithmetic; only large totals expose a difference.", "anchors": ["include/PetriEngine/Structures/StateSet.h: _add, markingStats, maxTokens", "include/PetriEngine/SuccessorGenerator.h"]}
{"id": "C10", "title": "State-formula evaluation never gives a wrong definite answer", "statement": "Evaluating a query in a marking returns true only if the query holds there under CTL semantics over maximal runs and false only if it does not hold; for formulas without temporal operators it always returns the definite right answer.", "quantifier": "every net, marking and CTL formula", "why_tests_cant": "Quantifies over formulas and nets with their infinite sets of runs.", "anchors": ["src/PetriEngine/PQL/Evaluation.cpp: EvaluateVisitor", "include/PetriEngine/PQL/Evaluation.h"]}
{"id": "C11", "title": "Negation pushing preserves meaning", "statement": "Rewriting a query with pushNegation yields a query with the same truth value in the initial marking (its rewrites other than initial-marking evaluation preserve it in every marking), under maximal-run CTL semantics, with or without an outer negation.", "quantifier": "every net, initial marking and CTL formula", "why_tests_cant": "Dozens of rewrite rules interact; soundness is a statement about all models.", "anchors": ["src/PetriEngine/PQL/PushNegation.cpp: PushNegationVisitor", "include/PetriEngine/PQL/PushNegation.h"]}
{"id": "C12", "title": "Conjunctions and disjunctions of comparisons keep their meaning when compacted", "statement": "Building an And/Or of comparisons through makeAnd/makeOr, which merges comparisons between a place and a constant into interval constraints, yields a condition true in exactly the same markings.", "quantifier": "every list of comparisons, every constant, every marking", "why_tests_cant": "The merge uses 32-bit unsigned intervals with sentinel values; boundary constants have to be covered for all combinations.", "anchors": ["src/PetriEngine/PQL/Expressions.cpp: CompareConjunction::merge, makeAnd, makeOr", "include/PetriEngine/PQL/Expressions.h: CompareConjunction"]}
{"id": "C13", "title": "Fireability propositions mean enabledness", "statement": "The condition a fireability proposition on a transition is compiled to holds in a marking exactly when the transition is enabled there.", "quantifier": "every net, transition and marking", "why_tests_cant": "All nets and markings.", "anchors": ["src/PetriEngine/PQL/Analyze.cpp: UnfoldedFireableCondition handling", "include/PetriEngine/PQL/Expressions.h: CompareConjunction"]}
{"id": "C14", "title": "Reachability queries are answered with the right polarity", "statement": "For a query EF phi, AG phi or any stack of negations over them, the answer printed after preparing the query for reachability search, searching for the prepared goal and mapping the result back equals the truth of the original query.", "quantifier": "every query of the reachability class, every net", "why_tests_cant": "Combination of negations and invariants is unbounded in depth.", "anchors": ["src/PetriEngine/PQL/PrepareForReachability.cpp", "src/PetriEngine/Reachability/ResultPrinter.cpp: handle"]}
{"id": "C15", "title": "Linear-programming query simplification is sound", "statement": "Given a linear-program solver that reports infeasibility only for infeasible systems, simplification of a query returns a query with the same truth value in the initial marking.", "quantifier": "every net, initial marking, formula and every sound solver, including one that times out at will", "why_tests_cant": "Quantifies over all solver behaviours, nets and formulas.", "anchors": ["src/PetriEngine/PQL/Simplifier.cpp", "include/PetriEngine/Simplification/Member.h", "src/PetriEngine/Simplification/LinearPrograms.cpp"]}
{"id": "C16", "title": "Binary query files round-trip", "statement": "Parsing the bytes produced by the binary query writer gives back an equivalent query, and the parser consumes exactly the bytes of that query.", "quantifier": "every query the writer accepts", "why_tests_cant": "Queries are unbounded trees.", "anchors": ["src/PetriEngine/PQL/BinaryPrinter.cpp", "src/PetriParse/QueryBinaryParser.cpp"]}
{"id": "C17", "title": "The dependency graph encodes CTL", "statement": "The least fixed point of the on-the-fly dependency graph assigns true to (formula, marking) exactly when the marking satisfies the formula.", "quantifier": "every net with finitely many successors, every marking and every CTL formula in the fragment the engine accepts", "why_tests_cant": "All nets and formulas.", "anchors": ["src/CTL/PetriNets/OnTheFlyDG.cpp: successors"]}
{"id": "C18", "title": "The CTL fixed-point algorithm gives the right answer for every search order", "statement": "When the certain-zero (or local) algorithm terminates, its answer for the root configuration is the value in the (stratified) least fixed point of the dependency graph, for every order in which the search strategy hands out edges.", "quantifier": "every dependency graph, every search strategy schedule", "why_tests_cant": "The number of schedules is unbounded; a wrong early certain-zero only shows for particular orders.", "anchors": ["src/CTL/Algorithm/CertainZeroFPA.cpp", "src/CTL/Algorithm/LocalFPA.cpp", "src/CTL/SearchStrategy/SearchStrategy.cpp"]}
{"id": "C19", "title": "The siphon-trap test never hides a deadlock", "statement": "If the siphon-trap analysis reports that every siphon contains a marked trap, no deadlock is reachable.", "quantifier": "every net in the accepted class and every initial marking", "why_tests_cant": "Concerns every reachable marking of every net.", "anchors": ["src/PetriEngine/STSolver.cpp"]}
{"id": "C20", "title": "Interval vectors of trace abstraction behave as sets of markings", "statement": "Intersection, inclusion comparison, restriction and weakest-precondition arithmetic on place ranges agree with the sets of markings they denote.", "quantifier": "every pair of range vectors and every marking", "why_tests_cant": "Merge loops over sorted vectors with boundary sentinels.", "anchors": ["include/PetriEngine/TAR/range.h: range_t, prvector_t"]}
{"id": "C21", "title": "Stubborn reduction preserves reachability of the goal", "statement": "Exploring only the stubborn enabled transitions computed for a goal formula finds a goal marking exactly when full exploration does.", "quantifier": "every net, marking and boolean goal formula", "why_tests_cant": "A partial-order reduction error loses witnesses only for particular interleavings.", "anchors": ["src/PetriEngine/Stubborn/ReachabilityStubbornSet.cpp", "src/PetriEngine/Stubborn/InterestingTransitionVisitor.cpp", "include/PetriEngine/Stubborn/StubbornSet.h: closure"]}
{"id": "C22", "title": "Structural reduction rules preserve reachability of query-relevant markings", "statement": "Each structural reduction rule, applied when its guard holds, leaves unchanged the set of truth values reachable for formulas over the places protected by the query.", "quantifier": "every net, initial marking, protected place set, and every place where the rule's guard holds", "why_tests_cant": "Soundness is about all runs of all nets.", "anchors": ["src/PetriEngine/Reducer.cpp: ReducebyRuleA and the other rules"]}
{"id": "C23", "title": "Place-bound queries return the exact maximum", "statement": "After exhaustive exploration, the bound reported for a set of places is the maximum over reachable markings of the sum of their tokens.", "quantifier": "every net with a finite state space, every set of places", "why_tests_cant": "Maximum over all reachable markings.", "anchors": ["src/PetriEngine/PQL/Evaluation.cpp: UnfoldedUpperBoundsCondition", "src/PetriEngine/Reachability/ReachabilitySearch.cpp"]}
{"id": "C24", "title": "Antichain subsumption is exact", "statement": "The antichain reports a set as subsumed exactly when some stored set for the same automaton state is included in it, and inserting keeps only minimal sets without changing which sets are subsumed otherwise.", "quantifier": "every history of insertions", "why_tests_cant": "Histories are unbounded.", "anchors": ["include/PetriEngine/TAR/AntiChain.h"]}
{"id": "C25", "title": "The double-ended queue keeps its elements in order", "statement": "Any sequence of push_back, pop_front, pop_back and clear on light_deque behaves like a list.", "quantifier": "every sequence of operations", "why_tests_cant": "Growth and offset handling depend on the history.", "anchors": ["include/utils/structures/light_deque.h"]}
{"id": "C26", "title": "Trace replay accepts exactly executable traces", "statement": "Replaying a trace succeeds exactly when its transitions can be fired in order from the initial marking.", "quantifier": "every net and every trace", "why_tests_cant": "Unbounded traces.", "anchors": ["src/PetriEngine/TraceReplay.cpp: _play_trace"]}
{"id": "C27", "title": "Query classification is right", "statement": "isReachability, containsNext, isTemporal and isLoopSensitive answer according to the shape of the formula, so that reductions that need the classification are applied only where allowed.", "quantifier": "every formula", "why_tests_cant": "Formula trees are unbounded.", "anchors": ["src/PetriEngine/PQL/PredicateCheckers.cpp"]}
{"id": "C28", "title": "Linear expressions over places are tracked exactly", "statement": "The Member arithmetic used by simplification gives, for every firing count vector, the change of the expression's value along the firing, and its triviality test is right for every reachable marking.", "quantifier": "every expression, net and firing sequence", "why_tests_cant": "All firing sequences.", "anchors": ["include/PetriEngine/Simplification/Member.h", "src/PetriEngine/PQL/Simplifier.cpp: constraint visitors"]}
{"id": "C29", "title": "The state equation over-approximates reachability", "statement": "If a conjunction of linear constraints over places is satisfied in a reachable marking, the linear program built for it has a non-negative integer solution.", "quantifier": "every net, marking and conjunction of constraints", "why_tests_cant": "All firing sequences.", "anchors": ["src/PetriEngine/Simplification/LinearProgram.cpp: isImpossible"]}
{"id": "C30", "title": "Waiting lists lose nothing", "statement": "BFS, DFS, random and heuristic queues return each pushed state identifier exactly once before reporting empty.", "quantifier": "every interleaving of pushes and pops and every random choice", "why_tests_cant": "Histories are unbounded.", "anchors": ["src/PetriEngine/Structures/Queue.cpp"]}
{"id": "C31", "title": "State-space statistics are exact", "statement": "A complete state-space exploration reports exactly the number of reachable markings, the largest number of tokens in any reachable marking and the largest number of tokens in each place.", "quantifier": "every net with finitely many reachable markings, every search order and random choice", "why_tests_cant": "All reachable markings, all search orders.", "anchors": ["include/PetriEngine/Reachability/ReachabilitySearch.h: tryReach", "src/PetriEngine/Reachability/ReachabilitySearch.cpp: printStats", "include/PetriEngine/Structures/StateSet.h: maxTokens, maxPlaceBound"]}
{"id": "C32", "title": "The shared bucket array hands out every index once, under every schedule", "statement": "linked_bucket_t::next(thread), called concurrently by any number of threads in any interleaving, never returns the same index twice, never touches memory that was not allocated, and operator[] maps different returned indices to different cells, the same cell for ever.", "quantifier": "all bucket sizes, numbers of threads, interleavings of the threads' atomic accesses and spurious compare-exchange failures", "why_tests_cant": "the number of interleavings is unbounded; a test sees a handful of them", "anchors": ["include/PetriEngine/Structures/linked_bucket.h: linked_bucket_t::next, operator[], insertToIndex, indexToBucket"]}
{"id": "C33", "title": "LTL model checkers answer correctly", "statement": "When the LTL engine (nested depth-first search or Tarjan) reports that a query holds, no maximal run of the net within the token bound violates it; when it reports a violation, a maximal run of the net violates it. A query A f or E f gets the answer of the path formula f over all, respectively some, maximal runs.", "quantifier": "every net, automaton, path formula, order of successors, hash function of the chains, token bound, naming mode of atomic propositions; full exploration (no partial-order reduction)", "why_tests_cant": "All infinite runs of all nets, all successor orders.", "anchors": ["src/LTL/Algorithm/NestedDepthFirstSearch.cpp: dfs, ndfs", "src/LTL/Algorithm/TarjanModelChecker.cpp: check, push, update, pop, popSCC", "include/LTL/SuccessorGeneration/ProductSuccessorGenerator.h", "include/LTL/Structures/ProductStateFactory.h", "src/LTL/LTLSearch.cpp: to_ltl, solve", "src/LTL/Algorithm/LTLToBuchi.cpp", "src/LTL/Simplification/SpotToPQL.cpp", "include/LTL/LTLValidator.h", "src/VerifyPN.cpp: simplify_ltl_query"]}
{"id": "C34", "title": "Unfolding a coloured net keeps its behaviour", "statement": "Unfolding a coloured net gives a place/transition net in which every run of the coloured net has a copy and every run is such a copy; in matching markings every declared place shows the tokens of its colour, a query about the tokens of a coloured place, the fireability of a coloured transition or a deadlock gets the answer it has in the coloured net, and unfolded names never clash.", "quantifier": "every well-typed coloured net (enumerated and product sorts, guards, arc expressions with tuples, successor, predecessor, all, scaling, addition and subtraction; inhibitor arcs), every order of variables and of the hash maps; the enumeration of all bindings, without colour fixed point, partitioning and symmetries", "why_tests_cant": "All coloured nets, all bindings, all runs.", "anchors": ["src/PetriEngine/Colored/Unfolder.cpp", "src/PetriEngine/Colored/EvaluationVisitor.cpp", "src/PetriEngine/Colored/BindingGenerator.cpp: NaiveBindingGenerator", "src/PetriEngine/Colored/Colors.cpp", "src/PetriEngine/Colored/Multiset.cpp", "src/PetriEngine/PQL/Analyze.cpp", "src/PetriEngine/PQL/Contexts.cpp: resolvePlace"]}
{"id": "C35", "title": "Controller synthesis answers correctly", "statement": "For a query control: AF goal or control: AG good the synthesis engine answers satisfied only if the controller has a strategy (choosing one of its enabled transitions whenever it has one) such that every play against every behaviour of the environment reaches the goal, respectively stays good, without exceeding the token bound; it answers not satisfied only if no strategy does so; and it always ends.", "quantifier": "every two-player net, predicate, token bound and order in which waiting configurations are taken (breadth-first, depth-first, random, heuristic); without partial-order reduction and for non-permissive strategies, as the tool requests", "why_tests_cant": "All strategies against all behaviours of the environment, infinite plays, all search orders.", "anchors": ["src/PetriEngine/Synthesis/SimpleSynthesis.cpp: run, get_env_successors, get_ctrl_successors, dependers_to_waiting, to_queue", "include/PetriEngine/Synthesis/SimpleSynthesis.h", "include/PetriEngine/Synthesis/GameSuccessorGenerator.h", "include/PetriEngine/Synthesis/SynthConfig.h"]}
{"id": "C36", "title": "Guards and inscriptions are read from PNML with their meaning", "statement": "A guard, arc inscription or initial marking of a coloured net in a PNML file is read as an expression that has, for every binding of the variables, the truth value respectively the multiset of colours that the element tree of the file denotes (negation, n-ary conjunction and disjunction, comparisons, numberof, all, tuples, sums, differences, scalar products).", "quantifier": "every element tree, every table of colour types and names, every order of the hash map of types, every binding", "why_tests_cant": "Unbounded nesting of elements, all bindings.", "anchors": ["src/PetriParse/PNMLParser.cpp: parseGuardExpression, parseArcExpression, parseNumberOfExpression, parseColorExpression, collectColorsInTuple, constructAddExpressionFromTupleExpression, findColor"]}
{"id": "C37", "title": "The explicit engine for coloured nets answers correctly", "statement": "When the explicit coloured engine answers an EF or AG query of a coloured net without unfolding it, the answer is the truth about the coloured net: the query holds in some, respectively every, reachable coloured marking. When a deciding marking is found, the printed trace is a run of the coloured net with the printed bindings and markings, and its last marking decides the query.", "quantifier": "every coloured net, query over token counts, fireability and deadlock, search order (depth-first, breadth-first, random, heuristic) and both successor orders", "why_tests_cant": "All nets and all reachable markings, all bindings, every order of the search.", "anchors": ["src/PetriEngine/ExplicitColored/Algorithms/ExplicitWorklist.cpp", "include/PetriEngine/ExplicitColored/SuccessorGenerator/ColoredSuccessorGenerator.h", "src/PetriEngine/ExplicitColored/ExpressionCompilers/ArcCompiler.cpp", "src/PetriEngine/ExplicitColored/ExpressionCompilers/GuardCompiler.cpp", "src/PetriEngine/ExplicitColored/ColoredPetriNetBuilder.cpp", "include/PetriEngine/ExplicitColored/ColoredEncoder.h", "src/PetriEngine/ExplicitColored/ExplicitColoredModelChecker.cpp: explicit trace"]}
{"id": "C38", "title": "Query files are read and written with their meaning", "statement": "A query of an XML query file (reachability, CTL, LTL, HyperLTL, control, global property or bound) is read as a formula that has, over every transition system, the truth value that the element tree denotes; the chosen queries come in order and under their own names. Queries that are written to a file are read back with the same names and meanings. A query that is accepted as CTL is turned into a CTL formula with the same meaning, and every CTL query is accepted.", "quantifier": "every element tree, choice of query numbers, list of formulas, order of writing; every transition system, run and naming of runs", "why_tests_cant": "Unbounded nesting of elements and formulas; equivalence over all transition systems and infinite runs.", "anchors": ["src/PetriParse/QueryXMLParser.cpp", "src/PetriEngine/PQL/XMLPrinter.cpp", "src/PetriEngine/PQL/CTLVisitor.cpp: IsCTLVisitor, AsCTL", "src/VerifyPN.cpp: parseXMLQueries, writeQueries, getCTLQueries", "src/PetriEngine/PQL/Expressions.cpp: CommutativeExpr, LogicalCondition"]}
{"id": "C39", "title": "Trace abstraction refinement answers correctly", "statement": "When the search by trace abstraction refinement answers that a reachability query is satisfied, some reachable marking satisfies it; when it answers that it is not satisfied, no reachable marking does; nets with inhibitor arcs are refused.", "quantifier": "every net without inhibitor arcs, query, sequence of random numbers that orders the edges, number of refinements and of steps", "why_tests_cant": "All reachable markings of possibly infinite state spaces, every order of edges, every sequence of refinements of the interpolant automaton.", "anchors": ["src/PetriEngine/TAR/TARReachability.cpp: reachable, tryReach, runTAR, doStep, nextEdge, popDone", "src/PetriEngine/TAR/Solver.cpp: check, findFree, findFailure, computeTerminal, computeHoare", "src/PetriEngine/TAR/TraceSet.cpp: follow, addTrace, stateForPredicate, maximize, minimize, copyNonChanged, computeSimulation", "src/PetriEngine/TAR/RangeContext.cpp", "src/PetriEngine/TAR/RangeEvalContext.cpp", "include/PetriEngine/TAR/TARAutomata.h"]}
{"id": "C40", "title": "A CTL query that is split over several engines is answered correctly", "statement": "When the CTL engine answers a CTL query, having given the operands of its boolean operators to the reachability search, the LTL engine and the dependency-graph search as it sees fit, the answer is yes exactly if the query holds in the initial marking. An operand that ends the common search of several reachability operands early does so only if it decides the conjunction or disjunction. No token bound is given.", "quantifier": "every net, CTL query, nesting of boolean operators, search order, choice of engine for the reachability parts (with and without stubborn reduction), random numbers and automaton library that translates right", "why_tests_cant": "All nets, formulas and orders of operands; the early end of a search that serves several operands at once depends on the order in which markings are met.", "anchors": ["src/CTL/CTLEngine.cpp: CTLMain, recursiveSolve, solveLogicalCondition, ResultHandler, SimpleResultHandler, CTLSingleSolve", "src/PetriEngine/PQL/PredicateCheckers.cpp: isReachability, isTemporal, containsNext", "src/PetriEngine/PQL/PrepareForReachability.cpp", "include/PetriEngine/Reachability/ReachabilitySearch.h: tryReach", "src/PetriEngine/TAR/TARReachability.cpp: reachable, checkQueries"]}
{"id": "C41", "title": "The random walk reports only what is reachable", "statement": "With the random-walk strategy a query is reported satisfied only if a marking that satisfies it is reached by a run of the net, and the printed trace is such a run; the walk never reports that a query is not satisfied; and every goal that is reached by a run no longer than the depth of a walk is found for some random numbers, whatever the potencies given to the transitions.", "quantifier": "every net, list of queries, sequence of random numbers, initial potencies, distance function, handler, token bound, depth and increment, number of walks, with and without stubborn reduction and traces", "why_tests_cant": "All random numbers, walks and depths; potencies are kept in 32 bits and change with every step.", "anchors": ["include/PetriEngine/Reachability/ReachabilitySearch.h: tryReachRandomWalk", "src/PetriEngine/Reachability/ReachabilitySearch.cpp: checkQueries, doCallback", "include/PetriEngine/Structures/StateSet.h: RandomWalkStateSet, TracableRandomWalkStateSet", "src/PetriEngine/Reachability/ResultPrinter.cpp: printTrace"]}
{"id": "C42", "title": "The tool prints one right verdict per query", "statement": "When the tool is run on a net and a list of queries, every line FORMULA name TRUE or FORMULA name FALSE that it prints is right for the query of that name and the net that was given, whichever of the simplification, the CTL, LTL and synthesis engines, the siphon-trap analysis and the reachability search answered it; no query gets two verdicts; and if the run ends without an error every query gets one. With over-approximation only those verdicts are printed that carry over to the original net.", "quantifier": "every net, list of queries (reachability, CTL, LTL, control), setting of the options, search order and random numbers", "why_tests_cant": "All mixtures of queries and options: which engine answers a query, and whether the run goes on after it, depends on the other queries.", "anchors": ["src/main.cpp: main", "src/VerifyPN.cpp: simplify_queries", "src/PetriEngine/Reachability/ResultPrinter.cpp: handle", "src/CTL/CTLEngine.cpp: CTLMain", "include/PetriEngine/Reachability/ReachabilitySearch.h: reachable, tryReach", "src/PetriEngine/Synthesis/SimpleSynthesis.cpp: synthesize", "src/PetriEngine/STSolver.cpp: printResult"]}
{"id": "C43", "title": "A PNML net file is read as the net it describes, and a written net is read back", "statement": "When the tool reads a PNML file of a net without colours, in which every name is given once and arcs go between places and transitions with weights from 1 to 2^31 - 1, the net has exactly the places and transitions of the file, through all pages, with the initial tokens of the file, and a transition fires exactly as its arcs and inhibitor arcs in the file say, several arcs between the same nodes adding up; a transition that consumes tokens belongs to the player given. A net with such weights that the tool writes as PNML is read back as the same net, up to the numbering of places and transitions.", "quantifier": "every XML tree, nesting of pages, order of elements, net, naming of places and transitions, order of places chosen by the builder", "why_tests_cant": "All files, orders in which places, transitions and arcs are mentioned, and nets that may be written.", "anchors": ["src/PetriParse/PNMLParser.cpp: parse, parseElement, parsePlace, parseArc, parseTransportArc, parseTransition, parseQueries, parseValue", "src/PetriEngine/PetriNet.cpp: toXML", "src/PetriEngine/PetriNetBuilder.cpp: addPlace, addTransition, addInputArc, addOutputArc, makePetriNet"]}
{"id": "C44", "title": "An answer found with the net without colours is the answer for the coloured net", "statement": "Before it searches, the explicit engine for coloured nets builds a net in which all tokens of a place count the same and guards are dropped. Whatever the coloured net can do this net can do too, with the same number of tokens in every place. If the check with this net answers a query EF f or AG f, the answer is the one of the coloured net.", "quantifier": "every coloured net, arc expression with or without subtraction, guard, inhibitor arc, query about numbers of tokens or fireability, run, behaviour of a sound solver and of the clock", "why_tests_cant": "All nets, all runs and all queries; a wrong answer shows only where colours or guards forbid what numbers of tokens allow.", "anchors": ["src/PetriEngine/ExplicitColored/ColorIgnorantPetriNetBuilder.cpp: build, addPlace, addInputArc, addOutputArc", "src/PetriEngine/ExplicitColored/ExplicitColoredModelChecker.cpp: checkColorIgnorantLP, checkCardinalityColorIgnorantLP, checkFireabilityColorIgnorantLP", "src/PetriEngine/ExplicitColored/IgnorantFireabilityVisitor.cpp: fireabilityEvaluate", "src/PetriEngine/ExplicitColored/Algorithms/FireabilitySearch.cpp: checkQueries"]}
{"id": "C45", "title": "Sets of colours kept as intervals lose no colour", "statement": "The unfolding of coloured nets keeps sets of colours of product types as lists of intervals. Overlap, containment and subtraction of intervals and shifting by a number of successors are exact, around the ends of the types; adding an interval, simplifying, restricting to colours above or below given values, merging down to a given number of intervals, merging neighbours and intersecting classes lose no colour, and those that do not merge on purpose add none for colours with one component. Subtracting a class leaves exactly the colours that are not in it.", "quantifier": "every dimension, list of intervals, diagonal, shift, sizes of the types, bounds and number of intervals", "why_tests_cant": "All lists of intervals of all dimensions; a lost colour shows only as a transition missing in the unfolded net.", "anchors": ["include/PetriEngine/Colored/Intervals.h: interval_t::contains, getOverlap, getSubtracted, interval_vector_t::addInterval, constrainLower, constrainUpper, applyModifier, getLowerIds, restrict, getClosestIntervals, simplify, combineNeighbours", "src/PetriEngine/Colored/EquivalenceClass.cpp: intersect, subtract"]}
{"id": "C46", "title": "Removing dead transitions from a coloured net changes no run", "statement": "Before a coloured net is unfolded, transitions that can never fire, because a place can never have the tokens they take, are removed, and the place with them if nothing else needs it. The net has the same reachable markings afterwards, and in each of them the same transitions can fire with the same effect. No transition and no place of the query is removed.", "quantifier": "every coloured net with at most one arc from a place to a transition and back, guard, arc expression, inhibitor arc, query, and moment at which the time for reductions is up", "why_tests_cant": "All nets and all runs; a wrong removal shows only in a marking that the original net cannot reach.", "anchors": ["src/PetriEngine/Colored/Reduction/RedRuleDeadTransitions.cpp: apply, markingEnablesInArc", "src/PetriEngine/Colored/Reduction/ColoredReducer.cpp: skipPlace, skipTransition, getInArc, getOutArc, getBindingCount", "src/PetriEngine/Colored/Multiset.cpp: isSubsetOrEqTo"]}
{"id": "C47", "title": "Removing redundant places from a coloured net changes no run", "statement": "Before a coloured net is unfolded, places that are not in the query and can never keep a transition from firing are removed. The net and the reduced net can fire the same sequences of transitions and have the same tokens on the places that are left; no transition and no place of the query is removed; and the removal ends without an error.", "quantifier": "every coloured net with at most one arc from a place to a transition and back, guard, arc expression, inhibitor arc, query, and moment at which the time for reductions is up", "why_tests_cant": "All nets, bindings and runs; a place removed wrongly shows only when it would have run out of a colour.", "anchors": ["src/PetriEngine/Colored/Reduction/RedRuleRedundantPlaces.cpp: apply, markingEnablesInArc", "src/PetriEngine/Colored/VarMultiset.cpp: operator+=, operator-=, operator*=, isSubsetOrEqTo", "src/PetriEngine/Colored/ArcVarMultisetVisitor.cpp: extractVarMultiset", "src/PetriEngine/Colored/Reduction/ColoredReducer.cpp: skipPlace"]}
{"id": "C48", "title": "Firing transitions before the unfolding of a coloured net changes no answer", "statement": "Before a coloured net is unfolded, the tokens of a place that is not in the query and has one consumer are moved to the output places of that consumer. The tokens that can be on the places of the query are the same before and after, and the rule leads to no undefined behaviour.", "quantifier": "every coloured net with at most one arc from a place to a transition and back, arc expression, initial marking, inhibitor arc, query, and moment at which the time for reductions is up", "why_tests_cant": "All nets, markings and runs; the tokens moved wrongly show only in what happens later.", "anchors": ["src/PetriEngine/Colored/Reduction/RedRulePreemptiveFiring.cpp: apply, t_is_viable", "src/PetriEngine/Colored/Reduction/ColoredReducer.cpp: skipPlace, skipTransition, getInArc"]}
{"id": "C49", "title": "Removing what is irrelevant for the query from a coloured net changes no answer", "statement": "Before a coloured net is unfolded, the places and transitions that cannot influence the query are removed. The tokens that can be on the places of the query, and the transitions of the query that can fire with them, are the same in the net and in the reduced net, and the rule ends without an error.", "quantifier": "every coloured net with at most one arc from a place to a transition and back, arc expression, guard, inhibitor arc, initial marking, and query", "why_tests_cant": "All nets and runs; a transition removed wrongly shows only in the markings that cannot be reached any more.", "anchors": ["src/PetriEngine/Colored/Reduction/RedRuleRelevance.cpp: apply", "src/PetriEngine/Colored/VarMultiset.cpp: operator==", "src/PetriEngine/PQL/ColoredUseVisitor.cpp: FireableCondition", "src/PetriEngine/Colored/Reduction/ColoredReducer.cpp: skipPlace, skipTransition, addDummyPlace"]}
