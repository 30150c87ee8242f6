# Formal model of TAPAAL/verifypn in Rocq (Coq 8.16.1)

## Trusted base

* Coq's kernel (8.16.1) and the standard library.  Property theorems live in
  `rocq/theories/Properties*.v`; each is followed by `Print Assumptions`.
  Expected output is "Closed under the global context".  Any exception is listed
  in the section "Axioms used" below.
* The reading of the C++ source.  Every definition of the model cites the file
  and lines it models and says where it simplifies.
* Things that are *not* modelled, and are assumed or quantified over:
  - external libraries: ptrie (modelled as a finite map from byte strings to
    insertion indices), GLPK (an arbitrary solver; soundness is a hypothesis of
    the theorems that need it), Spot, Z3;
  - the memory allocator, file I/O, XML text parsing, threads, timers (timeouts
    are modelled as arbitrary boolean choices where they influence a result);
  - floating point numbers (`double` heuristics) unless stated otherwise.

Machine integers are written as unbounded `nat`/`Z` except where a property is
about their width; there the wrap is explicit.

## Axioms used

* `Coq.Logic.Classical_Prop.classic` (standard library): C11 (`pushNegation` on
  formulas with path quantifiers, where "not for all runs" must give a run) and
  `C12_makeOr_makeAnd_exact`; C14, C15, C21, C27, C33 and C38 (reading and writing) use it too; later theorems that rest on these say so in their
  `Print Assumptions` output.
* C17: also `Coq.Logic.RelationalChoice.relational_choice` and
  `Coq.Logic.ClassicalUniqueChoice.dependent_unique_choice`, through `ClassicalChoice.choice` (a marking from
  which every step can be continued has an infinite run), and `classic`.
* C40: the axioms of C17 (composition and answers); `classic` alone for the search with stubborn reduction.
* C42: `classic` (driver, search, over-approximation); the axioms of C17 for synthesis (`C42_synthesis`) and the end-to-end theorem (`C42_tool`).
* C44: `classic` for the answers (through C11 and C15); none for the runs.
* Every other property theorem is "Closed under the global context".
* Loading `ssreflect`'s part of the standard library makes checkers list
  `Coq.ssr.ssrunder.Under_rel.*`; no theorem uses it.

## Layout

`rocq/theories/*.v`: model files (definitions only, citing the code), proof
files (`*Proofs.v`), and `Properties*.v` containing only the property theorems,
`Print Assumptions`, and non-vacuity examples.

## Plan per property

| id | what is modelled | how it is proved |
|----|------------------|------------------|
| C01 | CSR arrays of `PetriNet`, `SuccessorGenerator` with both counters, `_fire` | induction over the remaining positions of the counters; invariant "everything before the cursor has been reported" |
| C02 | `PetriNet::deadlocked` | index lemma for `_placeToPtrs`; corner case without places stated separately |
| C03 | builder state and `makePetriNet` loops | invariant over call sequences; layout invariant proved for the result |
| C04 | all encodings of `AlignedEncoder` over byte lists | per-encoding round trip, then selection lemma |
| C05 | `StateSet` over an abstract trie | refinement to a duplicate-free list |
| C06, C07 | `tryReach` as a worklist machine with an arbitrary queue | invariants: stored = discovered reachable; closed under successors when the queue is empty |
| C08 | parent links, `printTrace` | invariant on history links |
| C09 | `markingStats` with 32-bit sum | proof without overflow; witness of wrap-around |
| C10 | `EvaluateVisitor` | structural induction against CTL semantics on maximal paths |
| C11 | `PushNegationVisitor` case by case | structural induction |
| C12 | `CompareConjunction::merge`, `makeAnd`, `makeOr` | invariant of the sorted constraint vector; witnesses for boundary constants |
| C13 | compilation of fireability | direct |
| C14 | `PrepareForReachability`, result mapping | structural induction on the stack of negations |
| C15, C28, C29 | `Member`, simplifier visitors, LP collections, solver as oracle | induction on the formula; state equation by induction on runs |
| C16 | printer and parser over byte lists | structural induction with a continuation of remaining bytes |
| C17 | `OnTheFlyDG::successors` | fixed-point characterisation of the CTL operators |
| C18 | the algorithms as transition systems with a nondeterministic strategy | invariants on assignments and dependency sets |
| C19 | siphon/trap definitions and the layered depth check | Commoner's argument |
| C20, C24 | `range_t`, `prvector_t`, antichain | denotation into sets of markings |
| C21 | stubborn closure and interesting transitions | standard stubborn-set axioms proved of the computed set, then induction on runs |
| C22 | guard and update of single rules | simulation in both directions |
| C23 | bounds evaluation during search | invariant |
| C31 | statistics kept by the state store during `tryReach` | explored = stored invariant, maxima over the stored markings |
| C25, C30 | deque and queues | refinement to lists / multisets |
| C26 | `_play_trace` | induction on the trace |
| C27 | visitor functions with their mutable flags | structural induction; witnesses where flags leak |

## What is modelled, by module

* Net: `PetriNet`, `SuccessorGenerator`, `PetriNetBuilder` (construction of the
  arrays, not the structural reductions).
* Store: `AlignedEncoder`, `StateSet`, `EncodingStructure` use; the trie is a list of keys.
* Search: `tryReach`, `checkQueries`, `ResultPrinter::handle/printTrace`, all queues.
  Not modelled: the random-walk variant, stubborn sets inside this search.
* Queries: `Expressions` (conditions and expressions after compilation),
  `EvaluateVisitor`, `PushNegationVisitor`, `makeAnd/makeOr`, `CompareConjunction`.
  64-bit expression evaluation wraps (`eval64`); the theorems ask for values in range.
  `push` is total by fuel; that the visitor terminates is not claimed.
* Query compilation and classification: `AnalyzeVisitor` for fireability and the global
  properties (names already resolved to indices), `PredicateCheckers`,
  `prepareForReachability`.
* Trace replay: `TraceReplay` from the parsed XML elements on (rapidxml and the Buchi
  state, which is never used, are not modelled).

- `DequeModel.v` (C25): `light_deque` — constructor, push_back, pop_front, pop_back, clear, front, back,
  operator[], empty, size, operator=. The buffer is a list of cells that hold an object or raw memory;
  use or destruction of raw memory and access outside the buffer are UB. Not modelled: the implicit copy
  constructor (it shares the buffer), self-assignment, reserve, exceptions of element constructors.
- `BucketModel.v` (C32): `linked_bucket_t` as a transition system of threads; one step per atomic access,
  schedules are lists of (thread, spurious failure). Not modelled: element data, destructor, weak memory
  orders (the code uses the default sequentially consistent one), wrap of the index type.

- `DgModel.v` (C18): `CertainZeroFPA` (search, checkEdge, finalAssign, explore), `SearchStrategy` (W, N, D
  lists, push/pop, trivialNegation, releaseNegationEdges, maxDistance), `Configuration::addDependency`,
  and the pool of edges with its reference counts and recycling. A released edge has no source; any use
  of one, a failed assertion on a reference count, or a release of an edge that is still referenced
  is UB. The strategies differ in which edge of W they hand out: an arbitrary choice function.
  The order of dependency sets follows edge addresses: an arbitrary function. The graph is a
  function from configurations to edges (`successors` is C17). `DgSpec.v` is the specification:
  the valuation of a stratified graph.  Recursion is over fuel; running out is `NoFuel`.

- `CtlModel.v`, `CtlNet.v` (C17): `OnTheFlyDG::successors` operator by operator, with its fast evaluation of
  subformulas; `CTLSingleSolve` and the BFS/RDFS path of `CTLMain`. A configuration is a marking and the
  position of a subformula in the query. Simplifications: query nodes shared by pointer are distinct positions;
  the store of markings (C05) is the identity; stubborn sets (partial-order reduction) are not used.
  The meaning of formulas is `sat` of `PqlSpec.v`, over maximal runs. Theorems assume that no reachable
  marking overflows its 32-bit counters (`no_overflow`); the tool throws then.

- `BinModel.v` (C16): `BinaryPrinter`, `QueryBinaryParser::parseQuery/parseExpr/parse` and `writeQueries` in binary form, over lists
  of bytes (little endian, 4-byte int and enumerations). A double is its eight bytes. Reading past the end of the file leaves variables
  uninitialised in the code: UB. Not modelled: interning of names, HyperLTL nodes, the XML form.

* **Query simplification (C15, C28, C29).** `MemberModel.v` models the linear
  forms that the visitor of expressions computes (Member.h, Simplifier.cpp constraint
  visitors), `LpModel.v` the linear programs, their merging, the collections with all their
  state, the base program of a net and what is concluded from the answers of the solver,
  `SimpModel.v` the simplifier of conditions line by line.  The clock is an arbitrary
  monotone function, the solver any function that may answer differently each time and is
  only assumed to be sound (`sound_solver`); cache addresses are any injective function.
  Doubles are exact integers (the coefficients are ints).  Not modelled: upper-bound
  queries, synthesis (`control`) queries and the handling of bad_alloc.  Proof: `LpSat.v`
  shows that a collection judged unsatisfiable has no non-negative integer solution,
  `MemberProofs.v` that linear forms follow the firing counts, `SimpMain.v` is the induction
  over formulas with an invariant relating formula, positive and negative programs.
  Findings: `C15_truncation_refuted` (values outside the int range) and
  `C15_crash_refuted` (the solver hitting its time limit at an unlucky moment leads to a
  read from an empty vector).  `query_ok` and the bound 2^31 on markings are the ranges in
  which the int arithmetic is exact.

- **C20, C24** (`RangeSpec`, `RangeModel`, `RangeProofs`, `AntiModel`, `AntiProofs`, `PropertiesTar`). `range.h` (all of `range_t`, `placerange_t` and `prvector_t` except printing and copying) and `AntiChain.h` (subsumed, insert) are modelled completely. `RangeSpec` says which markings a vector of ranges denotes. Two claims one would expect are false of the code and are proved false: intersecting vectors leaves repeated entries behind (the second iterator is not advanced on a common place), so a later comparison is wrong, and the vector used for "no marking" contains the marking without tokens.

- **C21** (`StubModel`, `StubSpec`, `StubTheory`, `StubProofs`, `StubMain`, `StubSearch`, `StubExamples`, `PropertiesStub`). `StubbornSet.cpp` (presets, inhibitor sets, closure, the choice of the least dependent scapegoat), `ReachabilityStubbornSet.cpp`, the reachability part of `InterestingTransitionVisitor.cpp` and the reducing successor generator. `StubTheory` proves the stubborn set theorem for any closed set; `StubProofs` and `StubMain` prove that the computed set is closed and that no transition outside it can make an unsatisfied goal true; `StubSearch` puts the reduced generator into the modelled search. `StubSpec.por_cond` and `small` say for which goals this holds; three further theorems show that the excluded goals (unary minus, a negative factor, values outside 32 bits) really are lost by the reduction. Not modelled: the reductions for LTL, games and the unfolded upper bounds.

**C22 structural reductions** (RedModel.v, RedModelH.v, RedModelR.v, RedModelB.v, RedModelS.v, RedCand.v: Reducer.cpp, the elementary changes and rules A, B, C, D, EFMNOP, F, FNO, G, H, I, J, L, M, Q, R, S, T, EP; RedSpec.v: consistency of the builder and equality of the reachable properties of protected places; RedTheory.v, RedAgg.v, RedFuse.v, RedMerge.v, RedLazy.v: simulation arguments on abstract nets; RedSpecS.v: the side condition of S; RedProofs.v to RedMain.v, RedRuleR.v, RedRuleB.v, RedRuleS.v: proofs). Each rule is modelled for one candidate; any sequence of candidates is covered by C22_sequence and, with rules R, S and T, C22_sequence_all (RedCandN.v, RedMainN.v). Overflows of 32 bits are `Throw` (outside the model), failed asserts are `UB` and proved absent. Rule S has an explosion limit in the caller; one call is modelled for one place. Not modelled: trace reconstruction tables, counters, names, timer. Findings: EP removes a place whose disabled consumers then become enabled; J treats weight 2^32-1 as a sentinel; D compares products that wrap and, with loops, ignores inhibitor arcs of other transitions; C does not look at the inhibitor arcs of its first place; I leaves out a transition that lowers an inhibitor place; R makes transitions with inhibitor arcs without the inhibitor flag, which rule D relies on; B drops initial tokens that are not a whole portion, makes a producer of several portions wait for all of them, and makes a producer wait although its input places inhibit others; S fires a consumer several times at once although its output places are in the query (the test is made only in a mode where the consumer is fired once), loses the firings in which two consumers share the tokens of one producer, and reads a reference into a vector that may have moved. The theorems on B, C, D, I, J, R and S carry the corresponding side conditions.

- **Siphon-trap test (C19).** `StModel.v` follows `STSolver.cpp` function by function (solve, siphonTrap, computeTrap with its in-place erasure from the sorted vector, extend, the antichain of sets already known to be covered, the random removal as an oracle `rnd`, the clock as an oracle `late`); the depth limit passed to the constructor is not used by the code and is left out. `StSpec.v` defines siphons, traps and the siphon-trap property of a plain Petri net. Proved: the test always ends with an answer; a positive answer implies the property and (with at least one transition) that no reachable marking is dead; without a time limit the answer is positive exactly when the property holds, on nets of the accepted class. Refuted: on a net without transitions the answer is positive although the initial marking is dead. Not modelled: `printResult` always reports under query index 0 (STSolver.cpp:208).

- `LocModel.v` (C18): `LocalFPA` (search, finalAssign, explore) with its assertion, on the graph, edges and lists of `DgModel.v`; reference counts, recycling and the early exit when the root is decided are included. Simplified: the strategy is a choice function, as in `DgModel.v`; statistics counters are left out.

- **C33** (`LtlSpec`, `LtlModel`, `LtlProd`, `LtlGraph`, `LtlNdfs`, `LtlRuns`, `LtlTarjanCore`, `LtlTarjan`, `LtlMain`, `LtlIds`, `PropertiesLtl`). The product of a net and a Büchi automaton (`ProductSuccessorGenerator.h`, `BuchiSuccessorGenerator.h`, guards as decision diagrams, the extra initial step, standing still in a deadlock, the token bound), the nested depth-first search with its two marker bits and the Tarjan search with its chains, delta stack and goal stack. `LtlSpec` defines runs and acceptance. `LtlRuns` shows that an accepting lasso of the product is an accepted run and that an accepted run in a finite search leads to an accepting lasso; `LtlNdfs` and `LtlTarjan` prove that the searches find such a lasso exactly when there is one, for every order of successors and hash function. Simplified: state identifiers are the states themselves (the numbering is treated apart in `LtlIds`, where more than 2^20 automaton states collide). Not modelled: partial-order reduction, heuristics as anything but an arbitrary order, the printing of traces. Termination is not claimed: a search that runs out of fuel says nothing. `LtlQuerySpec`, `LtlQueryModel`, `LtlQueryProofs` and `LtlQueryExamples` add the way from the query to the automaton (`LTLSearch.cpp` to_ltl and solve, `LTLValidator.h`, `LTLToBuchi.cpp`) and back (`SpotToPQL.cpp`, simplify_ltl_query). The library spot is an oracle: `translates` and `simplifies` say what is asked of it. Names of propositions are numbers or the printed condition itself. Not modelled: HyperLTL path selection, the printing of texts, the rewritings between the library calls (hypothesis `keeps`; see C11 and C15). Two findings: `C33_nested_refuted` and `C33_simplify_refuted`. The query theorems use `Classical_Prop.classic`.

- **C34** (`ColSyntax`, `ColSpec`, `ColModel`, `ColRadix`, `ColEval`, `ColGen`, `ColCorr`, `ColUnfold`, `ColMain`, `ColFinal`, `ColNames`, `ColNamesProofs`, `ColExamples`, `PropertiesCol`). The specification (`ColSyntax`, `ColSpec`) is the firing rule of coloured nets with sorts, guards and arc expressions as terms with a set-theoretic meaning. The model (`ColModel`) is `Colors`, `Multiset`, `EvaluationVisitor`, `NaiveBindingGenerator` and `Unfolder`, down to the calls made on the net builder of C03; `ColRadix` proves the numbering of tuples, `ColEval` the evaluation of expressions, `ColGen` the enumeration of bindings, `ColUnfold` and `ColMain` the invariant of the unfolding and the bisimulation. Names of unfolded objects are arbitrary injective codes; `ColNames` proves that the strings used are injective. Not modelled: the default passes that prune bindings and merge colours (`ForwardFixedPoint`, `FixpointBindingGenerator`, `IntervalGenerator`, `PartitionBuilder`, `VariableSymmetry`), coloured structural reductions and the explicit coloured engine; weights are below 2^31. Findings: `C34_inhibiting_query_refuted` (a place with an inhibitor arc also has a sum place, which a query counts unless it happens to be iterated last, and if it is the last one the colours without a place are lost; upper bounds always count it); `C34_both_arcs_refuted` (an input arc and an inhibitor arc between the same place and transition are rejected after unfolding although the transition can fire).

* **C35 (controller synthesis).** `SynModel.v` follows `SimpleSynthesis.cpp` function by function: the successor generator with a predicate (`next_ctrl`, `next_env`), the table of configurations with their counters and dependers, `fix_assignment`, `to_queue`, `dependers_to_waiting` and the main loop, where an oracle `pick` chooses the position of the waiting list that is taken, so that all search orders are covered. Not modelled: the game stubborn sets (the generator delivers all moves), `permissive`, printing of the strategy, time-outs. `SynSpec.v` defines strategies (with memory), plays as infinite sequences of markings and the two winning conditions; a strategy has to propose a transition where the controller has one (the rule the engine follows, since a losing set of controllable moves makes a configuration losing). `SynInv.v`/`SynRun.v` prove the invariant: a configuration is WINNING/LOSING only with a justification, and an open configuration keeps exact counters of its undecided successors and is waiting or watched by a depender; `SynGame.v` turns a ranked set of winning markings or a trap into strategies, `SynMain.v` puts this together and `SynTerm.v` bounds the number of rounds. Finding: `fix_assignment` treats a configuration whose only controllable moves are self-loops as one whose controllable moves all lose, also in safety games (`C35_safety_refuted`); the negative answer is proved for nets without such loops.

* **C36 (reading of guards and inscriptions).** `XpModel.v` models the recursive functions of the PNML parser over element trees (tags instead of strings): guards with the flag for negation, colour terms, the loops over all combinations, the collection of colours in tuples and the lookup of colour names with and without the context of a place. Not modelled: `finiteintrangeconstant`, partitions, products of one constituent, and the declarations themselves. `XpSpec.v` gives the meaning of an element tree, independent of the parser: truth of a guard, multiset of an inscription, with types for successor and predecessor. Proved by induction on trees; the loop over combinations is proved to enumerate the cartesian product. Findings: `not` below `not` is read as one `not`, conjunctions of three or more parts lose all but the first two, a sum inside a tuple counts its first part twice and loses the second, `all` of a product sort reads outside of a vector, and a colour name declared in two types is resolved by the order of the hash map.

* **C37 (explicit coloured engine).** `ExpModel.v` models the engine that checks coloured nets without unfolding: multisets as sorted lists of counts, the numbering of tuples, the compiled arc expressions with their minimal and maximal markings and the constraints on variables derived from them, compiled guards, the builder, the checks that precede a binding, the search for the next valid binding (all bindings, or those that satisfy the constraints when there are more than 30), firing, the two successor generators (fixed and even), the byte encoding of markings, query evaluation, the worklist search with an arbitrary order, the map of predecessors and the replay of the trace. `ExpSpec.v` and `ExpShow.v` state reachability, the meaning of queries, and what a printed trace claims, over the coloured firing rule of `ColSpec.v`. `ExpSet.v` to `ExpComp.v` relate multisets, numbers and compiled expressions to their meaning; `ExpGen.v` shows that the generators give every enabled binding; `ExpNet.v` relates steps of the compiled net to steps of the coloured net; `ExpEnc.v` shows that encodings that are complete determine the marking; `ExpSearch.v` has the invariant of the search. The theorems assume a well-typed net with `exp_ok`: variables over enumerations, no two input arcs from one place, positive numbers on input arcs, subtractions that take away what is there or mention variables, tuples of constants over types of one size. Each of these except the first is shown to be needed or is a restriction of the model. The answer is only claimed when the state space was explored in full or a deciding marking was found; `C37_answers_not_full_refuted` shows that otherwise it is reported as false. Other findings that are documented but not theorems: the constraints of a state are erased through a reference to the state that was just popped, and the key of the cache of constraints holds 16 bits of the transition. Not modelled: the conversion of query names, printing, the time limit, the hash table of the passed list (membership is exact).

* **C38 (query files).** `XqSyntax.v` has element trees (a tag, the attribute "name", the text, the children) and formulas over names; the step from text to trees (rapidxml) is not modelled. `XqModel.v` models the reader (`QueryXMLParser.cpp`: all formulas, expressions, global properties, bounds, properties, tags, choice of queries; numbers through sscanf; folding of constants in 64 bits; sorting of conjuncts), the collection of queries and names (`parseXMLQueries`), the writer (`XMLPrinter.cpp`, `writeQueries`) and the check for and translation to CTL (`CTLVisitor.cpp`). `XqSpec.v` gives trees and formulas a meaning over any frame (states, runs, tokens, fireability, dead states, an extensional set of winning positions for control), independently of the model. Proved: reading (`C38_read_query`, `C38_read_file`), writing and reading back (`C38_write_read_partial`), CTL (`C38_to_ctl_partial`, `C38_ctl_accepted`). Twelve refutations list what fails: text that is not a number, numbers above 2^31-1, bounds written to files, empty sums, names with white space, names shifted against queries after one that cannot be read, missing formulas, ignored parts of invariants, formulas on runs accepted as CTL. The order that std::sort gives to conjuncts of one class is fixed (first to last). The theorems on meaning use `Classical_Prop.classic`.

- **C39, trace abstraction refinement** (`TarModel.v`): the whole engine is modelled: the interpolant automaton (TraceSet: states for predicates, edges kept by a predicate, simulation, follow, addTrace, maximize, minimize), the explanation of a false query (RangeContext), the query on lower bounds (RangeEvalContext), findFree, findFailure, computeTerminal, computeHoare, check, the search over sets of interpolants with the antichain, the set of transitions in use, and the refinement loop; std::rand is an argument. `TarSpec.v` holds the class of queries for which the answers are proved. The proof: every edge of the automaton is a valid Hoare triple over the reachable markings (`TarAut`), each kind of interpolant that is added is valid (`TarRc`, `TarHoare`, `TarCheck`, `TarFree`), a finished search covers every marking reached by the transitions in use (`TarRun`), and transitions not in use do not touch the query (`TarMain`). A satisfied answer rests on a trace whose failure search found none. Proved for queries whose operands compare different places, with no comparison after a deadlock test in a disjunction, and for negative answers if no reachable marking is empty (the predicate that every place is empty shares its state with the predicate false). Without these restrictions on queries the answers can be wrong (`C39_disjunction_refuted`, `C39_deadlock_refuted`), and equality comparisons of sums are never answered (`C39_equality_refuted`). Not modelled: bounds queries, several queries at once, printing of traces and statistics; sums of tokens beyond 64 bits.

* C40 (`CmpModel.v`, `CmpSpec.v`): the entry point of the CTL engine, function by function: the two result handlers, `solveLogicalCondition`, `recursiveSolve` and `CTLMain`, with the engines as parameters, and `reachable` of the two reachability searches as they are called here. `C40_composition` is by induction on the query: engines that answer right (`search_right`, `decides`) give right answers. The searches are shown to be right (`C40_search*`); for this the loops of the search are gone through once more to see that a search which ends early has stored the result that ended it. `C40_answer*` put pushNegation (C11), the dependency graph (C17), the LTL engine (C33) and the searches together. Not modelled: the numbers and the printing of `CTLResult`; termination (a run that gives an answer is assumed). Refuted without the rewriting by pushNegation (invariants are answered the wrong way round) and with a token bound (option -k: the answer depends on the search order).

* C41 (`WalkModel.v`, `WalkSpec.v`): the random walk, function by function: the two state sets (potencies in 32 bits, choice of a candidate by a random number, the stack of transitions), the check of the queries on every candidate, the walks with growing depth. Random numbers, the distance function, the comparison of doubles and the handler are parameters; the successor generator is that of C01 or the stubborn one of C21. Proof: an invariant over the walk (`WalkProofs.v`: the stack is the run to the current marking, every event in the log has a run), and an explicit choice of random numbers that follows a given run (`WalkFind.v`). Findings, with witnesses: printing a trace empties the stack, so that with several queries later traces are wrong or the top of an empty stack is read; queries are evaluated before the token bound; the step counter is an int. A first place with 2^32-1 tokens is taken as "no candidate", so `C41_every_goal_can_be_found` excludes it. Not modelled: the printing itself, the rounding of doubles (any `accept` that takes 0 and refuses the largest number serves).

* C42 (`DrvModel.v`, `DrvSpec.v`): the main function from the query simplification on: initial marking check, classification of the queries, reduction, the CTL, LTL and synthesis engines one after the other with their early returns, siphon-trap analysis, preparation for reachability, search, and the printed verdicts. The engines are parameters with specifications (`parts_right`); `C42_verdicts_right`, `C42_at_most_once`, `C42_all_answered` are proved for all parts that meet them, by going through the phases with an invariant over what has been printed and what is pending (`DrvProofs.v`). `C42_tool` puts in the real parts: the loop that pushes negations, the explicit search of C06/C07, the CTL engine of C40, the synthesis of C35. Findings (refutations): control queries after a CTL or another control query are dropped without a verdict; if a place has more than 2^31 - 1 tokens the simplification stops after the first query and the CTL engine, which needs pushed negations, answers later ones wrong; the siphon-trap analysis has no effect on any run. Not modelled: state-space exploration, bounds queries, replay, writing of files; the reduction, the LTL engine and TAR remain parameters; negated control queries (wrapped by the simplification) are left out; lines printed before an exception inside the search are not kept.

- **C43 PNML reading and writing.** Modelled (`PnmModel.v`): `PNMLParser::parse`, `parseElement`, `parsePlace`, `parseArc`, `parseTransportArc`, `parseTransition`, `parseQueries`, `parseValue`, `atoi`/`atoll` (undefined when the number does not fit), and `PetriNet::toXML`, on the XML trees that rapidxml gives; the arcs are handed to the builder model of C03. The specification (`PnmSpec.v`) says which items (places with tokens, transitions with players, weighted arcs, inhibitor arcs) a tree has, through any nesting of pages, and when an item list fires a transition. Proved by induction over the tree and the C03 theorem: the net read is the net described; a written net is read back as the same net up to numbering. Not modelled: the text level of XML (names are not escaped by the writer), coordinates, messages on stderr, the coloured parts (C36), assertions (release build). The player is kept for transitions with a normal input arc (C03 finding: the others are always controllable). Findings: negative weights become 2^32 - 1, text after a number is ignored, arcs to unknown names are left out, inhibitor arcs from transitions become output arcs, transport arcs read an uninitialised flag, a file without a net element dereferences null, and weights from 2^31 are written but cannot be read. No axioms.

- **C44 The net without colours.** Modelled (`IgnModel.v`): `ColorIgnorantPetriNetBuilder` as the sequence of calls it makes to the net builder of C03 (places with all their tokens, arcs with the minimal number of tokens, for nets with subtractions one variant of a transition for each choice of numbers, inhibitor arcs), and (`IgnCheck.v`) `checkCardinalityColorIgnorantLP` with the model of `pushNegation` (C11), `evaluate` (C10) and, for `simplify_queries`, either anything that gives right constants or the model of C15. Proved: the net follows every run of the coloured net (induction on runs; the builder theorem of C03; the count of a compiled arc is the total of its multiset; the odometer visits every choice of numbers, by a lexicographic measure), and what the check answers about numbers of tokens is right. Refuted: the net is built for every well-formed coloured net (an inhibitor arc in a net with a subtraction makes the tool throw). Simplification: the places of the query get their numbers before the negations are pushed, not after; transitions are visited in the order of their numbers. Also modelled (`IgnFireModel.v`): `checkFireabilityColorIgnorantLP` with `contextAnalysis`, the evaluation of `IgnorantFireabilityVisitor` with three values, `FireabilitySearch::checkQueries` and the search, with every order of the waiting list and every moment at which the time is up. Proved: the two-sided reading of a formula (certainly true, possibly true) is kept exactly by `pushNegation` and the merging of conditions (`IgnFireTv.v`, induction on formulas), the search visits all markings (`IgnFireSearch.v`, invariant), the transition that keeps its name needs at most what the coloured one takes (`ignorant_full`), hence the answers are right for transitions that take tokens. Refuted without that condition: a transition without input arcs becomes `true` although its guard may never hold.

- **C45** (IntvModel, IntvSpec, IntvProofs, IntvMore, IntvMain, PropertiesIntv): the intervals and
  lists of intervals of Intervals.h, and intersection and subtraction of equivalence classes.
  A colour is a list of numbers, an interval is the product of its ranges (`inb`), a list the
  union of its intervals (`inv`). Every operation is proved to keep all colours it should keep,
  by induction over the lists; overlap, containment, subtraction of intervals and shifting are
  exact; the others are exact for one component. 32-bit distances and the 32-bit successor of an
  upper bound are modelled with their wrap, and the theorems state the bounds under which they do
  not wrap. Merging neighbours needs an invariant: what a removed interval would gather is
  already removed. Refuted: subtraction of a class leaves nothing of it (`intervalSubRes.empty()`
  is also true when everything was removed); subtraction of a class without intervals keeps
  everything; the lower bounds of a shifted list have an entry for every component. Not modelled:
  the id-based constructors, hasValidIntervals, printing, EquivalenceVec, the partition builder.

- **C46** (removal of dead transitions from coloured nets). `ColRedModel.v` models the rule (RedRuleDeadTransitions.cpp apply, markingEnablesInArc) and the functions of ColoredReducer.cpp it uses (skipPlace, skipTransition, getInArc, getOutArc, getBindingCount) on the coloured nets, multisets and bindings of `ColModel.v`; `ColRedSpec.v` has the runs of a net with removed transitions. Proved by an invariant: while the consumers of a place put back what they take, the tokens of the place never grow beyond the initial marking, so a transition whose arc is not enabled there for any binding is dead. The test on printed expressions is an arbitrary test for which equal expressions mean the same, the subset test on multisets of variables (VarMultiset.cpp) and the clock are arbitrary. Found on the way: the place is removed if the number of dead consumers equals the number of its *producers*; with a live consumer beside a dead one that puts nothing back, the place is removed although the live consumer depends on it (`C46_dead_transitions_refuted`: a marking appears that the net cannot reach). The proved theorem asks that consumers of places outside the query put tokens back. For every net it is proved that the rule ends, keeps what the query is about and that every run of the net is still a run of the reduced net (`C46_no_run_lost`, `ColRedTotal.v`). The other coloured reduction rules are not modelled.

- **C47** (removal of redundant places from coloured nets). `ColRdpModel.v` models the rule (RedRuleRedundantPlaces.cpp apply, markingEnablesInArc) and the multisets of variables it compares (VarMultiset.cpp, ArcVarMultisetVisitor.cpp extractVarMultiset), on top of `ColRedModel.v`. Proved: the multiset of variables of an expression means the same as the expression (`C47_var_multisets`); the tokens of a removed place never fall below its initial marking, which enables every consumer with every binding, so firing sequences are the same in both directions (`C47_redundant_places`). Found on the way: comparing the multiset of a variable of a product type with that of a tuple of variables throws an exception on a well-formed net (`C47_no_error_refuted`); without variables of product types the rule ends without an error (`C47_no_error_partial`).

- C48: RedRulePreemptiveFiring.cpp is modelled in ColPreModel.v (initial markings stay expressions, so adding tokens is the sum of two expressions; the read of the cleared list of consumers is a parameter, undefined behaviour in C++).  Refuted in three ways: tokens of a colour the transition cannot take are moved, tokens the transition puts back on the place are lost, and the list of consumers is read after it is cleared (C48_tokens_invented_refuted, C48_tokens_lost_refuted, C48_no_undefined_refuted).  C48_answers_partial: with transitions that take one token of any colour and put none back, every query about a reachable marking has the same answer; by a simulation in both directions (ColPreMove.v) in which the tokens moved early are those still waiting in the original net.

- C49: RedRuleRelevance.cpp is modelled in ColRelModel.v (the flags as lists, the list of transitions still to be looked at as a stack; the early return when the time is up is left out).  C49_tokens_partial: for nets without inhibitor arcs the same tokens can be on the places of the query, by the invariant of the worklist and a simulation in which the places that matter hold at least as many tokens (ColRelMain.v).  Refuted for fireability: a transition that takes tokens from an input place of a transition of the query is removed if that transition was flagged before (C49_fireable_refuted), and with inhibitor arcs: the weight of a subtraction is not the number of tokens it takes (C49_inhibitor_refuted).  C49_ends_partial: the rule ends without an error if no variable has tuples as values (ColRelTotal.v).  C49_answers_partial: the answers about transitions as well, if no transition of the query has an arc to or from a place of the query or an input place of another transition of the query (then none is flagged before its turn).  C49_inhibited_refuted: with inhibitor arcs this fails for a single transition, because the places that inhibit it are not treated as places of the query.  Missing: inhibitor arcs without subtractions.

The rest of this file is extended as modules are added.
