{
 "claims": [
  {
   "property": "C01",
   "status": "proved",
   "theorems": [
    "C01_successors_exact",
    "C01_fireable_exact",
    "C01_arc_weights_exact",
    "C02_no_places_refuted"
   ],
   "note": "Holds for every layout the builder produces (C03). Boundary finding: nets without places (C02_no_places_refuted)."
  },
  {
   "property": "C02",
   "status": "proved",
   "theorems": [
    "C02_deadlock_exact",
    "C02_no_places_refuted"
   ],
   "note": "Nets with at least one place; the no-place case is refuted."
  },
  {
   "property": "C03",
   "status": "proved",
   "theorems": [
    "C03_builder_preserves_behaviour",
    "C03_builder_accepts_exactly",
    "C03_controllable_refuted"
   ],
   "note": "The controllable flag of transitions without normal inputs is a finding (refuted)."
  },
  {
   "property": "C04",
   "status": "proved",
   "theorems": [
    "C04_encode_round_trip"
   ],
   "note": "All encodings; any earlier scratchpad contents."
  },
  {
   "property": "C05",
   "status": "proved",
   "theorems": [
    "C05_store_is_a_set",
    "C05_identifiers_stable"
   ],
   "note": "The prefix tree itself (external library) is represented by the list of its keys."
  },
  {
   "property": "C09",
   "status": "proved",
   "theorems": [
    "C09_token_bound",
    "C09_wrap_refuted"
   ],
   "note": "Totals below 2^32; the 32-bit wrap is a finding (refuted)."
  },
  {
   "property": "C06",
   "status": "proved",
   "theorems": [
    "C06_satisfied_has_witness"
   ],
   "note": "Hypothesis 'searchable': at most 2^32 reachable markings (the waiting lists store 32-bit identifiers), initial marking within 32-bit tokens, layout as produced by the builder."
  },
  {
   "property": "C07",
   "status": "proved",
   "theorems": [
    "C07_negative_is_exhaustive",
    "C07_answers_exact",
    "C07_search_ends",
    "C07_token_bound_refuted"
   ],
   "note": "Hypothesis 'searchable': at most 2^32 reachable markings (the waiting lists store 32-bit identifiers), initial marking within 32-bit tokens, layout as produced by the builder. With a token bound that cuts off markings, 'not satisfied' refers to the bounded state space only; that the tool still reports a definite answer is a finding (refuted)."
  },
  {
   "property": "C08",
   "status": "proved",
   "theorems": [
    "C08_trace_is_a_run"
   ],
   "note": "Hypothesis 'searchable': at most 2^32 reachable markings (the waiting lists store 32-bit identifiers), initial marking within 32-bit tokens, layout as produced by the builder."
  },
  {
   "property": "C23",
   "status": "proved",
   "theorems": [
    "C23_bounds_exact"
   ],
   "note": "Hypothesis 'searchable': at most 2^32 reachable markings (the waiting lists store 32-bit identifiers), initial marking within 32-bit tokens, layout as produced by the builder."
  },
  {
   "property": "C30",
   "status": "partial",
   "theorems": [
    "C30_bfs_is_a_bag",
    "C30_dfs_is_a_bag",
    "C30_rdfs_is_a_bag",
    "C30_heuristic_is_a_bag",
    "C30_heuristic_order",
    "C30_potency_is_a_bag_partial",
    "C30_potency_pop_defined",
    "C30_potency_pop_refuted"
   ],
   "note": "BFS, DFS, random DFS and heuristic queues in full. The random-potency queue is a bag except that a pop can index out of bounds when a 32-bit potency wraps to zero (refuted)."
  },
  {
   "property": "C31",
   "status": "proved",
   "theorems": [
    "C31_statistics_exact"
   ],
   "note": "Hypothesis 'searchable': at most 2^32 reachable markings (the waiting lists store 32-bit identifiers), initial marking within 32-bit tokens, layout as produced by the builder. The total number of tokens is the 32-bit sum the tool computes."
  },
  {
   "property": "C10",
   "status": "proved",
   "theorems": [
    "C10_evaluation_sound",
    "C10_evaluation_sound_on_runs",
    "C10_runs_exist",
    "C10_sum_value",
    "C10_product_value",
    "C10_expression_value"
   ],
   "note": "Definite answers of evaluate are correct in CTL* semantics over maximal runs; numbers in the range of the machine types."
  },
  {
   "property": "C11",
   "status": "proved",
   "theorems": [
    "C11_push_negation_preserves",
    "C11_push_negation_preserves_ltl",
    "C11_push_negation_defined",
    "C11_products_refuted"
   ],
   "note": "For formulas whose expressions are in range; uses classical logic. Termination is not claimed (fuel). Finding: products of places and 32-bit literals (refuted)."
  },
  {
   "property": "C12",
   "status": "proved",
   "theorems": [
    "C12_makeOr_makeAnd_exact",
    "C12_vacuous_refuted",
    "C12_negative_refuted",
    "C12_truncated_refuted"
   ],
   "note": "Comparison constants in the 32-bit range; boundary constants are findings (refuted)."
  },
  {
   "property": "C13",
   "status": "proved",
   "theorems": [
    "C13_fireable",
    "C13_fireable_any",
    "C13_k_safe",
    "C13_quasi_live",
    "C13_live",
    "C13_stable",
    "C13_stable_groups",
    "C13_zero_inhibitor_refuted"
   ],
   "note": "Inhibitor arcs of positive weight; the weight-0 inhibitor is a finding (refuted)."
  },
  {
   "property": "C14",
   "status": "proved",
   "theorems": [
    "C14_prepared_goal",
    "C14_answers",
    "C14_prepare_path_refuted"
   ],
   "note": "Uses classical logic. C14_answers composes preparation, search without token bound and the result printer."
  },
  {
   "property": "C27",
   "status": "partial",
   "theorems": [
    "C27_isReachability",
    "C27_isTemporal",
    "C27_containsNext",
    "C27_containsDeadlock",
    "C27_nested_deadlock_sound",
    "C27_nested_deadlock_partial",
    "C27_nested_deadlock_refuted",
    "C27_loop_sensitive_partial",
    "C27_loop_sensitive_refuted"
   ],
   "note": "The first four classifications are exact. hasNestedDeadlock and isLoopSensitive are false in general (refuted: flags leak between operands); proved for formulas where the leak cannot happen."
  },
  {
   "property": "C26",
   "status": "proved",
   "theorems": [
    "C26_accepted_is_run",
    "C26_run_is_accepted",
    "C26_after_deadlock_refuted",
    "C26_loop_at_end_refuted"
   ],
   "note": "'right' in ReplaySpec.v; entries after a deadlock entry and a final loop tag are not checked by the code (findings)."
  },
  {
   "property": "C25",
   "status": "proved",
   "theorems": [
    "C25_deque_is_a_list",
    "C25_assign_empty_refuted"
   ],
   "note": "All member functions but the implicit copy constructor (which would share the buffer) and self-assignment; assigning an empty deque is a finding (refuted)."
  },
  {
   "property": "C32",
   "status": "proved",
   "theorems": [
    "C32_next_distinct",
    "C32_cells_stable"
   ],
   "note": "Every interleaving of atomic accesses, sequentially consistent; identifiers are unbounded numbers in the model (32/64-bit wrap not modelled)."
  },
  {
   "property": "C18",
   "status": "proved",
   "theorems": [
    "C18_certain_zero",
    "C18_local"
   ],
   "note": "Whole certain-zero algorithm and whole local algorithm with edge reference counts, all schedules, for stratified graphs (each configuration at one negation depth). Termination is not claimed."
  },
  {
   "property": "C17",
   "status": "proved",
   "theorems": [
    "C17_graph_encodes_ctl",
    "C17_ctl_answer",
    "C17_ctl_single_answer",
    "C17_rewritten_ctl_in_fragment",
    "C17_ctl_query"
   ],
   "note": "Every CTL query in the fragment produced by negation rewriting (and proved to be). The graph without partial-order reduction; the marking store is C05. Nets whose reachable markings do not overflow the counters. Uses classical logic and choice from the standard library."
  },
  {
   "property": "C16",
   "status": "proved",
   "theorems": [
    "C16_query_round_trip",
    "C16_meaning_kept",
    "C16_file_round_trip",
    "C16_constant_refuted"
   ],
   "note": "All formulas whose numbers fit the fields of the format; a 64-bit constant of a sum does not and is truncated (refuted)."
  },
  {
   "property": "C15",
   "status": "proved",
   "theorems": [
    "C15_simplification_keeps_meaning",
    "C15_same_answer_initially",
    "C15_crash_refuted",
    "C15_truncation_refuted"
   ],
   "note": "Whole simplifier, all formulas of CTL and LTL, every sound solver and clock. The claim is about queries whose values fit the ints used (query_ok); outside of that range it is false (C15_truncation_refuted), and there are runs with undefined behaviour (C15_crash_refuted). Uses classic."
  },
  {
   "property": "C28",
   "status": "proved",
   "theorems": [
    "C28_member_gives_change",
    "C28_triviality_test"
   ],
   "note": "All expressions and firing sequences."
  },
  {
   "property": "C29",
   "status": "proved",
   "theorems": [
    "C29_state_equation"
   ],
   "note": "All conjunctions of comparisons, also that the program is never judged impossible."
  },
  {
   "property": "C20",
   "status": "proved",
   "theorems": [
    "C20_range_operations",
    "C20_precondition_arithmetic",
    "C20_vector_operations",
    "C20_inclusion",
    "C20_restricts",
    "C20_order",
    "C20_intersection_shape_refuted",
    "C20_false_refuted"
   ],
   "note": "Two expected claims are refuted: the intersection of vectors can repeat a place, after which comparison is not exact, and the encoding of the empty set contains the zero marking."
  },
  {
   "property": "C24",
   "status": "proved",
   "theorems": [
    "C24_antichain",
    "C24_stored"
   ],
   "note": "Complete for AntiChain.h; std::includes is modelled as its merge algorithm on sorted sequences."
  },
  {
   "property": "C21",
   "status": "proved",
   "theorems": [
    "C21_goals_preserved",
    "C21_generator",
    "C21_search_exact",
    "C21_search_ends",
    "C21_unary_minus_refuted",
    "C21_negative_factor_refuted",
    "C21_large_value_refuted"
   ],
   "note": "Reduced exploration and the whole reduced search are exact for goals without unary minus of places, without a single factor with a negative constant, and with compared values in 32 bits; each exclusion is shown necessary by a refutation theorem about the modelled code."
  },
  {
   "property": "C22",
   "status": "partial",
   "theorems": [
    "C22_rule_a",
    "C22_rule_f",
    "C22_rule_fno",
    "C22_rule_g",
    "C22_rule_j",
    "C22_rule_l",
    "C22_rule_q",
    "C22_rule_efmnop",
    "C22_rule_d",
    "C22_rule_d0",
    "C22_rule_c",
    "C22_rule_m",
    "C22_rule_i",
    "C22_rule_h",
    "C22_rule_r",
    "C22_rule_b",
    "C22_rule_s",
    "C22_sequence",
    "C22_sequence_all",
    "C22_rule_ep_refuted",
    "C22_rule_j_refuted",
    "C22_rule_d_refuted",
    "C22_rule_d_wrap_refuted",
    "C22_rule_c_refuted",
    "C22_rule_i_refuted",
    "C22_rule_r_refuted",
    "C22_rule_b_rest_refuted",
    "C22_rule_b_mult_refuted",
    "C22_rule_b_inhibitor_refuted",
    "C22_rule_s_query_refuted",
    "C22_rule_s_share_refuted",
    "C22_rule_s_moved_refuted"
   ],
   "note": "Rules A, B, C, D, EFMNOP, F, N, O, G, H, I, J, L, M, Q, R, S, T and their sequences, some under side conditions whose need is shown by the refuted theorems. Missing: properties other than reachability (deadlocks, LTL, CTL), trace reconstruction, rule K."
  },
  {
   "property": "C19",
   "status": "proved",
   "theorems": [
    "C19_no_deadlock",
    "C19_siphon_trap",
    "C19_built_nets",
    "C19_no_transitions_refuted"
   ],
   "note": "STSolver::solve; every time-out and random choice; refuted for nets with marked places and no transitions"
  },
  {
   "property": "C33",
   "status": "proved",
   "theorems": [
    "C33_query_ndfs",
    "C33_query_tarjan",
    "C33_query",
    "C33_query_accepted",
    "C33_ndfs",
    "C33_tarjan",
    "C33_generator",
    "C33_simplify",
    "C33_simplify_call",
    "C33_ids",
    "C33_ids_distinct",
    "C33_ids_refuted",
    "C33_nested_refuted",
    "C33_simplify_refuted"
   ],
   "note": "Both searches for every net, automaton, successor order, hash function and token bound, and the way from the query to the automaton and back, for every query A f / E f over LTL path formulas; the library spot is an oracle that translates right. Findings: C33_ids_refuted (more than 2^20 automaton states collide), C33_nested_refuted (the validator does not look at the right operand of an until, so a nested quantifier is dropped), C33_simplify_refuted (a query EF f is simplified to A F f). Uses Classical_Prop.classic in the query theorems."
  },
  {
   "property": "C34",
   "status": "proved",
   "theorems": [
    "C34_arc_expressions",
    "C34_tuple_numbering",
    "C34_bindings",
    "C34_unfolding",
    "C34_unfolding_compiled",
    "C34_names_distinct",
    "C34_inhibiting_query_refuted",
    "C34_both_arcs_refuted"
   ],
   "note": "Every well-typed coloured net, unfolded by enumerating all bindings; colour fixed point, partitioning and symmetries are not modelled. Token counts are for places without inhibitor arcs, with the need shown by C34_inhibiting_query_refuted."
  },
  {
   "property": "C35",
   "status": "proved",
   "theorems": [
    "C35_reach_yes",
    "C35_reach_no",
    "C35_safe_yes",
    "C35_safe_no",
    "C35_terminates",
    "C35_safety_refuted"
   ],
   "note": "All nets, predicates, bounds and search orders, without partial-order reduction. The negative answer to safety queries needs that no controllable transition loops in a reachable marking, as C35_safety_refuted shows."
  },
  {
   "property": "C36",
   "status": "partial",
   "theorems": [
    "C36_guards_partial",
    "C36_inscriptions_partial",
    "C36_initial_markings_partial",
    "C36_double_negation_refuted",
    "C36_three_conjuncts_refuted",
    "C36_tuple_sum_refuted",
    "C36_all_product_refuted",
    "C36_shared_name_refuted"
   ],
   "note": "Proved for all trees without the constructs shown to be read wrongly by the refuted theorems; range constants and partitions are not modelled."
  },
  {
   "property": "C37",
   "status": "partial",
   "theorems": [
    "C37_fixed_answers_partial",
    "C37_even_answers_partial",
    "C37_fixed_traces_partial",
    "C37_even_traces_partial",
    "C37_even_in_bounds_refuted",
    "C37_answers_not_full_refuted",
    "C37_constant_tuples_refuted",
    "C37_subtractions_refuted",
    "C37_parallel_arcs_refuted",
    "C37_negative_numbers_refuted"
   ],
   "note": "Proved for well-typed nets with exp_ok (the refuted theorems show wrong answers without it), for every search order and both successor orders, with traces. Missing: variables of product sorts."
  },
  {
   "property": "C38",
   "status": "partial",
   "theorems": [
    "C38_read_query",
    "C38_read_file",
    "C38_write_read_partial",
    "C38_to_ctl_partial",
    "C38_ctl_accepted",
    "C38_numbers_refuted",
    "C38_large_numbers_refuted",
    "C38_large_products_refuted",
    "C38_write_bound_refuted",
    "C38_write_limit_refuted",
    "C38_write_empty_sum_refuted",
    "C38_write_spaces_refuted",
    "C38_names_refuted",
    "C38_no_formula_refuted",
    "C38_dropped_refuted",
    "C38_path_query_refuted",
    "C38_control_path_refuted"
   ],
   "note": "Reading is proved for all well-formed trees whose numbers fit. Writing is proved for all formulas but global properties, bounds, limits above 2147483647, empty sums and names with white space; translation to CTL for all but formulas on runs and control of these. The refuted theorems show that these cases fail."
  },
  {
   "property": "C39",
   "status": "partial",
   "theorems": [
    "C39_satisfied_partial",
    "C39_not_satisfied_partial",
    "C39_inhibitor",
    "C39_disjunction_refuted",
    "C39_deadlock_refuted",
    "C39_equality_refuted"
   ],
   "note": "proved for queries whose operands compare different places; wrong answers exist outside this class (refuted with witnesses), and negative answers are proved if no reachable marking is empty"
  },
  {
   "property": "C40",
   "status": "proved",
   "theorems": [
    "C40_composition",
    "C40_search",
    "C40_search_stubborn",
    "C40_search_tar",
    "C40_answer",
    "C40_answer_stubborn",
    "C40_answer_tar",
    "C40_unrewritten_refuted",
    "C40_token_bound_refuted"
   ],
   "note": "Without a token bound. With trace abstraction refinement for the goals on which C39 is proved. The LTL engine enters as any search with right answers (C33) and an automaton library that translates right; the two refutations show why queries have to be rewritten first and that a token bound makes the answer depend on the search order."
  },
  {
   "property": "C41",
   "status": "partial",
   "theorems": [
    "C41_satisfied_has_witness",
    "C41_ends_with_all_satisfied",
    "C41_outcomes",
    "C41_every_goal_can_be_found",
    "C41_traces_are_runs_refuted",
    "C41_printing_defined_refuted",
    "C41_within_bound_refuted",
    "C41_long_walk_defined_refuted"
   ],
   "note": "Witnesses, positive answers only and reachability of every goal are proved. That every printed trace is a run holds for the first printed trace (so for one query) and is refuted for several queries; goals on nets whose first place can hold 2^32-1 tokens and potencies that exceed 32 bits are excluded."
  },
  {
   "property": "C42",
   "status": "partial",
   "theorems": [
    "C42_verdicts_right",
    "C42_at_most_once",
    "C42_all_answered",
    "C42_all_answered_refuted",
    "C42_search",
    "C42_synthesis",
    "C42_tool",
    "C42_rewriting",
    "C42_verdicts_refuted",
    "C42_over_approximation",
    "C42_siphon_never_used"
   ],
   "note": "Proved for every choice of parts that meet their specification, and end to end for CTL and control queries with the real search, CTL engine and synthesis (no reduction, no LP). Reduction, LTL engine and TAR are parameters. That every query gets a verdict is refuted for control queries beside other queries; verdicts are refuted for markings beyond the LP bounds with default options."
  },
  {
   "property": "C43",
   "status": "proved",
   "theorems": [
    "C43_reading",
    "C43_round_trip",
    "C43_round_trip_refuted",
    "C43_negative_weight_refuted",
    "C43_garbage_refuted",
    "C43_unknown_name_refuted",
    "C43_inhibitor_output_refuted",
    "C43_undefined_refuted"
   ],
   "note": "Weights from 1 to 2^31-1; the player for transitions with a normal input arc. The refutations are findings about files outside the claim (negative weights, unknown names, transport arcs) and nets whose weights do not fit an int."
  },
  {
   "property": "C44",
   "status": "partial",
   "theorems": [
    "C44_over_approximation",
    "C44_cardinality",
    "C44_cardinality_simplified",
    "C44_fireability",
    "C44_always_built_refuted",
    "C44_fireability_refuted"
   ],
   "note": "Proved for queries about numbers of tokens, and for queries about fireable transitions that take tokens from some place. Findings: a net with a subtraction and an inhibitor arc makes the check throw; a transition without input arcs is taken to be fireable although its guard may never hold."
  },
  {
   "property": "C45",
   "status": "partial",
   "theorems": [
    "C45_overlap",
    "C45_contains",
    "C45_subtract_interval",
    "C45_add",
    "C45_simplify",
    "C45_constrain_lower",
    "C45_constrain_upper",
    "C45_shift",
    "C45_restrict",
    "C45_combine",
    "C45_class_intersect",
    "C45_class_subtract_partial",
    "C45_class_subtract_exact",
    "C45_class_subtract_refuted",
    "C45_subtract_empty_refuted",
    "C45_shifted_bounds_refuted"
   ],
   "note": "Subtraction of classes is wrong of the code in general (refuted with witnesses); it loses no colour, and is exact for one component if no interval is used up before the last one subtracted."
  },
  {
   "property": "C46",
   "status": "partial",
   "theorems": [
    "C46_dead_transitions_partial",
    "C46_no_run_lost",
    "C46_dead_transitions_refuted"
   ],
   "note": "For every net the rule ends, keeps what the query is about and loses no run (C46_no_run_lost). The same runs are proved for nets in which every consumer of a place outside the query also puts tokens on it; false otherwise (C46_dead_transitions_refuted: the rule compares the number of dead consumers with the number of producers and removes a place a live transition depends on). Equality of printed expressions is a test for which equal expressions mean the same; VarMultiset is an arbitrary test. Other coloured reduction rules are not modelled."
  },
  {
   "property": "C47",
   "status": "partial",
   "theorems": [
    "C47_redundant_places",
    "C47_no_error_partial",
    "C47_var_multisets",
    "C47_no_error_refuted"
   ],
   "note": "The runs are proved the same for every net on which the rule ends. That it ends without an error is proved if no variable is of a product type, and false otherwise (C47_no_error_refuted: VarMultiset throws when a variable for pairs meets a pair of variables)."
  },
  {
   "property": "C48",
   "status": "partial",
   "theorems": [
    "C48_answers_partial",
    "C48_tokens_invented_refuted",
    "C48_tokens_lost_refuted",
    "C48_no_undefined_refuted"
   ],
   "note": "False of the code in three ways: tokens of a colour the transition cannot take are moved, tokens put back on the place are lost, and a list is read after it is cleared. Proved for nets whose guardless transitions with one input take one token of any colour and put none back on that place; that the rule ends without an error is not proved."
  },
  {
   "property": "C49",
   "status": "partial",
   "theorems": [
    "C49_tokens_partial",
    "C49_answers_partial",
    "C49_ends_partial",
    "C49_fireable_refuted",
    "C49_inhibitor_refuted",
    "C49_inhibited_refuted"
   ],
   "note": "The tokens on the places of the query are proved the same for nets without inhibitor arcs, and false with them (C49_inhibitor_refuted: weights of subtractions). The rule ends without an error if no variable is of a product type. C49_answers_partial has the transitions of the query too, if none of them is next to a place of the query or to an input place of another one; false with inhibitor arcs (C49_inhibited_refuted: the places that inhibit a transition of the query are not treated as places of the query). False in general (C49_fireable_refuted: the input places of a transition of the query that was flagged before are not treated as places of the query)."
  }
 ]
}