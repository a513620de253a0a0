{
 "claims": [
  {
   "property": "C01",
   "status": "proved",
   "theorems": [
    "C01_build_verdict"
   ],
   "note": ""
  },
  {
   "property": "C02",
   "status": "proved",
   "theorems": [
    "C02_build_content"
   ],
   "note": ""
  },
  {
   "property": "C03",
   "status": "proved",
   "theorems": [
    "C03_accepted_closed"
   ],
   "note": ""
  },
  {
   "property": "C04",
   "status": "partial",
   "theorems": [
    "C04_mentioned_reachable_partial",
    "C04_reachable_accepted",
    "C04_unreachable_rule_accepted_refuted",
    "C04_start_reported_refuted"
   ],
   "note": "REFUTED as stated: a rule whose head is never mentioned is accepted although unreachable, and a start symbol mentioned only from an unreachable rule is reported unreachable. Proved: both counterexamples; every nonterminal mentioned in a body is reachable; a fully reachable, defined rule list is accepted."
  },
  {
   "property": "C05",
   "status": "proved",
   "theorems": [
    "C05_wrap_total",
    "C05_wrap_language",
    "C05_wrap_rules"
   ],
   "note": ""
  },
  {
   "property": "C06",
   "status": "proved",
   "theorems": [
    "C06_start_prod",
    "C06_start_prod_any"
   ],
   "note": ""
  },
  {
   "property": "C07",
   "status": "proved",
   "theorems": [
    "C07_nullable_decides"
   ],
   "note": ""
  },
  {
   "property": "C08",
   "status": "proved",
   "theorems": [
    "C08_nullable_verdict"
   ],
   "note": ""
  },
  {
   "property": "C09",
   "status": "proved",
   "theorems": [
    "C09_nullable_action"
   ],
   "note": ""
  },
  {
   "property": "C22",
   "status": "proved",
   "theorems": [
    "C22_bfs_result",
    "C22_bfs_terminates"
   ],
   "note": ""
  },
  {
   "property": "C23",
   "status": "proved",
   "theorems": [
    "C23_fixed_point"
   ],
   "note": ""
  },
  {
   "property": "C24",
   "status": "proved",
   "theorems": [
    "C24_merge_value_pairs"
   ],
   "note": ""
  },
  {
   "property": "C25",
   "status": "proved",
   "theorems": [
    "C25_collect_map_history"
   ],
   "note": ""
  },
  {
   "property": "C26",
   "status": "partial",
   "theorems": [
    "C26_apply_fixed_point_diverges_refuted",
    "C26_apply_fixed_point_empty_partial"
   ],
   "note": "REFUTED: with a non-empty target apply_fixed_point never returns (currs is never updated).  Proved: that divergence, and that it returns on an empty target."
  },
  {
   "property": "C30",
   "status": "proved",
   "theorems": [
    "C30_change_iter",
    "C30_change_iter_panics",
    "C30_change_loop"
   ],
   "note": ""
  },
  {
   "property": "C53",
   "status": "proved",
   "theorems": [
    "C53_rule_order",
    "C53_prod_order"
   ],
   "note": ""
  },
  {
   "property": "C14",
   "status": "proved",
   "theorems": [
    "C14_firsts"
   ],
   "note": ""
  },
  {
   "property": "C15",
   "status": "partial",
   "theorems": [
    "C15_firsts_absent_refuted",
    "C15_firsts_absent_exact",
    "C15_firsts_present_partial"
   ],
   "note": "REFUTED: get is None for a nonterminal whose bodies are all empty (or only self-recursive).  Proved: the exact condition for None, and Some whenever FIRST is non-empty."
  },
  {
   "property": "C16",
   "status": "proved",
   "theorems": [
    "C16_follows_sound"
   ],
   "note": ""
  },
  {
   "property": "C17",
   "status": "partial",
   "theorems": [
    "C17_follows_incomplete_refuted",
    "C17_follows_complete_partial",
    "C17_follows_exact"
   ],
   "note": "REFUTED: a nullable symbol between A and t hides t.  Proved: completeness for grammars where no nullable nonterminal stands right after a nonterminal (in particular those without nullable nonterminals), and the exact content in general."
  },
  {
   "property": "C18",
   "status": "partial",
   "theorems": [
    "C18_follows_panics_refuted",
    "C18_follows_verdict"
   ],
   "note": "REFUTED: Follows unwraps Firsts::get and panics when it is None.  Proved: termination and the exact condition for Ok / Err / panic."
  },
  {
   "property": "C10",
   "status": "proved",
   "theorems": [
    "C10_nonnull_no_empty"
   ],
   "note": ""
  },
  {
   "property": "C11",
   "status": "partial",
   "theorems": [
    "C11_nonnull_loses_words_refuted",
    "C11_nonnull_sound",
    "C11_nonnull_language_partial"
   ],
   "note": "REFUTED: nonempty words derived through a nullable production are lost.  Proved: the counterexample; inclusion on every grammar; equality when nullable productions derive only the empty word; exact language: C56."
  },
  {
   "property": "C12",
   "status": "proved",
   "theorems": [
    "C12_nonnull_verdict"
   ],
   "note": ""
  },
  {
   "property": "C13",
   "status": "proved",
   "theorems": [
    "C13_nonnull_variants",
    "C13_nonnull_keys_distinct"
   ],
   "note": ""
  },
  {
   "property": "C55",
   "status": "partial",
   "theorems": [
    "C55_nonnull_doc_example_refuted"
   ],
   "note": "REFUTED: the documented example is rejected (Err), because q's only production is itself nullable and is dropped. What happens in general: C12, C56."
  },
  {
   "property": "C56",
   "status": "proved",
   "theorems": [
    "C11_nonnull_language_exact"
   ],
   "note": ""
  },
  {
   "property": "C57",
   "status": "proved",
   "theorems": [
    "C15_firsts_absent_exact"
   ],
   "note": ""
  },
  {
   "property": "C58",
   "status": "proved",
   "theorems": [
    "C17_follows_exact"
   ],
   "note": ""
  },
  {
   "property": "C59",
   "status": "proved",
   "theorems": [
    "C18_follows_verdict"
   ],
   "note": ""
  },
  {
   "property": "C60",
   "status": "proved",
   "theorems": [
    "C26_apply_fixed_point_diverges_refuted",
    "C26_apply_fixed_point_empty_partial"
   ],
   "note": ""
  },
  {
   "property": "C19",
   "status": "proved",
   "theorems": [
    "C19_pass_runs_once",
    "C19_context_transparent",
    "C19_context_sound"
   ],
   "note": ""
  },
  {
   "property": "C20",
   "status": "proved",
   "theorems": [
    "C20_passes_terminate",
    "C20_recursion_detected",
    "C20_cycle_detected"
   ],
   "note": ""
  },
  {
   "property": "C21",
   "status": "partial",
   "theorems": [
    "C21_failed_pass_again_refuted"
   ],
   "note": "REFUTED: the failed pass leaves its in-progress marker, so the second request panics.  Exact behaviour: C61."
  },
  {
   "property": "C61",
   "status": "proved",
   "theorems": [
    "C61_failed_pass_panics"
   ],
   "note": ""
  },
  {
   "property": "C62",
   "status": "proved",
   "theorems": [
    "C62_std_passes",
    "C62_std_passes_eval",
    "C62_any_context"
   ],
   "note": ""
  },
  {
   "property": "C27",
   "status": "proved",
   "theorems": [
    "C27_names_are_values"
   ],
   "note": ""
  },
  {
   "property": "C28",
   "status": "proved",
   "theorems": [
    "C28_typemap_is_map",
    "C28_compare_never_panics"
   ],
   "note": ""
  },
  {
   "property": "C29",
   "status": "proved",
   "theorems": [
    "C29_mergable_map",
    "C29_insert_cow_agrees"
   ],
   "note": ""
  },
  {
   "property": "C36",
   "status": "partial",
   "theorems": [
    "C36_token_stream_refuted"
   ],
   "note": "REFUTED: the length test is the wrong way round, so every read of a non-empty stream panics.  Exact behaviour: C63."
  },
  {
   "property": "C63",
   "status": "proved",
   "theorems": [
    "C63_token_stream_exact",
    "C63_token_stream_next"
   ],
   "note": ""
  },
  {
   "property": "C37",
   "status": "proved",
   "theorems": [
    "C37_content_reads_back",
    "C37_content_stable",
    "C37_hash_consing",
    "C37_one_tree_returns"
   ],
   "note": ""
  },
  {
   "property": "C38",
   "status": "proved",
   "theorems": [
    "C38_alts_exact",
    "C38_add_alt_report",
    "C38_add_all_report"
   ],
   "note": ""
  },
  {
   "property": "C39",
   "status": "proved",
   "theorems": [
    "C39_mixing_panics"
   ],
   "note": ""
  },
  {
   "property": "C40",
   "status": "partial",
   "theorems": [
    "C40_dot_contains_root_refuted",
    "C40_dot_whole_forest_partial"
   ],
   "note": "REFUTED: the root (and its edges) is missing unless it lies on a cycle.  Proved: termination, everything strictly below the root with all edges.  Exact behaviour: C64."
  },
  {
   "property": "C64",
   "status": "proved",
   "theorems": [
    "C64_dot_strictly_below"
   ],
   "note": ""
  },
  {
   "property": "C41",
   "status": "proved",
   "theorems": [
    "C41_parse_terminates"
   ],
   "note": ""
  },
  {
   "property": "C42",
   "status": "proved",
   "theorems": [
    "C42_parse_accepts_only_words"
   ],
   "note": ""
  },
  {
   "property": "C43",
   "status": "proved",
   "theorems": [
    "C43_parse_rejects_only_nonwords"
   ],
   "note": ""
  },
  {
   "property": "C44",
   "status": "partial",
   "theorems": [
    "C44_syntax_error_refuted",
    "C44_unambiguous_word_refuted",
    "C44_left_recursive_sum_refuted",
    "C44_repo_example_refuted",
    "C44_syntax_error_panics",
    "C44_nullable_start_panics",
    "C44_parse_returns_partial"
   ],
   "note": "REFUTED: a syntax error panics (assertion in close_state), and state keys ignore the dot so that insert's length assertion fails, e.g. on id+id with the left-recursive sum grammar and on the repository's own example.  Proved: the counterexamples, the general panics, and that otherwise it returns.  Exact condition: C65."
  },
  {
   "property": "C45",
   "status": "proved",
   "theorems": [
    "C45_forest_complete"
   ],
   "note": ""
  },
  {
   "property": "C46",
   "status": "partial",
   "theorems": [
    "C46_forest_only_input_refuted"
   ],
   "note": "REFUTED: corresponding child nodes of two cuts are merged one by one, so trees with another yield can be read.  True in general: C66; under unique cuts: C67."
  },
  {
   "property": "C47",
   "status": "proved",
   "theorems": [
    "C47_prefix_free_parse",
    "C47_prefix_free_panics_iff",
    "C47_prefix_free_verdict"
   ],
   "note": ""
  },
  {
   "property": "C48",
   "status": "proved",
   "theorems": [
    "C48_layout_independent"
   ],
   "note": ""
  },
  {
   "property": "C65",
   "status": "proved",
   "theorems": [
    "C65_parse_panics_iff"
   ],
   "note": ""
  },
  {
   "property": "C66",
   "status": "proved",
   "theorems": [
    "C66_forest_conforms"
   ],
   "note": ""
  },
  {
   "property": "C67",
   "status": "proved",
   "theorems": [
    "C67_forest_exact"
   ],
   "note": ""
  },
  {
   "property": "C68",
   "status": "proved",
   "theorems": [
    "C68_parse_keeps_tree"
   ],
   "note": ""
  },
  {
   "property": "C69",
   "status": "proved",
   "theorems": [
    "C69_parse_is_api_history"
   ],
   "note": ""
  },
  {
   "property": "C31",
   "status": "proved",
   "theorems": [
    "C31_fresh_range_reads_text",
    "C31_as_str_never_panics",
    "C31_read_char"
   ],
   "note": ""
  },
  {
   "property": "C32",
   "status": "proved",
   "theorems": [
    "C32_advance_all_or_nothing",
    "C32_advance_is_reads"
   ],
   "note": ""
  },
  {
   "property": "C33",
   "status": "proved",
   "theorems": [
    "C33_remove_suffix_splits",
    "C33_remove_suffix_iff"
   ],
   "note": ""
  },
  {
   "property": "C34",
   "status": "proved",
   "theorems": [
    "C34_positions",
    "C34_position_unique",
    "C34_column_at_boundary"
   ],
   "note": "Grapheme segmentation (an external crate) is any function cutting a line into nonempty pieces; binary_search_by is any function meeting its documented contract (the standard algorithm is shown to)."
  },
  {
   "property": "C35",
   "status": "proved",
   "theorems": [
    "C35_key_order",
    "C35_key_order_transitive"
   ],
   "note": ""
  },
  {
   "property": "C70",
   "status": "proved",
   "theorems": [
    "C70_positions_ordered"
   ],
   "note": ""
  },
  {
   "property": "C49",
   "status": "proved",
   "theorems": [
    "C49_position",
    "C49_enumerates"
   ],
   "note": "The offsets of offset_elem are unbounded numbers here; machine integers: C116."
  },
  {
   "property": "C50",
   "status": "partial",
   "theorems": [
    "C50_add_holds_refuted"
   ],
   "note": "REFUTED: comparison ignores the position, so the second state of a production is dropped by add and absent from nexts.  Exact behaviour: C71."
  },
  {
   "property": "C51",
   "status": "proved",
   "theorems": [
    "C51_take_closure",
    "C51_closed",
    "C51_terminates",
    "C51_terminates_in_grammar",
    "C51_exact"
   ],
   "note": ""
  },
  {
   "property": "C71",
   "status": "proved",
   "theorems": [
    "C71_adds",
    "C71_nexts",
    "C71_complete",
    "C71_equality"
   ],
   "note": ""
  },
  {
   "property": "C52",
   "status": "partial",
   "theorems": [
    "C52_sound_partial",
    "C52_exact_partial",
    "C52_collision_refuted",
    "C52_nullable_refuted",
    "C52_panic_refuted"
   ],
   "note": "REFUTED as stated: a production in progress hides its own start, nullable symbols are not skipped, and a nonterminal without Firsts entry panics. Proved: sound for items of different productions with non-empty lookaheads and no such collision; exactly LR(1) closure if moreover nothing is nullable. Exact behaviour: C72."
  },
  {
   "property": "C72",
   "status": "proved",
   "theorems": [
    "C72_from_prod_lookahead"
   ],
   "note": ""
  },
  {
   "property": "C73",
   "status": "proved",
   "theorems": [
    "C73_shift_actions",
    "C73_reducable_actions"
   ],
   "note": ""
  },
  {
   "property": "C54",
   "status": "partial",
   "theorems": [
    "C54_deadlock_refuted",
    "C54_no_deadlock_readers_first_partial",
    "C54_no_deadlock_simple_calls_partial",
    "C54_no_deadlock_one_thread_partial",
    "C54_parsers_deadlock_refuted"
   ],
   "note": "REFUTED where waiting writers have priority (Linux futex RwLock): is_same takes a second read lock while holding one, so add_alt in one thread and make_node in another can block each other for good.  Proved: every schedule ends with all calls returned if readers have priority, or if only operations without nested locks are called, or with a single thread."
  },
  {
   "property": "C74",
   "status": "proved",
   "theorems": [
    "C74_atomic",
    "C74_never_poisoned",
    "C74_one_tree_returns",
    "C74_content_reads_back",
    "C74_same_handle",
    "C74_no_lost_alternative"
   ],
   "note": "A write section is one step of the model; to_dot among threads is C105."
  },
  {
   "property": "C75",
   "status": "proved",
   "theorems": [
    "C75_lazy_never_returns",
    "C75_lazy_waits_for_ever",
    "C75_lazy_deadlocks"
   ],
   "note": ""
  },
  {
   "property": "C76",
   "status": "proved",
   "theorems": [
    "C76_take_only",
    "C76_take_only_calls",
    "C76_take_only_list"
   ],
   "note": ""
  },
  {
   "property": "C77",
   "status": "proved",
   "theorems": [
    "C77_pretty_reads_back",
    "C77_same_text_same_grammar"
   ],
   "note": "The renderer (crate pretty) is any function that lays out each group flat or broken."
  },
  {
   "property": "C78",
   "status": "proved",
   "theorems": [
    "C78_pretty_tokens",
    "C78_wrapped_tokens"
   ],
   "note": ""
  },
  {
   "property": "C79",
   "status": "partial",
   "theorems": [
    "C79_actions_lost_refuted",
    "C79_names_confused_refuted",
    "C77_same_text_same_grammar"
   ],
   "note": "REFUTED: actions are not printed, a terminal named <S> looks like a nonterminal, a terminal named \u03b5 like an empty body.  Proved: the counterexamples; what holds: C77."
  },
  {
   "property": "C80",
   "status": "proved",
   "theorems": [
    "C80_ids_distinct",
    "C80_ids_valid",
    "C80_dot_statements"
   ],
   "note": "The concrete syntax of the statements is left to the crate dot; its identifier check is modelled."
  },
  {
   "property": "C81",
   "status": "proved",
   "theorems": [
    "C81_forest_pieces",
    "C81_leaves_are_tokens"
   ],
   "note": "Upper bound that holds where C46 is false; C45 is the lower bound."
  },
  {
   "property": "C82",
   "status": "proved",
   "theorems": [
    "C82_forest_layout",
    "C82_unique_cuts"
   ],
   "note": "For every layout memory can have (the productions of a rule one after the other, rules apart).  The exact contents of the forest are described in Proofs/EarleyExact.v (areads)."
  },
  {
   "property": "C83",
   "status": "proved",
   "theorems": [
    "C83_data_lawful",
    "C83_order_exact",
    "C83_same_orders",
    "C83_handles_lawful",
    "C83_positions_lawful",
    "C83_wrappers"
   ],
   "note": ""
  },
  {
   "property": "C84",
   "status": "proved",
   "theorems": [
    "C84_examples_build",
    "C84_simple_language",
    "C84_simple_nullable_language",
    "C84_ambiguous_nullable_language",
    "C84_paren_language",
    "C84_base_language",
    "C84_arithmetic_language",
    "C84_simple_earley_language",
    "C84_ambiguous_earley_language",
    "C84_simple_nullable_trees",
    "C84_ambiguous_nullable_trees",
    "C84_ambiguous_earley_trees",
    "C84_simple_parse",
    "C84_simple_earley_parse",
    "C84_nullable_parse_panics",
    "C84_paren_parse",
    "C84_arithmetic_parse",
    "C84_arithmetic_verdict"
   ],
   "note": "The languages and trees are the intended ones. The parser handles two of the eight grammars; the other six panic as stated."
  },
  {
   "property": "C85",
   "status": "proved",
   "theorems": [
    "C85_forest_size",
    "C85_new_alternatives",
    "C85_new_nodes",
    "C85_rounds"
   ],
   "note": "Bounds stated in Spec/SizeSpec.v, in the number of productions and of right-hand-side symbols and the length of the input; no hypothesis on the layout. The bound on rounds also gives termination with an explicit number of rounds."
  },
  {
   "property": "C86",
   "status": "proved",
   "theorems": [
    "C86_shared_parse",
    "C86_shared_reads",
    "C86_shared_keeps"
   ],
   "note": "Any operations of other threads between any two critical sections of the parser, except writes to nodes the parser made (their handles are not handed out before the parse ends). Blocking is C54."
  },
  {
   "property": "C87",
   "status": "proved",
   "theorems": [
    "C87_shared_dot",
    "C87_edge_without_vertex"
   ],
   "note": "The second theorem exhibits an export with an edge to an undeclared vertex, so the bounds of the first are all one can say."
  },
  {
   "property": "C88",
   "status": "proved",
   "theorems": [
    "C88_trees_trimmed",
    "C88_trees_recoverable",
    "C88_trees_all"
   ],
   "note": ""
  },
  {
   "property": "C90",
   "status": "proved",
   "theorems": [
    "C90_schedules_end",
    "C90_deadlock_shape",
    "C90_trap_is_deadlock",
    "C90_separate_trees",
    "C90_one_changer"
   ],
   "note": "The exact shape of the deadlocks of C54, and the programs that have none."
  },
  {
   "property": "C89",
   "status": "proved",
   "theorems": [
    "C89_nonnull_parse_accepts",
    "C89_nonnull_parse_accepts_all",
    "C89_nonnull_parse_forest",
    "C89_nonnull_parse_panics_iff"
   ],
   "note": "Composition of the transformation, the start rule and the parser."
  },
  {
   "property": "C91",
   "status": "proved",
   "theorems": [
    "C91_bfs",
    "C91_build",
    "C91_nullable",
    "C91_transform",
    "C91_firsts",
    "C91_follows"
   ],
   "note": "Fuel is the number of rounds after which a loop of the model is cut; the theorems say how much is always enough."
  },
  {
   "property": "C92",
   "status": "proved",
   "theorems": [
    "C92_derived_texts",
    "C92_error_text",
    "C92_build_error_text",
    "C92_grammar_text",
    "C92_grammar_text_styles",
    "C92_prod_text",
    "C92_prod_state_text",
    "C92_earley_state_text",
    "C92_tree_text",
    "C92_key_text",
    "C92_value_text",
    "C92_nullable_tree_text",
    "C92_start_and_actions_not_shown",
    "C92_names_confused",
    "C92_helper_list",
    "C92_helper_set",
    "C92_helper_tuple",
    "C92_helper_struct",
    "C92_helper_texts",
    "C92_wrapped_text",
    "C92_symbol_text",
    "C92_pass_error_texts",
    "C92_state_set_text"
   ],
   "note": "std::fmt's builders are modelled as documented. The last two theorems show what is not shown and that the condition on names is needed."
  },
  {
   "property": "C93",
   "status": "proved",
   "theorems": [
    "C93_same_rules",
    "C93_rule_order",
    "C93_overwritten",
    "C93_prod_order",
    "C93_rebuild"
   ],
   "note": ""
  },
  {
   "property": "C94",
   "status": "proved",
   "theorems": [
    "C94_sound",
    "C94_first_follow",
    "C94_passes",
    "C94_condition"
   ],
   "note": "Composition of the transformation with the passes; what C17 and C18 lack on the original grammar holds on the transformed one."
  },
  {
   "property": "C95",
   "status": "proved",
   "theorems": [
    "C95_idle",
    "C95_twice"
   ],
   "note": ""
  },
  {
   "property": "C96",
   "status": "proved",
   "theorems": [
    "C96_memory"
   ],
   "note": "For parsing see C48 (recognition) and C82 (forest)."
  },
  {
   "property": "C97",
   "status": "proved",
   "theorems": [
    "C97_build",
    "C97_grammar",
    "C97_nullables",
    "C97_firsts",
    "C97_follows",
    "C97_transform",
    "C97_parse"
   ],
   "note": "Parsing: the verdict or panic; the forest is C98."
  },
  {
   "property": "C98",
   "status": "proved",
   "theorems": [
    "C98_forest",
    "C98_reads",
    "C98_parse_trees",
    "C98_any_memory"
   ],
   "note": "Node by node if the order of the production addresses is kept; the trees that can be read, wherever the grammars lie."
  },
  {
   "property": "C99",
   "status": "proved",
   "theorems": [
    "C99_panic_message"
   ],
   "note": "The second text is the first line of assert_eq's message; the two numbers printed after it are not modelled."
  },
  {
   "property": "C100",
   "status": "partial",
   "theorems": [
    "C100_production_order_refuted",
    "C100_verdict_partial",
    "C100_unique_cuts_partial"
   ],
   "note": "REFUTED: completed productions are handled in the order in which they are listed, and the entry made first keeps its nodes; with 2 -> b c | c a tree that is no derivation can be read, with 2 -> c | b c not.  Proved: the counterexample; the verdict and the panic text never depend on the order, nor do the trees when every piece of the input is cut in one way."
  },
  {
   "property": "C101",
   "status": "proved",
   "theorems": [
    "C101_parse_among_threads",
    "C101_panic_among_threads",
    "C101_parsers"
   ],
   "note": "That the calls return is assumed (whether they do is C54, C90; C54_parsers_deadlock_refuted: two parsers can stop each other where writers have priority).  A thread's parse is identified by its calls and their results in order."
  },
  {
   "property": "C102",
   "status": "proved",
   "theorems": [
    "C102_state",
    "C102_start_state",
    "C102_transformed",
    "C102_shifted",
    "C102_shifted_word"
   ],
   "note": "The general theorem asks that no item is in progress in a production of a nonterminal expected next (C52: such a production's start is lost)."
  },
  {
   "property": "C103",
   "status": "partial",
   "theorems": [
    "C103_lawful",
    "C103_equal_exact",
    "C103_different_refuted"
   ],
   "note": "REFUTED: positions are not compared; C103_equal_exact says exactly when states compare equal, C103_lawful that the comparisons agree and form a total order."
  },
  {
   "property": "C104",
   "status": "proved",
   "theorems": [
    "C104_bfs_calls",
    "C104_bfs_panics",
    "C104_bfs_called_once",
    "C104_fixed_point_calls",
    "C104_fixed_point_panics",
    "C104_bfs_stateless",
    "C104_fixed_point_stateless"
   ],
   "note": "The last two relate the models used by C22, C23 and C01 to this one."
  },
  {
   "property": "C105",
   "status": "proved",
   "theorems": [
    "C105_export_among_threads",
    "C105_export_never_panics",
    "C105_edge_without_vertex"
   ],
   "note": "The last theorem is an execution with an edge to an undeclared vertex."
  },
  {
   "property": "C106",
   "status": "proved",
   "theorems": [
    "C106_as_if_never_called",
    "C106_content_reads_back",
    "C106_alts_exact",
    "C106_panic_changes_nothing",
    "C106_poisoned_for_ever",
    "C106_poisoned_only_by_storing",
    "C106_usable_trees_answer"
   ],
   "note": "Several threads: C111. One panic of caller code per call (a second one while unwinding aborts the process)."
  },
  {
   "property": "C107",
   "status": "proved",
   "theorems": [
    "C107_runs_once",
    "C107_asked_again",
    "C107_answers_right",
    "C107_good_pass_answers",
    "C107_without_catching"
   ],
   "note": "The first two for passes that catch as well; the next two for passes that do not."
  },
  {
   "property": "C108",
   "status": "proved",
   "theorems": [
    "C108_test_by_passes",
    "C108_one_tree",
    "C108_ll1_parse"
   ],
   "note": ""
  },
  {
   "property": "C109",
   "status": "proved",
   "theorems": [
    "C109_left_recursion_panics",
    "C109_maybe_empty_panics",
    "C109_word_message"
   ],
   "note": "General form of the counterexamples of C44."
  },
  {
   "property": "C110",
   "status": "proved",
   "theorems": [
    "C110_all_words",
    "C110_verdict"
   ],
   "note": "The grammar condition that decides C44 for a whole language."
  },
  {
   "property": "C111",
   "status": "proved",
   "theorems": [
    "C111_atomic",
    "C111_content_reads_back",
    "C111_branch_reads_back",
    "C111_same_handle",
    "C111_no_lost_alternative",
    "C111_poisoned_for_ever",
    "C111_poisoned_only_by_storing",
    "C111_never_poisoned",
    "C111_panics_explained",
    "C111_no_deadlock_readers_first",
    "C111_only_deadlock"
   ],
   "note": "A write section is one step of the model, as in C74; one panic of caller code per call. F, the set of panics considered, ranges over all sets that allow a call not to panic."
  },
  {
   "property": "C112",
   "status": "partial",
   "theorems": [
    "C112_prods",
    "C112_accessors",
    "C112_key_identifies",
    "C112_labels_unchecked",
    "C112_wrap_keys",
    "C112_tree_shows_derivation",
    "C112_tree_determines_derivation",
    "C112_parse_names_derivation",
    "C112_key_refuted",
    "C112_tree_refuted"
   ],
   "note": "REFUTED: build accepts a rule that uses an action key twice, and one tree of a parse then has two derivations.  Proved: the counterexamples, and that head and key identify a production exactly if no rule repeats a key, in which case every tree of a parse names one derivation."
  },
  {
   "property": "C113",
   "status": "proved",
   "theorems": [
    "C113_panic_persists",
    "C113_first_offender",
    "C113_beginnings_return",
    "C113_kinds_decide"
   ],
   "note": ""
  },
  {
   "property": "C114",
   "status": "proved",
   "theorems": [
    "C114_all_words",
    "C114_verdict"
   ],
   "note": "Composition of C88, C89 and C110. The conditions on the transformed grammar hold for example if it is prefix-free."
  },
  {
   "property": "C115",
   "status": "proved",
   "theorems": [
    "C115_values_pass_through",
    "C115_forest_of_positions"
   ],
   "note": ""
  },
  {
   "property": "C116",
   "status": "partial",
   "theorems": [
    "C116_ranges",
    "C116_positions",
    "C116_states",
    "C116_streams",
    "C116_look_ahead_overflow",
    "C116_look_ahead_refuted"
   ],
   "note": "REFUTED for looking ahead: offset_elem(i) computes index + i, which overflows for i near usize::MAX: a panic with overflow checks, an element before the position without. Proved: the counterexample for every started position, exactly when it happens and what is answered, and everything else of the property in full."
  },
  {
   "property": "C117",
   "status": "partial",
   "theorems": [
    "C117_tree_of_keys",
    "C117_contents",
    "C117_first_content",
    "C117_parse_of_keys",
    "C117_forest_up_to_equality",
    "C117_own_value_refuted"
   ],
   "note": "REFUTED only for the last sentence: contents that compare equal are shared, so a leaf may show an earlier token's equal but different value. Proved: the counterexample, which content is kept, and everything else in full."
  },
  {
   "property": "C118",
   "status": "proved",
   "theorems": [
    "C118_no_dead_ends",
    "C118_no_choice",
    "C118_cycles",
    "C118_finite_input",
    "C118_infinite_input",
    "C118_unambiguous_input",
    "C118_choice_refuted"
   ],
   "note": "The last sentence of the property is the counterexample C118_choice_refuted."
  },
  {
   "property": "C119",
   "status": "proved",
   "theorems": [
    "C119_build",
    "C119_wrap",
    "C119_nullables",
    "C119_firsts",
    "C119_follows",
    "C119_nonnull",
    "C119_parse",
    "C119_nullable_decides",
    "C119_recognises",
    "C119_item_sets",
    "C119_item_closure",
    "C119_lalr_state",
    "C119_lalr_actions"
   ],
   "note": ""
  },
  {
   "property": "C120",
   "status": "proved",
   "theorems": [
    "C120_points",
    "C120_boxes",
    "C120_root",
    "C120_loose_boxes",
    "C120_labels_tell",
    "C120_parse_drawing",
    "C120_same_drawing_refuted"
   ],
   "note": "The last sentence of the property is the counterexample C120_same_drawing_refuted. The concrete dot syntax of the statements is left to the crate dot."
  },
  {
   "property": "C121",
   "status": "proved",
   "theorems": [
    "C121_bad_rules",
    "C121_good_rules",
    "C121_simple_earley",
    "C121_ambiguous_earley"
   ],
   "note": "Panic texts are given up to file, line and what follows their first line; the renderer of the crate pretty is any function that lays out each group flat or broken."
  },
  {
   "property": "C122",
   "status": "partial",
   "theorems": [
    "C122_finitely_many",
    "C122_explore",
    "C122_explore_complete",
    "C122_all_found_refuted"
   ],
   "note": "REFUTED: that every state reached is found. Finiteness, termination, soundness and closure up to the comparison are proved for every grammar, completeness where different reachable states compare different; C122_all_found_refuted gives the loss for every production of the described shape."
  },
  {
   "property": "C123",
   "status": "proved",
   "theorems": [
    "C123_least_upper_bound",
    "C123_order_free",
    "C123_same_map",
    "C123_unchanged",
    "C123_until_stable"
   ],
   "note": ""
  },
  {
   "property": "C124",
   "status": "proved",
   "theorems": [
    "C124_tree_bound",
    "C124_tree_exponential",
    "C124_variants",
    "C124_grammar_exponential"
   ],
   "note": ""
  },
  {
   "property": "C125",
   "status": "proved",
   "theorems": [
    "C125_cut",
    "C125_one_cut",
    "C125_positions",
    "C125_parse_text",
    "C125_ll1_text"
   ],
   "note": "The lexer and the classification of pieces are the user's and arbitrary; positions are for any search and grapheme functions meeting their contracts, as in C33."
  },
  {
   "property": "C126",
   "status": "proved",
   "theorems": [
    "C126_sound",
    "C126_right",
    "C126_check_decides",
    "C126_with_follows_pass",
    "C126_without_follows",
    "C126_follows_pass_refuted"
   ],
   "note": "The last sentence is C126_follows_pass_refuted."
  },
  {
   "property": "C127",
   "status": "proved",
   "theorems": [
    "C127_first_tree",
    "C127_first_parse",
    "C127_first_parse_refuted",
    "C127_all_trees",
    "C127_all_trees_forever",
    "C127_all_parses",
    "C127_all_parses_forever",
    "C127_only_tree",
    "C127_only_parse",
    "C127_only_ll1",
    "C127_first_depth",
    "C127_only_depth",
    "C127_all_depth"
   ],
   "note": "That the first tree need not be a derivation tree is C127_first_parse_refuted."
  },
  {
   "property": "C128",
   "status": "proved",
   "theorems": [
    "C128_upto",
    "C128_sift",
    "C128_sift_all",
    "C128_find",
    "C128_find_depth",
    "C128_two_trees",
    "C128_optional_sift",
    "C128_optional_find",
    "C128_optional_two_trees"
   ],
   "note": "Values of tokens are compared with Eq, which is assumed to identify equal values only (see C117 for coarser equalities)."
  },
  {
   "property": "C129",
   "status": "proved",
   "theorems": [
    "C129_blame",
    "C129_expected_sound",
    "C129_attempt",
    "C129_blame_sure",
    "C129_expected",
    "C129_complete",
    "C129_completions",
    "C129_expected_all_refuted"
   ],
   "note": "The last sentence is C129_expected_all_refuted. Catching the panic and reading its text is the user program's part and is modelled as a case distinction on the outcome."
  },
  {
   "property": "C130",
   "status": "proved",
   "theorems": [
    "C130_readings",
    "C130_height",
    "C130_order",
    "C130_optional"
   ],
   "note": "Values of tokens are compared with Eq, which is assumed to identify equal values only (see C117 for coarser equalities). The listing can take exponential time; running time is not modelled."
  },
  {
   "property": "C131",
   "status": "proved",
   "theorems": [
    "C131_attempt",
    "C131_blame",
    "C131_expected",
    "C131_complete",
    "C131_completions"
   ],
   "note": "Words are nonempty: transform_to_nonnull removes the empty word."
  },
  {
   "property": "C132",
   "status": "proved",
   "theorems": [
    "C132_sound",
    "C132_nearest",
    "C132_word",
    "C132_all",
    "C132_optional_nearest",
    "C132_optional_all"
   ],
   "note": "Edit distance is the relation near of Spec/RepairSpec.v, defined without the program. Catching the panic is the user program's part, as in C129."
  },
  {
   "property": "C133",
   "status": "proved",
   "theorems": [
    "C133_usable",
    "C133_productive",
    "C133_test",
    "C133_conditions",
    "C133_parse",
    "C133_blame",
    "C133_expected",
    "C133_nearest"
   ],
   "note": "The test is a user program of Spec/GrammarTestSpec.v; its reachability walk repeats the private one of base.rs with the public function."
  },
  {
   "property": "C134",
   "status": "proved",
   "theorems": [
    "C134_lasting",
    "C134_test",
    "C134_conditions",
    "C134_parse",
    "C134_blame",
    "C134_expected",
    "C134_nearest"
   ],
   "note": "The test is a user program of Spec/OptionalTestSpec.v; the conditions it decides are sufficient, not necessary, for one tree per word."
  },
  {
   "property": "C135",
   "status": "proved",
   "theorems": [
    "C135_ends",
    "C135_content",
    "C135_useful",
    "C135_words",
    "C135_trees",
    "C135_test",
    "C135_again",
    "C135_all_words",
    "C135_verdict"
   ],
   "note": "The cleaning program is a user program of Spec/CleanSpec.v over build and the public loops and walks."
  }
 ]
}