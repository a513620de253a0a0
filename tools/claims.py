c("C01", P, "C01_build_verdict")
c("C02", P, "C02_build_content")
c("C03", P, "C03_accepted_closed")
c("C04", Q, "C04_mentioned_reachable_partial C04_reachable_accepted C04_unreachable_rule_accepted_refuted C04_start_reported_refuted",
  "REFUTED as stated: a rule whose head is never mentioned is accepted although unreachable, and a start symbol mentioned only from an unreachable rule is reported unreachable. Proved: both counterexamples; every nonterminal mentioned in a body is reachable; a fully reachable, defined rule list is accepted.")
c("C05", P, "C05_wrap_total C05_wrap_language C05_wrap_rules")
c("C06", P, "C06_start_prod C06_start_prod_any")
c("C07", P, "C07_nullable_decides")
c("C08", P, "C08_nullable_verdict")
c("C09", P, "C09_nullable_action")
c("C22", P, "C22_bfs_result C22_bfs_terminates")
c("C23", P, "C23_fixed_point")
c("C24", P, "C24_merge_value_pairs")
c("C25", P, "C25_collect_map_history")
c("C26", Q, "C26_apply_fixed_point_diverges_refuted C26_apply_fixed_point_empty_partial",
  "REFUTED: with a non-empty target apply_fixed_point never returns (currs is never updated).  Proved: that divergence, and that it returns on an empty target.")
c("C30", P, "C30_change_iter C30_change_iter_panics C30_change_loop")
c("C53", P, "C53_rule_order C53_prod_order")
c("C14", P, "C14_firsts")
c("C15", Q, "C15_firsts_absent_refuted C15_firsts_absent_exact C15_firsts_present_partial",
  "REFUTED: get is None for a nonterminal whose bodies are all empty (or only self-recursive).  Proved: the exact condition for None, and Some whenever FIRST is non-empty.")
c("C16", P, "C16_follows_sound")
c("C17", Q, "C17_follows_incomplete_refuted C17_follows_complete_partial C17_follows_exact",
  "REFUTED: a nullable symbol between A and t hides t.  Proved: completeness for grammars where no nullable nonterminal stands right after a nonterminal (in particular those without nullable nonterminals), and the exact content in general.")
c("C18", Q, "C18_follows_panics_refuted C18_follows_verdict",
  "REFUTED: Follows unwraps Firsts::get and panics when it is None.  Proved: termination and the exact condition for Ok / Err / panic.")
c("C10", P, "C10_nonnull_no_empty")
c("C11", Q, "C11_nonnull_loses_words_refuted C11_nonnull_sound C11_nonnull_language_partial",
  "REFUTED: nonempty words derived through a nullable production are lost.  Proved: the counterexample; inclusion on every grammar; equality when nullable productions derive only the empty word; exact language: C56.")
c("C12", P, "C12_nonnull_verdict")
c("C13", P, "C13_nonnull_variants C13_nonnull_keys_distinct")
c("C55", Q, "C55_nonnull_doc_example_refuted", "REFUTED: the documented example is rejected (Err), because q's only production is itself nullable and is dropped. What happens in general: C12, C56.")
c("C56", P, "C11_nonnull_language_exact")
c("C57", P, "C15_firsts_absent_exact")
c("C58", P, "C17_follows_exact")
c("C59", P, "C18_follows_verdict")
c("C60", P, "C26_apply_fixed_point_diverges_refuted C26_apply_fixed_point_empty_partial")
c("C19", P, "C19_pass_runs_once C19_context_transparent C19_context_sound")
c("C20", P, "C20_passes_terminate C20_recursion_detected C20_cycle_detected")
c("C21", Q, "C21_failed_pass_again_refuted", "REFUTED: the failed pass leaves its in-progress marker, so the second request panics.  Exact behaviour: C61.")
c("C61", P, "C61_failed_pass_panics")
c("C62", P, "C62_std_passes C62_std_passes_eval C62_any_context")
c("C27", P, "C27_names_are_values")
c("C28", P, "C28_typemap_is_map C28_compare_never_panics")
c("C29", P, "C29_mergable_map C29_insert_cow_agrees")
c("C36", Q, "C36_token_stream_refuted", "REFUTED: the length test is the wrong way round, so every read of a non-empty stream panics.  Exact behaviour: C63.")
c("C63", P, "C63_token_stream_exact C63_token_stream_next")
c("C37", P, "C37_content_reads_back C37_content_stable C37_hash_consing C37_one_tree_returns")
c("C38", P, "C38_alts_exact C38_add_alt_report C38_add_all_report")
c("C39", P, "C39_mixing_panics")
c("C40", Q, "C40_dot_contains_root_refuted C40_dot_whole_forest_partial", "REFUTED: the root (and its edges) is missing unless it lies on a cycle.  Proved: termination, everything strictly below the root with all edges.  Exact behaviour: C64.")
c("C64", P, "C64_dot_strictly_below")
c("C41", P, "C41_parse_terminates")
c("C42", P, "C42_parse_accepts_only_words")
c("C43", P, "C43_parse_rejects_only_nonwords")
c("C44", Q, "C44_syntax_error_refuted C44_unambiguous_word_refuted C44_left_recursive_sum_refuted C44_repo_example_refuted C44_syntax_error_panics C44_nullable_start_panics C44_parse_returns_partial",
  "REFUTED: a syntax error panics (assertion in close_state), and state keys ignore the dot so that insert's length assertion fails, e.g. on id+id with the left-recursive sum grammar and on the repository's own example.  Proved: the counterexamples, the general panics, and that otherwise it returns.  Exact condition: C65.")
c("C45", P, "C45_forest_complete")
c("C46", Q, "C46_forest_only_input_refuted", "REFUTED: corresponding child nodes of two cuts are merged one by one, so trees with another yield can be read.  True in general: C66; under unique cuts: C67.")
c("C47", P, "C47_prefix_free_parse C47_prefix_free_panics_iff C47_prefix_free_verdict")
c("C48", P, "C48_layout_independent")
c("C65", P, "C65_parse_panics_iff")
c("C66", P, "C66_forest_conforms")
c("C67", P, "C67_forest_exact")
c("C68", P, "C68_parse_keeps_tree")
c("C69", P, "C69_parse_is_api_history")
c("C31", P, "C31_fresh_range_reads_text C31_as_str_never_panics C31_read_char")
c("C32", P, "C32_advance_all_or_nothing C32_advance_is_reads")
c("C33", P, "C33_remove_suffix_splits C33_remove_suffix_iff")
c("C34", P, "C34_positions C34_position_unique C34_column_at_boundary", "Grapheme segmentation (an external crate) is any function cutting a line into nonempty pieces; binary_search_by is any function meeting its documented contract (the standard algorithm is shown to).")
c("C35", P, "C35_key_order C35_key_order_transitive")
c("C70", P, "C70_positions_ordered")
c("C49", P, "C49_position C49_enumerates", "The offsets of offset_elem are unbounded numbers here; machine integers: C116.")
c("C50", Q, "C50_add_holds_refuted", "REFUTED: comparison ignores the position, so the second state of a production is dropped by add and absent from nexts.  Exact behaviour: C71.")
c("C51", P, "C51_take_closure C51_closed C51_terminates C51_terminates_in_grammar C51_exact")
c("C71", P, "C71_adds C71_nexts C71_complete C71_equality")
c("C52", Q, "C52_sound_partial C52_exact_partial C52_collision_refuted C52_nullable_refuted C52_panic_refuted",
  "REFUTED as stated: a production in progress hides its own start, nullable symbols are not skipped, and a nonterminal without Firsts entry panics. Proved: sound for items of different productions with non-empty lookaheads and no such collision; exactly LR(1) closure if moreover nothing is nullable. Exact behaviour: C72.")
c("C72", P, "C72_from_prod_lookahead", "")
c("C73", P, "C73_shift_actions C73_reducable_actions", "")
c("C54", Q, "C54_deadlock_refuted C54_no_deadlock_readers_first_partial C54_no_deadlock_simple_calls_partial C54_no_deadlock_one_thread_partial C54_parsers_deadlock_refuted",
  "REFUTED where waiting writers have priority (Linux futex RwLock): is_same takes a second read lock while holding one, so add_alt in one thread and make_node in another can block each other for good.  Proved: every schedule ends with all calls returned if readers have priority, or if only operations without nested locks are called, or with a single thread.")
c("C74", P, "C74_atomic C74_never_poisoned C74_one_tree_returns C74_content_reads_back C74_same_handle C74_no_lost_alternative", "A write section is one step of the model; to_dot among threads is C105.")
c("C75", P, "C75_lazy_never_returns C75_lazy_waits_for_ever C75_lazy_deadlocks", "")
c("C76", P, "C76_take_only C76_take_only_calls C76_take_only_list", "")
c("C77", P, "C77_pretty_reads_back C77_same_text_same_grammar", "The renderer (crate pretty) is any function that lays out each group flat or broken.")
c("C78", P, "C78_pretty_tokens C78_wrapped_tokens", "")
c("C79", Q, "C79_actions_lost_refuted C79_names_confused_refuted C77_same_text_same_grammar", "REFUTED: actions are not printed, a terminal named <S> looks like a nonterminal, a terminal named ε like an empty body.  Proved: the counterexamples; what holds: C77.")
c("C80", P, "C80_ids_distinct C80_ids_valid C80_dot_statements", "The concrete syntax of the statements is left to the crate dot; its identifier check is modelled.")
c("C81", P, "C81_forest_pieces C81_leaves_are_tokens", "Upper bound that holds where C46 is false; C45 is the lower bound.")
c("C82", P, "C82_forest_layout C82_unique_cuts", "For every layout memory can have (the productions of a rule one after the other, rules apart).  The exact contents of the forest are described in Proofs/EarleyExact.v (areads).")
c("C83", P, "C83_data_lawful C83_order_exact C83_same_orders C83_handles_lawful C83_positions_lawful C83_wrappers", "")
c("C84", P, "C84_examples_build C84_simple_language C84_simple_nullable_language C84_ambiguous_nullable_language C84_paren_language C84_base_language C84_arithmetic_language C84_simple_earley_language C84_ambiguous_earley_language C84_simple_nullable_trees C84_ambiguous_nullable_trees C84_ambiguous_earley_trees C84_simple_parse C84_simple_earley_parse C84_nullable_parse_panics C84_paren_parse C84_arithmetic_parse C84_arithmetic_verdict", "The languages and trees are the intended ones. The parser handles two of the eight grammars; the other six panic as stated.")
c("C85", P, "C85_forest_size C85_new_alternatives C85_new_nodes C85_rounds",
  "Bounds stated in Spec/SizeSpec.v, in the number of productions and of right-hand-side symbols and the length of the input; no hypothesis on the layout. The bound on rounds also gives termination with an explicit number of rounds.")
c("C86", P, "C86_shared_parse C86_shared_reads C86_shared_keeps",
  "Any operations of other threads between any two critical sections of the parser, except writes to nodes the parser made (their handles are not handed out before the parse ends). Blocking is C54.")
c("C87", P, "C87_shared_dot C87_edge_without_vertex", "The second theorem exhibits an export with an edge to an undeclared vertex, so the bounds of the first are all one can say.")
c("C88", P, "C88_trees_trimmed C88_trees_recoverable C88_trees_all", "")
c("C90", P, "C90_schedules_end C90_deadlock_shape C90_trap_is_deadlock C90_separate_trees C90_one_changer", "The exact shape of the deadlocks of C54, and the programs that have none.")
c("C89", P, "C89_nonnull_parse_accepts C89_nonnull_parse_accepts_all C89_nonnull_parse_forest C89_nonnull_parse_panics_iff", "Composition of the transformation, the start rule and the parser.")
c("C91", P, "C91_bfs C91_build C91_nullable C91_transform C91_firsts C91_follows", "Fuel is the number of rounds after which a loop of the model is cut; the theorems say how much is always enough.")
c("C92", P, "C92_derived_texts C92_error_text C92_build_error_text C92_grammar_text C92_grammar_text_styles C92_prod_text C92_prod_state_text C92_earley_state_text C92_tree_text C92_key_text C92_value_text C92_nullable_tree_text C92_start_and_actions_not_shown C92_names_confused C92_helper_list C92_helper_set C92_helper_tuple C92_helper_struct C92_helper_texts C92_wrapped_text C92_symbol_text C92_pass_error_texts C92_state_set_text", "std::fmt's builders are modelled as documented. The last two theorems show what is not shown and that the condition on names is needed.")
c("C93", P, "C93_same_rules C93_rule_order C93_overwritten C93_prod_order C93_rebuild", "")
c("C94", P, "C94_sound C94_first_follow C94_passes C94_condition", "Composition of the transformation with the passes; what C17 and C18 lack on the original grammar holds on the transformed one.")
c("C95", P, "C95_idle C95_twice", "")
c("C96", P, "C96_memory", "For parsing see C48 (recognition) and C82 (forest).")
c("C97", P, "C97_build C97_grammar C97_nullables C97_firsts C97_follows C97_transform C97_parse", "Parsing: the verdict or panic; the forest is C98.")
c("C98", P, "C98_forest C98_reads C98_parse_trees C98_any_memory", "Node by node if the order of the production addresses is kept; the trees that can be read, wherever the grammars lie.")
c("C99", P, "C99_panic_message", "The second text is the first line of assert_eq's message; the two numbers printed after it are not modelled.")
c("C100", Q, "C100_production_order_refuted C100_verdict_partial C100_unique_cuts_partial", "REFUTED: completed productions are handled in the order in which they are listed, and the entry made first keeps its nodes; with 2 -> b c | c a tree that is no derivation can be read, with 2 -> c | b c not.  Proved: the counterexample; the verdict and the panic text never depend on the order, nor do the trees when every piece of the input is cut in one way.")
c("C101", P, "C101_parse_among_threads C101_panic_among_threads C101_parsers", "That the calls return is assumed (whether they do is C54, C90; C54_parsers_deadlock_refuted: two parsers can stop each other where writers have priority).  A thread's parse is identified by its calls and their results in order.")
c("C102", P, "C102_state C102_start_state C102_transformed C102_shifted C102_shifted_word", "The general theorem asks that no item is in progress in a production of a nonterminal expected next (C52: such a production's start is lost).")
c("C103", Q, "C103_lawful C103_equal_exact C103_different_refuted", "REFUTED: positions are not compared; C103_equal_exact says exactly when states compare equal, C103_lawful that the comparisons agree and form a total order.")
c("C104", P, "C104_bfs_calls C104_bfs_panics C104_bfs_called_once C104_fixed_point_calls C104_fixed_point_panics C104_bfs_stateless C104_fixed_point_stateless", "The last two relate the models used by C22, C23 and C01 to this one.")
c("C105", P, "C105_export_among_threads C105_export_never_panics C105_edge_without_vertex", "The last theorem is an execution with an edge to an undeclared vertex.")
c("C106", P, "C106_as_if_never_called C106_content_reads_back C106_alts_exact C106_panic_changes_nothing C106_poisoned_for_ever C106_poisoned_only_by_storing C106_usable_trees_answer", "Several threads: C111. One panic of caller code per call (a second one while unwinding aborts the process).")
c("C107", P, "C107_runs_once C107_asked_again C107_answers_right C107_good_pass_answers C107_without_catching", "The first two for passes that catch as well; the next two for passes that do not.")
c("C108", P, "C108_test_by_passes C108_one_tree C108_ll1_parse", "")
c("C109", P, "C109_left_recursion_panics C109_maybe_empty_panics C109_word_message", "General form of the counterexamples of C44.")
c("C110", P, "C110_all_words C110_verdict", "The grammar condition that decides C44 for a whole language.")
c("C111", P, "C111_atomic C111_content_reads_back C111_branch_reads_back C111_same_handle C111_no_lost_alternative C111_poisoned_for_ever C111_poisoned_only_by_storing C111_never_poisoned C111_panics_explained C111_no_deadlock_readers_first C111_only_deadlock", "A write section is one step of the model, as in C74; one panic of caller code per call. F, the set of panics considered, ranges over all sets that allow a call not to panic.")
c("C112", Q, "C112_prods C112_accessors C112_key_identifies C112_labels_unchecked C112_wrap_keys C112_tree_shows_derivation C112_tree_determines_derivation C112_parse_names_derivation C112_key_refuted C112_tree_refuted", "REFUTED: build accepts a rule that uses an action key twice, and one tree of a parse then has two derivations.  Proved: the counterexamples, and that head and key identify a production exactly if no rule repeats a key, in which case every tree of a parse names one derivation.")
c("C113", P, "C113_panic_persists C113_first_offender C113_beginnings_return C113_kinds_decide", "")
c("C114", P, "C114_all_words C114_verdict", "Composition of C88, C89 and C110. The conditions on the transformed grammar hold for example if it is prefix-free.")
c("C115", P, "C115_values_pass_through C115_forest_of_positions", "")
c("C116", Q, "C116_ranges C116_positions C116_states C116_streams C116_look_ahead_overflow C116_look_ahead_refuted", "REFUTED for looking ahead: offset_elem(i) computes index + i, which overflows for i near usize::MAX: a panic with overflow checks, an element before the position without. Proved: the counterexample for every started position, exactly when it happens and what is answered, and everything else of the property in full.")
c("C117", Q, "C117_tree_of_keys C117_contents C117_first_content C117_parse_of_keys C117_forest_up_to_equality C117_own_value_refuted", "REFUTED only for the last sentence: contents that compare equal are shared, so a leaf may show an earlier token's equal but different value. Proved: the counterexample, which content is kept, and everything else in full.")
c("C118", P, "C118_no_dead_ends C118_no_choice C118_cycles C118_finite_input C118_infinite_input C118_unambiguous_input C118_choice_refuted", "The last sentence of the property is the counterexample C118_choice_refuted.")
c("C119", P, "C119_build C119_wrap C119_nullables C119_firsts C119_follows C119_nonnull C119_parse C119_nullable_decides C119_recognises C119_item_sets C119_item_closure C119_lalr_state C119_lalr_actions", "")
c("C120", P, "C120_points C120_boxes C120_root C120_loose_boxes C120_labels_tell C120_parse_drawing C120_same_drawing_refuted", "The last sentence of the property is the counterexample C120_same_drawing_refuted. The concrete dot syntax of the statements is left to the crate dot.")
c("C121", P, "C121_bad_rules C121_good_rules C121_simple_earley C121_ambiguous_earley", "Panic texts are given up to file, line and what follows their first line; the renderer of the crate pretty is any function that lays out each group flat or broken.")
c("C122", Q, "C122_finitely_many C122_explore C122_explore_complete C122_all_found_refuted", "REFUTED: that every state reached is found. Finiteness, termination, soundness and closure up to the comparison are proved for every grammar, completeness where different reachable states compare different; C122_all_found_refuted gives the loss for every production of the described shape.")
c("C123", P, "C123_least_upper_bound C123_order_free C123_same_map C123_unchanged C123_until_stable", "")
c("C124", P, "C124_tree_bound C124_tree_exponential C124_variants C124_grammar_exponential", "")
c("C125", P, "C125_cut C125_one_cut C125_positions C125_parse_text C125_ll1_text", "The lexer and the classification of pieces are the user's and arbitrary; positions are for any search and grapheme functions meeting their contracts, as in C33.")
c("C126", P, "C126_sound C126_right C126_check_decides C126_with_follows_pass C126_without_follows C126_follows_pass_refuted", "The last sentence is C126_follows_pass_refuted.")
c("C127", P, "C127_first_tree C127_first_parse C127_first_parse_refuted C127_all_trees C127_all_trees_forever C127_all_parses C127_all_parses_forever C127_only_tree C127_only_parse C127_only_ll1 C127_first_depth C127_only_depth C127_all_depth", "That the first tree need not be a derivation tree is C127_first_parse_refuted.")
c("C128", P, "C128_upto C128_sift C128_sift_all C128_find C128_find_depth C128_two_trees C128_optional_sift C128_optional_find C128_optional_two_trees", "Values of tokens are compared with Eq, which is assumed to identify equal values only (see C117 for coarser equalities).")
c("C129", P, "C129_blame C129_expected_sound C129_attempt C129_blame_sure C129_expected C129_complete C129_completions C129_expected_all_refuted", "The last sentence is C129_expected_all_refuted. Catching the panic and reading its text is the user program's part and is modelled as a case distinction on the outcome.")
c("C130", P, "C130_readings C130_height C130_order C130_optional", "Values of tokens are compared with Eq, which is assumed to identify equal values only (see C117 for coarser equalities). The listing can take exponential time; running time is not modelled.")
c("C131", P, "C131_attempt C131_blame C131_expected C131_complete C131_completions", "Words are nonempty: transform_to_nonnull removes the empty word.")
c("C132", P, "C132_sound C132_nearest C132_word C132_all C132_optional_nearest C132_optional_all", "Edit distance is the relation near of Spec/RepairSpec.v, defined without the program. Catching the panic is the user program's part, as in C129.")
c("C133", P, "C133_usable C133_productive C133_test C133_conditions C133_parse C133_blame C133_expected C133_nearest", "The test is a user program of Spec/GrammarTestSpec.v; its reachability walk repeats the private one of base.rs with the public function.")
c("C134", P, "C134_lasting C134_test C134_conditions C134_parse C134_blame C134_expected C134_nearest", "The test is a user program of Spec/OptionalTestSpec.v; the conditions it decides are sufficient, not necessary, for one tree per word.")
c("C135", P, "C135_ends C135_content C135_useful C135_words C135_trees C135_test C135_again C135_all_words C135_verdict", "The cleaning program is a user program of Spec/CleanSpec.v over build and the public loops and walks.")
