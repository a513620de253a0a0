{"id": "C01", "title": "build: exact verdict on every rule list", "statement": "For a start nonterminal and any sequence of add_rule calls, `grammar::build` (a) panics exactly when the start nonterminal, or some nonterminal reachable from it, has no rule; (b) otherwise returns Err carrying exactly: the set of nonterminals occurring in some production body that are not reachable from the start in one or more steps, the set of nonterminals occurring in bodies that have no rule, and the set of heads whose rule has no production; (c) returns Ok iff all three sets are empty. It always terminates.", "quantifier": "every start nonterminal and every finite sequence of builder calls, over arbitrary ordered symbol types", "why_tests_cant": "The verdict depends on reachability in an arbitrary rule graph; tests cover a handful of grammars.", "anchors": ["src/grammar/base.rs: Grammar::new, check_grammar, reachable_nonterms, unreachable_nonterms, nonterminals_without_rules, rules_without_prods", "src/utils.rs: breadth_first_search", "src/grammar/base/builder.rs: build"]}
{"id": "C02", "title": "build: the accepted grammar is exactly what was added", "statement": "An accepted grammar has the given start symbol; its rules are listed in increasing head order, one per distinct head; the rule of a head is the LAST rule added for that head (earlier ones are silently discarded) and its productions appear in the order of the add_prod calls with the action key, action value, and elements (names included) in call order.", "quantifier": "every accepted builder call sequence", "why_tests_cant": "Quantifies over all call sequences incl. duplicates heads.", "anchors": ["src/grammar/base/builder.rs", "src/grammar/base.rs: Grammar::new, rules, prods, try_get_rule"]}
{"id": "C03", "title": "accepted grammars are closed", "statement": "In a grammar accepted by build, the start symbol and every nonterminal occurring in any production have a rule with at least one production, so get_rule on them never panics.", "quantifier": "every accepted grammar and every nonterminal occurring in it", "why_tests_cant": "All grammars.", "anchors": ["src/grammar/base.rs: get_rule, check_grammar"]}
{"id": "C04", "title": "accepted grammars have no unreachable rule", "statement": "In an accepted grammar every rule's head is the start symbol or reachable from it; and conversely a grammar in which everything is reachable and defined is not rejected.", "quantifier": "every accepted grammar", "why_tests_cant": "All grammars; the failing shape (head never mentioned) is not in the tests.", "anchors": ["src/grammar/base.rs: unreachable_nonterms, reachable_nonterms", "src/utils.rs: breadth_first_search"]}
{"id": "C05", "title": "wrap_grammar_with_start succeeds and preserves the language", "statement": "wrap_grammar_with_start never panics and never fails on an accepted grammar; the wrapped grammar's start derives exactly the words `w EndOfStream` with w (tagged) in the language of the original, and every wrapped nonterminal derives exactly the words the original derives; names, action keys and values are preserved.", "quantifier": "every accepted grammar and every terminal word", "why_tests_cant": "All grammars and words.", "anchors": ["src/start_grammar.rs: wrap_grammar_with_start, base_elem_to_start_elem"]}
{"id": "C06", "title": "start_rule/start_prod are total on wrapped grammars", "statement": "On a wrapped grammar start_rule and start_prod never panic, and start_prod is the production `start:S EndOfStream`.", "quantifier": "every wrapped grammar", "why_tests_cant": "All grammars.", "anchors": ["src/start_grammar.rs: start_rule, start_prod", "src/utils.rs: take_only"]}
{"id": "C07", "title": "Nullable pass decides \u03b5-derivability", "statement": "The Nullable pass terminates and never panics; when it returns Ok, is_nullable(nt) holds iff nt derives the empty word, get_nullable_set is exactly that set, and is_prod_nullable(prod) iff the body of prod derives the empty word.", "quantifier": "every accepted grammar, every nonterminal and production", "why_tests_cant": "Fixed point over arbitrary grammars, incl. mutually recursive ones.", "anchors": ["src/grammar/passes/nullable.rs", "src/grammar/passes/nullable/nullables.rs: inner_calculate_nullables, calculate_nullables, is_prod_nullable"]}
{"id": "C08", "title": "Nullable pass rejects exactly the null-ambiguous grammars", "statement": "The Nullable pass returns Err(Ambiguity) iff some nonterminal has at least two productions whose bodies derive the empty word; equivalently it returns Ok iff every nullable nonterminal has exactly one derivation tree of the empty word.", "quantifier": "every accepted grammar", "why_tests_cant": "Decides a property of all (possibly infinitely many) \u03b5-derivations.", "anchors": ["src/grammar/passes/nullable/nullables.rs: calculate_nullables"]}
{"id": "C09", "title": "nullable action is the \u03b5-derivation", "statement": "When the pass succeeds, the action tree recorded for a nullable nonterminal is headed by the key of its unique nullable production and has, for each named nonterminal element of that production (the last one when a name is repeated), precisely the action tree of that nonterminal, and no other parameter; non-nullable nonterminals have none. The internal completion loop terminates on every grammar.", "quantifier": "every accepted grammar and nullable nonterminal", "why_tests_cant": "The loop's termination needs a well-foundedness argument over all grammars.", "anchors": ["src/grammar/passes/nullable/nullables.rs: calculate_nullables, get_nullable_action"]}
{"id": "C10", "title": "nonnull transform output derives no empty word", "statement": "When transform_to_nonnull returns Ok, no production of the result has an empty body and no nonterminal of it derives the empty word.", "quantifier": "every accepted grammar", "why_tests_cant": "All grammars.", "anchors": ["src/grammar/transform/nonnull.rs: transform_to_nonnull, build_nonnull_prods"]}
{"id": "C11", "title": "nonnull transform preserves the language up to \u03b5", "statement": "When transform_to_nonnull returns Ok, each nonterminal derives in the result exactly the nonempty words it derives in the original.", "quantifier": "every accepted grammar, nonterminal and word", "why_tests_cant": "All grammars and words.", "anchors": ["src/grammar/transform/nonnull.rs: transform_to_nonnull, build_nonnull_prods"]}
{"id": "C12", "title": "nonnull transform: exact verdict", "statement": "transform_to_nonnull terminates and never panics; it fails exactly when the grammar is null-ambiguous, or some rule has only nullable productions, or some nonterminal occurring in the surviving productions is no longer reachable.", "quantifier": "every accepted grammar", "why_tests_cant": "All grammars.", "anchors": ["src/grammar/transform/nonnull.rs"]}
{"id": "C13", "title": "nonnull transform: variants and their keys", "statement": "For every production that is kept, the result contains exactly one production per subset of its nullable nonterminal occurrences: the body with that subset removed, an action key recording per nonterminal occurrence whether it was removed, the parent action value, and as null arguments the nullable action of each removed named element. If the original action keys are pairwise distinct within a rule, so are the new ones.", "quantifier": "every accepted grammar and production (any number of nullable occurrences)", "why_tests_cant": "Exponentially many variants; unbounded production length.", "anchors": ["src/grammar/transform/nonnull.rs: build_nonnull_prods, ActionKey, ActionValue"]}
{"id": "C14", "title": "Firsts pass computes FIRST", "statement": "The Firsts pass terminates, never panics, fails exactly when Nullable does, and otherwise a terminal t is in the set for nonterminal A iff A derives a sentential form beginning with t.", "quantifier": "every accepted grammar, nonterminal, terminal", "why_tests_cant": "Fixed point over arbitrary grammars.", "anchors": ["src/grammar/passes/firsts.rs", "src/utils.rs: CollectMap, change_loop, change_iter"]}
{"id": "C15", "title": "Firsts::get presence", "statement": "Firsts::get(nt) is Some for every nonterminal of the grammar.", "quantifier": "every accepted grammar and nonterminal", "why_tests_cant": "All grammars.", "anchors": ["src/grammar/passes/firsts.rs: get", "src/utils.rs: CollectMap::insert_from_key_set"]}
{"id": "C16", "title": "Follows pass is sound", "statement": "Every terminal t in the computed follow set of nonterminal A really follows A: some nonterminal of the grammar derives a sentential form containing A immediately followed by t.", "quantifier": "every accepted grammar", "why_tests_cant": "All grammars.", "anchors": ["src/grammar/passes/follows.rs"]}
{"id": "C17", "title": "Follows pass is complete", "statement": "If some sentential form derived from a rule head of the grammar contains A immediately followed by t, then t is in the computed follow set of A.", "quantifier": "every accepted grammar", "why_tests_cant": "All grammars; failing ones contain nullable nonterminals.", "anchors": ["src/grammar/passes/follows.rs"]}
{"id": "C18", "title": "Follows pass is total", "statement": "The Follows pass never panics and always terminates.", "quantifier": "every accepted grammar", "why_tests_cant": "All grammars.", "anchors": ["src/grammar/passes/follows.rs: run_pass (firsts.get(..).unwrap())"]}
{"id": "C19", "title": "get_pass memoises", "statement": "Each pass body runs at most once per context as long as it succeeds; all successful get_pass calls for one pass return the same shared value, whatever other passes are requested in between or from inside other passes.", "quantifier": "every pass dependency structure and every sequence of requests", "why_tests_cant": "All histories.", "anchors": ["src/grammar/passes/mod.rs: PassContext::get_pass"]}
{"id": "C20", "title": "recursive pass dependencies are detected", "statement": "Requesting a pass whose execution (transitively) requests itself panics with the recursion message; it never loops forever nor returns a value.", "quantifier": "every finite dependency structure", "why_tests_cant": "All dependency graphs.", "anchors": ["src/grammar/passes/mod.rs: PassContext::get_pass, NoCurrentValue"]}
{"id": "C21", "title": "a failed pass can be requested again", "statement": "After get_pass returned Err, requesting that pass again returns the error again.", "quantifier": "every pass that fails, every later request", "why_tests_cant": "Needs a two-request history; the tests request failing passes once.", "anchors": ["src/grammar/passes/mod.rs: PassContext::get_pass"]}
{"id": "C22", "title": "breadth_first_search returns the strict successors' closure", "statement": "breadth_first_search(initial, f) returns exactly the set of items reachable from an initial item by one or more steps of f (initial items only if so reachable), and terminates whenever the reachable set is finite.", "quantifier": "every initial collection and successor function", "why_tests_cant": "All graphs.", "anchors": ["src/utils.rs: breadth_first_search"]}
{"id": "C23", "title": "fixed_point returns the first fixed point of the iteration", "statement": "If fixed_point returns x then apply(x) = x and x is the first iterate of the start value that is fixed; it returns iff such an iterate exists.", "quantifier": "every type with equality, start value and function", "why_tests_cant": "All functions.", "anchors": ["src/utils.rs: fixed_point"]}
{"id": "C24", "title": "merge_value_pairs groups", "statement": "merge_value_pairs maps each key occurring in the input to exactly the set of values paired with it, and has no other key.", "quantifier": "every input sequence", "why_tests_cant": "All sequences.", "anchors": ["src/utils.rs: merge_value_pairs", "src/parsers/lalr.rs: shuffle_iter"]}
{"id": "C25", "title": "CollectMap is a map of sets with exact change reports", "statement": "For every sequence of insert, insert_iter and insert_from_key_set calls, the content is that of the abstract relation accumulating the pairs, and each call reports Changed iff the relation grew.", "quantifier": "every operation history", "why_tests_cant": "All histories.", "anchors": ["src/utils.rs: CollectMap, WasChanged, change_iter"]}
{"id": "C26", "title": "apply_fixed_point terminates", "statement": "apply_fixed_point returns when the processor saturates (in particular when next yields nothing).", "quantifier": "every target map and processor", "why_tests_cant": "Non-termination cannot be observed by a test.", "anchors": ["src/utils.rs: apply_fixed_point"]}
{"id": "C27", "title": "Name: make_mut never affects other names", "statement": "For every history of new, clone, make_mut-and-write, and drop, each live name reads back the string that a by-value semantics would give: writing through make_mut changes that name only.", "quantifier": "every history over any number of names", "why_tests_cant": "Aliasing over all histories.", "anchors": ["src/utils.rs: Name::new, make_mut, str"]}
{"id": "C28", "title": "TypeMap behaves as a typed map", "statement": "For every sequence of insert/get/get_mut/merge over keys of arbitrary types, get returns the value last stored under an equal key of the same type (the argument's value wins in merge, whose argument ends up empty), keys of different types never interfere, and the downcasts never panic.", "quantifier": "every history, any number of key types", "why_tests_cant": "All histories and types.", "anchors": ["src/utils/type_map.rs"]}
{"id": "C29", "title": "MergableMap insert and insert_cow agree", "statement": "insert stores the value when the key is absent and otherwise merges into the stored one, reporting exactly what merge reports (Changed when absent); insert_cow with an owned or borrowed argument has precisely the same effect and report; other keys are untouched.", "quantifier": "every map, key, value, merge function", "why_tests_cant": "All merge functions.", "anchors": ["src/utils/mergeables.rs"]}
{"id": "C30", "title": "change_loop / change_iter", "statement": "change_iter calls the function once per item in order and reports Changed iff some call did (no short circuit); change_loop calls it again exactly until the first Unchanged.", "quantifier": "every item list, function and state", "why_tests_cant": "All functions.", "anchors": ["src/utils.rs: change_iter, change_loop, WasChanged"]}
{"id": "C31", "title": "BufferRange reading yields the text", "statement": "Reading a fresh BufferRange char by char yields exactly the characters of the text in order, then None forever; after every history of reads as_str never panics, is the unread suffix, and byte_len/empty agree with it.", "quantifier": "every text (any Unicode) and history of reads", "why_tests_cant": "All texts.", "anchors": ["src/utils/buffer.rs: new, as_str, read_char, read_char_mut, byte_len, empty"]}
{"id": "C32", "title": "advance_n is all or nothing", "statement": "advance_n_mut(n) returns the next n characters and advances past them when at least n remain; otherwise returns None and leaves the range unchanged. advance_n agrees and never modifies its receiver.", "quantifier": "every range and n", "why_tests_cant": "All texts and counts.", "anchors": ["src/utils/buffer.rs: advance_n, advance_n_mut"]}
{"id": "C33", "title": "remove_suffix splits", "statement": "For a range r and any range s obtained from it by reading forward, r.remove_suffix(s) succeeds and its text followed by the text of s is the text of r; it panics when s is from another buffer, ends elsewhere, or starts earlier.", "quantifier": "every pair of ranges", "why_tests_cant": "All pairs.", "anchors": ["src/utils/buffer.rs: remove_suffix"]}
{"id": "C34", "title": "line and column positions", "statement": "start_pos/end_pos never panic; the line number is the number of line terminators (\\n, \\r, or \\r\\n counted once) that end at or before the offset; the column is the number of graphemes of that line starting before the offset (clamped to the line's end).", "quantifier": "every text, every range", "why_tests_cant": "All texts, mixed terminators.", "anchors": ["src/utils/buffer.rs: new (line_ranges), get_line_str_from_byte_offset, get_text_pos_from_byte_offset"]}
{"id": "C35", "title": "BufferRangeKey is ordered by content", "statement": "Comparison of BufferRangeKeys is a total order that is Equal iff the two ranges have the same text, independent of buffer and position.", "quantifier": "all pairs and triples of ranges", "why_tests_cant": "All texts.", "anchors": ["src/utils/buffer.rs: BufferRangeKey"]}
{"id": "C36", "title": "VecTokenStream yields its tokens", "statement": "A VecTokenStream over a collection yields its tokens in order and then None.", "quantifier": "every token collection", "why_tests_cant": "All collections.", "anchors": ["src/parsers/mod.rs: VecTokenStream::next"]}
{"id": "C37", "title": "tree alternatives are hash-consed and stable", "statement": "For every history of tree operations, an alternative's content reads back as what it was created with forever; two alternatives of one tree have equal handles iff their contents are equal; operations with handles of the same tree never panic.", "quantifier": "every history of tree operations", "why_tests_cant": "All histories.", "anchors": ["src/parsers/tree.rs: AltSet::add, make_leaf_alt, make_branch_alt, content"]}
{"id": "C38", "title": "node alternatives form the accumulated set", "statement": "For every history, alts(node) is exactly the set of alternatives added to it by add_alt / add_all (the source's alternatives at that time), the report is Changed iff the set grew, and no other node changes.", "quantifier": "every history", "why_tests_cant": "All histories.", "anchors": ["src/parsers/tree.rs: add_alt, add_all, alts, make_leaf_node, make_branch_node"]}
{"id": "C39", "title": "trees cannot be mixed", "statement": "add_alt, add_all and make_branch_alt panic when given a handle of a different tree, and then no tree has been modified (other than by nodes created before the check).", "quantifier": "every pair of trees", "why_tests_cant": "All histories.", "anchors": ["src/parsers/tree.rs: is_same assertions"]}
{"id": "C40", "title": "to_dot walks the whole forest", "statement": "The exported graph contains the root node, and exactly the nodes and alternatives reachable from it with all their edges; the walk terminates even on cyclic forests.", "quantifier": "every forest and root", "why_tests_cant": "All forests, including cyclic.", "anchors": ["src/parsers/tree.rs: collect_nodes_and_alts, DotPrinter"]}
{"id": "C41", "title": "Earley parse terminates", "statement": "parse terminates (returning or panicking) on every wrapped grammar, including left-recursive, cyclic, ambiguous and nullable ones, and every token sequence.", "quantifier": "every accepted grammar, token sequence and memory layout of the productions", "why_tests_cant": "Termination over all grammars and inputs.", "anchors": ["src/parsers/earley.rs: parse, close_state"]}
{"id": "C42", "title": "Earley parse accepts only words of the language", "statement": "If parse returns Some then the token kinds form a word of the grammar's language.", "quantifier": "every accepted grammar, token sequence, layout", "why_tests_cant": "All inputs.", "anchors": ["src/parsers/earley.rs: parse", "src/parsers/earley/state.rs"]}
{"id": "C43", "title": "Earley parse rejects only non-words", "statement": "If parse returns None then the token kinds do not form a word of the language.", "quantifier": "every accepted grammar, token sequence, layout", "why_tests_cant": "All inputs.", "anchors": ["src/parsers/earley.rs: parse", "src/parsers/earley/state.rs"]}
{"id": "C44", "title": "Earley parse never panics", "statement": "parse returns Some or None on every wrapped grammar and token sequence: an unexpected token yields None.", "quantifier": "every accepted grammar, token sequence, layout", "why_tests_cant": "All inputs; the shipped example ambiguous_earley itself is affected.", "anchors": ["src/parsers/earley.rs: close_state (assert)", "src/parsers/earley/state.rs: insert (assert_eq)", "src/state.rs: Ord for ProdState"]}
{"id": "C45", "title": "the parse forest contains every derivation", "statement": "When parse returns a node, every derivation tree of the token sequence (labelled with action keys, leaves with kind and value) can be read off that node.", "quantifier": "every accepted grammar, token sequence, layout and every (of possibly infinitely many) derivation tree", "why_tests_cant": "Infinitely many trees for cyclic grammars.", "anchors": ["src/parsers/earley/state.rs: complete, insert", "src/parsers/tree.rs"]}
{"id": "C46", "title": "the parse forest contains only derivations of the input", "statement": "Every tree that can be read off the returned node is a derivation tree of the start symbol and its yield is the token sequence.", "quantifier": "every accepted grammar, token sequence, layout, tree", "why_tests_cant": "All inputs.", "anchors": ["src/parsers/earley/state.rs: insert (pointwise add_all)"]}
{"id": "C47", "title": "Earley parse on prefix-free grammars", "statement": "On grammars whose nonterminals derive nonempty prefix-free languages (e.g. bracketed languages), parse never panics on a prefix of a word of the language, and returns Some on exactly the words of the language.", "quantifier": "every such grammar and input", "why_tests_cant": "All inputs.", "anchors": ["src/parsers/earley.rs", "src/parsers/earley/state.rs"]}
{"id": "C48", "title": "recognition is independent of memory layout", "statement": "Whether parse panics, returns None, or returns Some does not depend on the addresses of the productions (which order the state sets).", "quantifier": "every two layouts", "why_tests_cant": "Layouts cannot be controlled by a test.", "anchors": ["src/grammar/base/cmp_wrappers.rs: RefCompare", "src/grammar/base.rs: Ord for Prod"]}
{"id": "C49", "title": "ProdState positions stay in range", "statement": "For every history of advances from from_start, the position never exceeds the body length; is_complete iff there is no next element; advancing by advance_if succeeds iff the next element equals the given one, and reading next elements one after the other enumerates the production body.", "quantifier": "every production and history", "why_tests_cant": "All productions.", "anchors": ["src/state.rs: ProdState"]}
{"id": "C50", "title": "ProdStateSet holds every state added", "statement": "After add(s), the set contains s; nexts() groups all advanced states by element.", "quantifier": "every history of adds", "why_tests_cant": "All histories; failing ones have two dots in one production.", "anchors": ["src/state.rs: Ord for ProdState, ProdStateSet::add, nexts, take_closure"]}
{"id": "C51", "title": "ProdStateSet::take_closure", "statement": "take_closure terminates whenever the closure is finite, keeps every state, and the resulting set is closed under the closure function up to the states' equality.", "quantifier": "every state set and closure function", "why_tests_cant": "All closure functions.", "anchors": ["src/state.rs: take_closure"]}
{"id": "C52", "title": "LALR item closure", "statement": "Building a parse state from kernel items yields the kernel items plus every production start reachable from them, with all lookaheads of LR(1) propagation.", "quantifier": "every accepted grammar and kernel", "why_tests_cant": "All grammars.", "anchors": ["src/parsers/lalr.rs: from_prod_lookahead"]}
{"id": "C53", "title": "rules compare within one grammar only", "statement": "Comparing rules of the same grammar is a total order that is Equal iff they are the same rule; comparing rules of different grammars panics; productions compare by identity without a grammar check.", "quantifier": "every pair of rules/productions and layout", "why_tests_cant": "All layouts.", "anchors": ["src/grammar/base.rs: Rule, Prod", "src/grammar/base/cmp_wrappers.rs"]}
{"id": "C54", "title": "tree handles can be used from several threads", "statement": "Whatever the schedule, threads performing tree operations on a shared tree never deadlock.", "quantifier": "every schedule", "why_tests_cant": "Needs a particular interleaving of lock requests.", "anchors": ["src/parsers/tree.rs: make_branch_alt, is_same, with, with_mut"]}
{"id": "C55", "title": "nonnull transform works on its documented example", "statement": "transform_to_nonnull turns the grammar q := p p; p := A | (empty) of its module documentation into the documented grammar: a nullable production keeps its nonempty variants.", "quantifier": "the documented grammar; more generally every grammar with a nullable production that also derives nonempty words", "why_tests_cant": "A test on other grammars passes; the claim is about what happens to every nullable production.", "anchors": ["src/grammar/transform/nonnull.rs: module documentation, transform_to_nonnull"]}
{"id": "C56", "title": "nonnull transform: exact language of the result", "statement": "When transform_to_nonnull returns Ok, a nonterminal derives w in the result iff w is nonempty and the original derives w by a derivation in which every production deriving the empty word is used only to derive the empty word.", "quantifier": "every accepted grammar, nonterminal and word", "why_tests_cant": "Languages are infinite.", "anchors": ["src/grammar/transform/nonnull.rs: transform_to_nonnull"]}
{"id": "C57", "title": "Firsts::get: exact presence", "statement": "Firsts::get(A) is None exactly when no symbol other than A itself can come first in a derivation step of A (everything before it nullable).", "quantifier": "every accepted grammar and nonterminal", "why_tests_cant": "All grammars.", "anchors": ["src/grammar/passes/firsts.rs"]}
{"id": "C58", "title": "Follows pass: exact content", "statement": "t is in the computed follow set of A iff A is immediately followed in a body by t, or by a nonterminal whose FIRST contains t, or A ends a body of a head whose computed set contains t (nullable symbols are not skipped).", "quantifier": "every accepted grammar, nonterminal, terminal", "why_tests_cant": "All grammars.", "anchors": ["src/grammar/passes/follows.rs"]}
{"id": "C59", "title": "Follows pass: exact verdict", "statement": "The Follows pass always terminates; it fails iff the grammar is null-ambiguous, otherwise panics iff some nonterminal is directly followed in a body by one for which Firsts::get is None, otherwise returns Ok.", "quantifier": "every accepted grammar", "why_tests_cant": "All grammars.", "anchors": ["src/grammar/passes/follows.rs"]}
{"id": "C60", "title": "apply_fixed_point: exact behaviour", "statement": "apply_fixed_point returns iff the target map is empty (then unchanged); on any non-empty target it loops forever whatever the processor.", "quantifier": "every processor and target", "why_tests_cant": "Non-termination cannot be observed by a test.", "anchors": ["src/utils.rs: apply_fixed_point"]}
{"id": "C61", "title": "a failed pass stays unusable", "statement": "After get_pass returned Err for a pass, every later request of that pass from the same context panics with the recursion message, whatever is requested in between.", "quantifier": "all pass definitions, contexts and later requests", "why_tests_cant": "quantifies over all histories of a context", "anchors": ["src/grammar/passes/mod.rs:PassContext::get_pass"]}
{"id": "C62", "title": "the library's passes through a context equal their direct computation", "statement": "Requesting Nullable, Firsts or Follows from a fresh context gives the value, error or panic of computing it directly, and every answer of any context is that value.", "quantifier": "all grammars, passes and request histories", "why_tests_cant": "quantifies over all grammars and histories", "anchors": ["src/grammar/passes/mod.rs:PassContext::get_pass", "src/grammar/passes/firsts.rs:run_pass", "src/grammar/passes/follows.rs:run_pass"]}
{"id": "C63", "title": "VecTokenStream: exact behaviour", "statement": "Reading a VecTokenStream ends at once with None when the collection is empty and panics at the first read otherwise.", "quantifier": "every token collection", "why_tests_cant": "quantifies over all collections", "anchors": ["src/parsers/mod.rs:VecTokenStream::next"]}
{"id": "C64", "title": "to_dot exports what is strictly below the root", "statement": "The exported graph always gets built; its vertices are, each once, the nodes and alternatives reachable from the given node by one or more steps, its edges all edges leaving these vertices; so the given node appears iff it lies on a cycle.", "quantifier": "every history of tree operations and every node", "why_tests_cant": "All forests, including cyclic.", "anchors": ["src/parsers/tree.rs: collect_nodes_and_alts, DotPrinter"]}
{"id": "C65", "title": "Earley parse panics exactly when ...", "statement": "parse panics iff some beginning of the token sequence is not the beginning of any sentential form of the start symbol (a syntax error before the end), or at some position a production begun at one place can be both at a dot and at a later dot of its body, or the start symbol derives the empty word.", "quantifier": "every accepted grammar, token sequence, layout and tree", "why_tests_cant": "an equivalence over all grammars and inputs", "anchors": ["src/parsers/earley.rs: parse, close_state", "src/parsers/earley/state.rs: EarleyStateSet::insert, EarleyState::complete", "src/state.rs: ProdState Ord"]}
{"id": "C66", "title": "the parse forest uses the grammar correctly", "statement": "Every tree that can be read off the returned node is a derivation tree of the start symbol for some token sequence: each branch carries the action key of a production and has children matching that production's body.", "quantifier": "every accepted grammar, token sequence, layout, and each of possibly infinitely many trees", "why_tests_cant": "forests are infinite objects and inputs unbounded", "anchors": ["src/parsers/earley.rs: parse, close_state", "src/parsers/earley/state.rs: EarleyStateSet::insert, EarleyState::complete", "src/parsers/tree.rs: Node"]}
{"id": "C67", "title": "the parse forest is exact when pieces are cut in one way", "statement": "If each part of a production occurring while parsing cuts the input in only one way (an input without split ambiguity), then the trees that can be read off the returned node are exactly the derivation trees of the input.", "quantifier": "every accepted grammar, such token sequence, layout, tree", "why_tests_cant": "equality of two possibly infinite sets of trees", "anchors": ["src/parsers/earley.rs: parse, close_state", "src/parsers/earley/state.rs: EarleyStateSet::insert, EarleyState::complete"]}
{"id": "C68", "title": "parse does not disturb an existing forest", "statement": "parse leaves all nodes and alternatives that were in the tree as they were (same alternatives, same contents, same readable trees), and the node it returns is new.", "quantifier": "every tree built through the API, grammar, token sequence, layout", "why_tests_cant": "ranges over all earlier histories of the tree", "anchors": ["src/parsers/earley.rs: parse, close_state", "src/parsers/tree.rs: TreeHandle"]}
{"id": "C69", "title": "parse only uses the public tree API, correctly", "statement": "A parse that returns amounts to a history of make_leaf_node, make_branch_node and add_all calls on the given tree, each of which returned (no ownership assertion fails) with nodes of that tree; other trees are untouched.", "quantifier": "every tree history, grammar, token sequence, layout", "why_tests_cant": "ranges over all histories and inputs", "anchors": ["src/parsers/earley.rs: parse, close_state", "src/parsers/earley/state.rs: EarleyStateSet::insert, EarleyState::complete", "src/parsers/tree.rs: TreeHandle, Node"]}
{"id": "C70", "title": "positions are ordered like offsets", "statement": "For two ranges of the same buffer, if one starts at an earlier or the same offset then its (line, column) is lexicographically at most that of the other.", "quantifier": "every text, every pair of ranges obtained by any history", "why_tests_cant": "ranges over all texts, grapheme segmentations and pairs of offsets", "anchors": ["src/utils/buffer.rs: start_pos, get_text_pos_from_byte_offset"]}
{"id": "C71", "title": "What a ProdStateSet holds", "statement": "A set of states holds at most one state per production: after any sequence of adds it is the first state added of each production (for from_iter, the first or the last one yielded, depending on the std version); complete returns exactly the held states at the end of their body; nexts lists each next element once, with exactly the advances of the held states over it; two sets are equal iff they hold the same productions, whatever the positions.", "quantifier": "every history of adds, every accepted grammar and address layout", "why_tests_cant": "All histories and layouts.", "anchors": ["src/state.rs: Ord for ProdState, ProdStateSet"]}
{"id": "C72", "title": "exact parse state", "statement": "Building a parse state from items always ends: with an error iff the grammar is null-ambiguous; with a panic iff some state of the closure has a nonterminal without Firsts entry right after the nonterminal at its dot; otherwise with exactly one state per production of the closure that looks only at the symbol after the nonterminal, with exactly its lookaheads.", "quantifier": "every accepted grammar, list of items and layout in memory", "why_tests_cant": "All grammars and item lists; fixpoint.", "anchors": ["src/parsers/lalr.rs: from_prod_lookahead"]}
{"id": "C73", "title": "actions of a parse state", "statement": "shift_actions of a reachable parse state has exactly the terminals at a dot as keys, each leading to the closure of the items moved over it; reducable_actions lists the action keys of exactly the complete states, once each.", "quantifier": "every accepted grammar and every parse state reachable by construction and shifts", "why_tests_cant": "All reachable parse states.", "anchors": ["src/parsers/lalr.rs: shift_actions, reducable_actions, shuffle_iter"]}
{"id": "C74", "title": "operations of several threads are atomic", "statement": "Whatever the schedule and the lock's priority policy, tree operations called from several threads behave as if each took effect at one moment between its call and its return (make_leaf_node and make_branch_node: as the three operations they consist of), with the results of the sequential operations; no lock is ever poisoned, an operation on handles of one tree never panics, threads making equal alternatives get equal handles, contents read back what was made and no added alternative is lost.", "quantifier": "every number of threads, every sequence of calls per thread with handles passed between threads, every schedule, both priority policies", "why_tests_cant": "Interleavings are unboundedly many.", "anchors": ["src/parsers/tree.rs: with, with_mut, TreeHandle, Node, Alternative"]}
{"id": "C75", "title": "make_branch_alt deadlocks on an iterator that creates nodes", "statement": "If the iterator passed to make_branch_alt creates one of its nodes by make_node on the same tree when asked for it, the call never returns an alternative, and once it holds the read lock the thread waits for itself for ever.", "quantifier": "every state, schedule and priority policy", "why_tests_cant": "A test of a hanging call does not terminate.", "anchors": ["src/parsers/tree.rs: make_branch_alt, make_node, with, with_mut"]}
{"id": "C76", "title": "take_only", "statement": "take_only returns an item exactly if the iterator yields that item and then ends; it asks for at most two items, so it returns also on infinite iterators.", "quantifier": "every iterator, finite or infinite", "why_tests_cant": "All iterators.", "anchors": ["src/utils.rs: take_only"]}
{"id": "C77", "title": "a printed grammar can be read back", "statement": "From the text to_pretty prints for an accepted grammar, however it is broken into lines, the start symbol and all rules with their productions, elements and element names, in order, can be read back, provided names are nonempty and contain no white space or punctuation and no terminal is named \u03b5; so two such grammars with the same text agree up to actions.", "quantifier": "every accepted grammar with such names, every renderer", "why_tests_cant": "All grammars and line layouts.", "anchors": ["src/grammar/base.rs: to_pretty, ToDoc for Grammar, RuleInner, ProdInner, ProdElement, Elem"]}
{"id": "C78", "title": "layout changes only white space", "statement": "Whatever the names and the decisions of the renderer, the words and punctuation of a printed grammar are exactly those given by its start symbol and rules; for a wrapped grammar the start production <START> => start:<S> <EOS> comes first, followed by the original rules.", "quantifier": "every grammar, wrapped or not, any names, every renderer", "why_tests_cant": "All grammars and line layouts.", "anchors": ["src/grammar/base.rs: to_pretty", "src/start_grammar.rs: ToDoc for StreamTerminal, StartNonTerminal"]}
{"id": "C79", "title": "different grammars have different texts", "statement": "Two accepted grammars that differ have different texts.", "quantifier": "every pair of accepted grammars", "why_tests_cant": "All pairs of grammars.", "anchors": ["src/grammar/base.rs: to_pretty"]}
{"id": "C80", "title": "the dot export is a well-formed description of the graph", "statement": "to_dot never panics; distinct vertices get distinct identifiers that are valid in dot; there is exactly one declaration per vertex strictly below the root, with the action (or kind and value) as label; each alternative of a node and each child of a branch gives one edge, in order and with repetitions, and both ends of every edge are declared.", "quantifier": "every history of tree operations, every node, any number of vertices", "why_tests_cant": "All forests and all vertex numbers.", "anchors": ["src/parsers/tree.rs: to_dot, node_id, node_label, edges"]}
{"id": "C81", "title": "every tree of the forest is made of pieces of the input", "statement": "Whatever the grammar, every tree that can be read off the node parse returns uses the grammar's productions, its leaves are tokens of the input, and at every branch over a piece of the input the production derives that piece and each child is (in the same sense) a tree over a piece that begins where the symbols before it can end, the last one ending where the branch ends.", "quantifier": "every accepted grammar, input, existing tree and memory layout; every choice of alternatives", "why_tests_cant": "All grammars and inputs; the forest can hold infinitely many trees.", "anchors": ["src/parsers/earley/state.rs: insert, complete, scan", "src/parsers/earley.rs: parse"]}
{"id": "C82", "title": "the forest depends only on grammar and tokens", "statement": "Which trees can be read off the returned node does not depend on the addresses of the productions, nor on what the tree held before: any two parses of the same tokens with the same grammar give the same set of trees.", "quantifier": "every accepted grammar, input, pair of memory layouts and pair of earlier trees", "why_tests_cant": "Addresses differ from run to run and cannot be chosen by a test.", "anchors": ["src/parsers/earley/state.rs: insert", "src/grammar/base/cmp_wrappers.rs: RefCompare"]}
{"id": "C83", "title": "comparisons are lawful", "statement": "For lawfully ordered symbol types, ==, partial_cmp and cmp of every public data type and reference type agree; cmp is a total order in declaration order of variants and fields; values compare equal exactly when identical (references: when they refer to the same object), except that positions compare only their production, NoCompare always says equal and ParentRef panics on different parents.", "quantifier": "all values of all comparable types, all symbol types with lawful comparisons, all tree depths, any number of trees and addresses", "why_tests_cant": "Total order laws range over all triples of values of unbounded nesting.", "anchors": ["src/grammar/base.rs: Elem, ProdElement, ProdInner, ProdKey, Prod", "src/grammar/base/cmp_wrappers.rs: ParentRef, NoCompare, RefCompare", "src/utils.rs: Name, TreeNode, TreeValue, WasChanged", "src/start_grammar.rs: StreamTerminal, StartNonTerminal, StartActionKey", "src/parsers/tree.rs: TreeHandle, Node, Alternative, NodeContent", "src/state.rs: ProdState, ProdStateSet"]}
{"id": "C84", "title": "The repository's own example grammars mean what they say, and what parsing with them does", "statement": "Each grammar in grammar/examples.rs, lib.rs and examples/*.rs is accepted by the builder and generates exactly the intended language and trees (one of two letters; the empty word with one, two or infinitely many trees; balanced parentheses; even repetitions; nested values; arithmetic expressions). Earley-parsing with them, on every token sequence: nested values and single letters are accepted with exactly their tree, their proper beginnings are rejected and everything else panics; grammars deriving the empty word always panic; the parenthesis grammar panics on every non-empty input; the arithmetic grammar accepts exactly parenthesised numbers, rejects exactly the other beginnings of expressions in which no operator is followed by a whole expression, and panics on everything else, so on every word with an operator.", "quantifier": "all token sequences with any values, all layouts of productions in memory, all trees to parse into", "why_tests_cant": "There are infinitely many inputs, and the panics depend on where productions lie in memory only in tests.", "anchors": ["src/grammar/examples.rs", "src/lib.rs:base_grammar", "src/lib.rs:create_arithmetic_grammar", "examples/simple_earley.rs", "examples/ambiguous_earley.rs"]}
{"id": "C85", "title": "The parse forest is of polynomial size, and parsing takes polynomially many steps", "statement": "However ambiguous the grammar, and even when the input has exponentially or infinitely many trees, the forest below the node parse returns has at most one node per symbol of a right-hand side and piece of the input (plus the root), and at most one alternative per token plus one per production and piece of the input; the same bounds all alternatives added to the caller's tree; the nodes made, including those thrown away, and the rounds at each position are bounded by a fixed polynomial in the size of the grammar and of the input.", "quantifier": "every accepted grammar, every placement of its productions in memory, every input, every tree built through the API", "why_tests_cant": "sizes grow with the input and the number of trees is unbounded; a test measures single inputs", "anchors": ["src/parsers/earley.rs:parse", "src/parsers/earley.rs:close_state", "src/parsers/earley/state.rs:insert", "src/parsers/tree.rs:make_alt"]}
{"id": "C86", "title": "Parsing into a shared tree is not disturbed by other threads", "statement": "While one thread parses tokens into a tree, other threads holding a handle of the same tree may make nodes and alternatives and add alternatives to nodes they hold, between any two of the parser's accesses to the tree. The parse still ends exactly as it would alone: with the same panic, with no parse, or with a root node whose forest is the same up to the numbers of nodes and alternatives, so exactly the same trees can be read off it; and the parse changes no node it did not make itself.", "quantifier": "all grammars, token sequences, initial trees, and all sequences of operations of other threads at all points between the parser's critical sections", "why_tests_cant": "A test runs a few interleavings; the claim is about every interleaving of every other program.", "anchors": ["src/parsers/earley.rs: parse", "src/parsers/tree.rs: TreeHandle::make_leaf_node, TreeHandle::make_branch_node, Node::add_all, TreeHandle::with_mut", "src/parsers/earley/state.rs: insert"]}
{"id": "C87", "title": "A dot export of a tree that other threads are changing lies between the tree before and the tree after", "statement": "While a node is exported to dot, other threads may make nodes and alternatives and add alternatives to any nodes between any two lock acquisitions of the export. The export still returns without a panic and changes nothing; it declares, once each and correctly labelled, every vertex that was strictly below the node when it began and only vertices that are below it when it ends; it writes every edge that left a declared vertex at the beginning and only edges that exist at the end. (An edge may lead to a vertex that is not declared: edges are read after the walk.)", "quantifier": "all trees and nodes, all sequences of operations of other threads at all points between the export's lock acquisitions", "why_tests_cant": "A test runs a few interleavings; the claim is about every interleaving of every other program.", "anchors": ["src/parsers/tree.rs: Node::to_dot, collect_nodes_and_alts, DotPrinter::edges, DotPrinter::node_label"]}
{"id": "C88", "title": "the nonnull transform keeps derivation trees", "statement": "For a grammar that transform_to_nonnull accepts, the derivation trees of the result from any nonterminal are exactly the derivation trees of the original grammar for nonempty token sequences that use productions deriving the empty word only for the empty word, with their empty subtrees removed and every branch's action key extended by the flags saying which nonterminal children were empty. If productions of one rule have different action keys, the original tree can be recovered from the trimmed one.", "quantifier": "all accepted grammars, nonterminals, token sequences and derivation trees (any depth), all memory layouts", "why_tests_cant": "a test compares a few trees; the correspondence is an induction over all derivation trees of all grammars", "anchors": ["src/grammar/transform/nonnull.rs:transform_to_nonnull", "src/grammar/transform/nonnull.rs:build_nonnull_prods", "src/grammar/transform/nonnull.rs:ActionKey"]}
{"id": "C89", "title": "parsing with the null-free grammar", "statement": "Transforming a grammar with transform_to_nonnull, wrapping the result with wrap_grammar_with_start and parsing with it: if parse returns, it accepts exactly the nonempty words having a derivation in the original grammar that uses productions deriving the empty word for the empty word only (all nonempty words of the original grammar if those productions derive nothing else); the forest contains the trimmed tree of each such derivation, and only trimmed trees; it panics exactly on a prefix that begins no sentential form of the transformed grammar or when a production is at two places at once, never because of the empty word.", "quantifier": "all grammars the two transformations accept, all inputs, all starting trees, all memory layouts", "why_tests_cant": "composition of three algorithms over unbounded grammars and inputs; panic freedom is about all inputs", "anchors": ["src/grammar/transform/nonnull.rs:transform_to_nonnull", "src/start_grammar.rs:wrap_grammar_with_start", "src/parsers/earley.rs:parse"]}
{"id": "C90", "title": "What a deadlock of tree operations looks like, and how to avoid it", "statement": "However threads share trees, the calls under way never run on for ever; if they cannot go on although some have not returned, the lock gives writers preference and some thread, inside make_branch_alt, make_leaf_node, make_branch_node, add_alt or add_all, holds a read lock and waits to take another behind a thread waiting to write; when no call mixes trees those two threads are stuck for good. Programs in which no thread changes a tree that another thread hands to one of those calls (for instance: one thread changes, all others only read) never deadlock, under either lock policy.", "quantifier": "all programs of any number of threads and trees, all schedules, both lock policies", "why_tests_cant": "Deadlock freedom is a statement about all schedules; tests see a few.", "anchors": ["src/parsers/tree.rs: TreeHandle::with, with_mut, make_branch_alt, is_same, add_alt, add_all"]}
{"id": "C91", "title": "Rounds of the fixed-point loops are bounded", "statement": "breadth_first_search stops after at most two rounds more than there are elements to find; building a grammar after at most two rounds more than there are mentioned nonterminals; the Nullable pass's loops after at most one round more than there are productions; the Firsts and Follows loops after at most one round more than max(productions, nonterminals x terminals); transform_to_nonnull after the larger of the bounds for Nullable and build. With that many rounds the final outcome (value, error or panic) is reached.", "quantifier": "every successor function, start set, sequence of builder calls and accepted grammar", "why_tests_cant": "A bound over all grammars; a loop that stalls or revisits on some grammar shape would only show there.", "anchors": ["src/utils.rs: breadth_first_search, change_loop, change_iter", "src/grammar/base.rs: Grammar::new", "src/grammar/passes/nullable/nullables.rs: inner_calculate_nullables, calculate_nullables", "src/grammar/passes/firsts.rs: calculate_firsts", "src/grammar/passes/follows.rs: calculate_follows", "src/grammar/transform/nonnull.rs: transform_to_nonnull"]}
{"id": "C92", "title": "Debug texts identify the values they show", "statement": "The Debug text ({:?} or {:#?}) of a symbol, key or value of a wrapped grammar, a build error, a production, a production state, an Earley state or set of states, a nullable action tree, an action key or value of a transformed grammar, or of what was given to the formatting helpers determines the value (for states: head, body, position, origin and number of values), provided the symbols' own Debug implementations are derived ones and all names are words. Two failing builds whose errors print alike failed for the same reasons. Two grammars print alike exactly when they have the same rules with the same element names; the start symbol and the actions are not shown, and names with punctuation can be confused.", "quantifier": "all values of these types, all name contents without white space and punctuation, both formatting styles (and mixed)", "why_tests_cant": "injectivity of printing over all values; a test compares single texts", "anchors": ["src/grammar/base.rs:GrammarErrors,Grammar,Rule,Prod", "src/utils/fmt.rs", "src/state.rs:ProdState", "src/parsers/earley/state.rs:EarleyState", "src/utils.rs:TreeNode,Name", "src/grammar/transform/nonnull.rs:ActionKey,ActionValue"]}
{"id": "C93", "title": "build does not depend on the order of calls", "statement": "The outcome of build (grammar, errors or panic) depends only on the last add_rule of each head: adding rules for different heads in another order changes nothing, a rule that is later replaced has no effect, and adding the rules of an accepted grammar to a new builder gives the same grammar. The order and number of the productions of a rule change neither the verdict nor the language.", "quantifier": "all start symbols, all sequences of builder calls and all their rearrangements", "why_tests_cant": "a relation between all pairs of call sequences", "anchors": ["src/grammar/base/builder.rs:build,add_rule", "src/grammar/base.rs:Grammar::new"]}
{"id": "C94", "title": "the passes are exact on null-free grammars", "statement": "The null-free grammar has no FIRST or FOLLOW relations the original lacks, and exactly those of the original when only empty bodies derive the empty word (which holds when the transformation keeps the language of a grammar whose nonterminals all derive words). On it the Nullable pass returns an empty result, the Firsts pass returns exactly FIRST of the original, and the Follows pass exactly FOLLOW of the original, without panicking if all nonterminals derive words: transforming first repairs the incompleteness of the Follows pass.", "quantifier": "all accepted grammars the transformation succeeds on, all memory layouts", "why_tests_cant": "needs all derivations of all grammars", "anchors": ["src/grammar/passes/follows.rs", "src/grammar/passes/firsts.rs", "src/grammar/transform/nonnull.rs"]}
{"id": "C95", "title": "Transforming a null-free grammar only relabels actions", "statement": "If no nonterminal of a built grammar derives the empty word, the nonnull transformation succeeds and returns the same start symbol, the same heads in the same order, and the same productions one for one with the same elements; only the action key (now saying that no element was dropped) and action value (no recorded arguments) are wrapped. Hence transforming the result of a transformation always succeeds and changes no production body.", "quantifier": "every built grammar without nullable nonterminals; every successful transformation", "why_tests_cant": "Quantifies over all grammars; idempotence depends on the variants of every production being exactly one.", "anchors": ["src/grammar/transform/nonnull.rs:transform_to_nonnull"]}
{"id": "C96", "title": "results do not depend on where the grammar lives in memory", "statement": "Nullable, Firsts, Follows and the nonnull transformation compare productions by address; nevertheless, with the productions of the same grammar at any other (different) addresses - in another run, or after cloning the grammar - each of them has exactly the same outcome: the same result, the same error or the same panic.", "quantifier": "every accepted grammar; every two injective assignments of addresses", "why_tests_cant": "Addresses differ from run to run; a test observes a few layouts.", "anchors": ["src/grammar/passes/nullable/nullables.rs", "src/grammar/base/cmp_wrappers.rs", "src/grammar/transform/nonnull.rs"]}
{"id": "C97", "title": "names and order of symbols do not matter", "statement": "Renaming nonterminals injectively (in any way, in particular changing their order), terminals, action keys and action values renames every result and changes nothing else: build has the renamed outcome (grammar, the three error sets, or panic), the passes return the renamed nullable trees, FIRST and FOLLOW sets or the same failure, the nonnull transformation returns the renamed grammar, the language is the renamed language, and Earley parsing of the renamed tokens accepts, rejects or panics as before, whatever the values of the tokens are.", "quantifier": "every start symbol, call sequence, grammar, renaming, layouts and token list", "why_tests_cant": "Ranges over all grammars and all renamings, including those that change the iteration order of every map.", "anchors": ["src/grammar/base.rs", "src/grammar/base/builder.rs", "src/grammar/passes", "src/grammar/transform/nonnull.rs", "src/parsers/earley.rs"]}
{"id": "C98", "title": "renaming renames the parse forest", "statement": "If the nonterminals, terminals, action keys, action values and token values are renamed injectively and the productions of the renamed grammar lie in the same relative order in memory, then parsing the renamed tokens into a tree that is the renaming of the original tree ends as before: with the same panic, or with no root, or with the same root node, and the resulting tree has node by node the same alternatives with renamed content. So exactly the renamed parse trees can be read off the root, and off every other node, although the maps of the tree are sorted by the new names. For the trees that can be read off the root the order in memory does not matter.", "quantifier": "every accepted grammar, renaming, pair of layouts in the same order, token list and starting trees", "why_tests_cant": "Ranges over all grammars, tokens and renamings, including those that reverse the order in which alternatives and symbols are stored.", "anchors": ["src/parsers/earley.rs", "src/parsers/earley/state.rs", "src/parsers/tree.rs", "src/start_grammar.rs"]}
{"id": "C99", "title": "the text of a parse panic", "statement": "Parsing has two panics only, and the text tells which: let j be the first position at which either the first j tokens begin no sentential form, or a production that began at one position is at two places at once (or j = 0 and the start symbol derives the empty word). If the first j tokens begin no sentential form (a syntax error) the panic is 'assertion failed: !new_state.is_empty()', otherwise it is the failed comparison of two node counts; no index, unwrap or missing rule ever panics. The text does not depend on the layout or the tree.", "quantifier": "every accepted grammar, layout, token list and starting tree", "why_tests_cant": "Ranges over all grammars and inputs; excludes every other panic of the parser.", "anchors": ["src/parsers/earley.rs", "src/parsers/earley/state.rs"]}
{"id": "C100", "title": "the order of a rule's productions does not matter for parsing", "statement": "Listing the productions of a rule in another order changes neither the verdict of a parse nor the set of trees that can be read off the returned node.", "quantifier": "every pair of accepted grammars with the same productions, every input, layout and tree", "why_tests_cant": "Ranges over all grammars, reorderings and inputs; the difference shows only on inputs whose beginnings can be cut in two ways.", "anchors": ["src/parsers/earley/state.rs: insert, close_state", "src/grammar/base/cmp_wrappers.rs: RefCompare"]}
{"id": "C101", "title": "threads can parse into one tree at the same time", "statement": "Any number of threads can parse at the same time into one tree or into several, each with its own grammar and input, while other threads use the trees in any way except adding alternatives to nodes a parser made: when all calls of a parser have returned, it got what it gets alone on any tree of its own: the same verdict or panic, and a root from which exactly the same trees can be read.", "quantifier": "every number of threads, schedule and lock policy, all grammars, inputs, memory layouts, and calls of other threads", "why_tests_cant": "Ranges over all interleavings of the locking steps of all calls of several parses.", "anchors": ["src/parsers/earley.rs: parse, close_state", "src/parsers/tree.rs: TreeHandle, Node::add_all, make_leaf_node, make_branch_node"]}
{"id": "C102", "title": "what LALR parse states mean", "statement": "In a grammar where no nonterminal derives the empty word and every one derives some word (in particular after the null-free transformation, when only empty bodies were nullable), building the parse state of the start of a production always succeeds, and the state contains the start of a production of A with lookahead t exactly when what is to be read, followed by a given lookahead, derives a form beginning with A t. In every accepted grammar, each state reached by shifting terminals continues a given item after exactly these terminals, so what has been shifted is the beginning of a word.", "quantifier": "all accepted grammars, productions, lookahead sets, sequences of shifts, memory layouts", "why_tests_cant": "Relates the computed item sets to all derivations of the grammar; shift sequences are unbounded.", "anchors": ["src/parsers/lalr.rs: ParseState::from_prod_lookahead, shift_actions", "src/grammar/transform/nonnull.rs: transform_to_nonnull"]}
{"id": "C103", "title": "Different LALR parse states compare different", "statement": "The comparisons of LALR parse states (==, partial_cmp, cmp) agree with each other and form a total order, in which two parse states are equal exactly when they hold the same productions with the same lookaheads. In particular - the expectation of whoever puts states in a set - a state and the state reached from it by shifting a terminal would compare different. (REFUTED: positions within the productions are not compared, so for every production that begins with a terminal not followed by a nonterminal, the state at its start and the state after that terminal compare equal; a table builder that collects states in a BTreeSet loses one of them.)", "quantifier": "all grammars, memory layouts, lookahead sets, parse states", "why_tests_cant": "needs every pair of parse states of every grammar", "anchors": ["src/parsers/lalr.rs: ParseState (Ord, PartialEq, PartialOrd)", "src/state.rs: ProdState (Ord, PartialEq)"]}
{"id": "C104", "title": "breadth_first_search and fixed_point call their function exactly as documented by their names", "statement": "breadth_first_search calls its function (which may keep state and may panic) once for each different initial item in increasing order, then round by round on the items answered for the first time in the round before, in increasing order, and returns exactly the set of answered items; its panics are exactly the function's. When answers depend on the argument only, every reachable item gets exactly one call besides the initial ones, so an initial item that is reachable again is visited twice. fixed_point calls its function on the start value and then on each answer until an answer equals its argument, and panics exactly when one of these calls does.", "quantifier": "all functions with state (FnMut), initial collections, start values and states", "why_tests_cant": "needs every stateful function and every order of answers", "anchors": ["src/utils.rs: breadth_first_search, fixed_point"]}
{"id": "C105", "title": "Dot export by a thread among threads", "statement": "If a thread exports a node to dot while any number of other threads call any tree operations on the same tree, in any interleaving of their lock acquisitions, then the export never panics; every vertex strictly below the node when the export began is declared exactly once with its label; every declared vertex is strictly below the node when it has ended; every edge written exists at the end and leaves a declared vertex; every edge that existed at the beginning and leaves a declared vertex is written. An edge may lead to a vertex that is not declared.", "quantifier": "all executions of any number of threads at the granularity of lock acquisition and release, all operations of the others, all nodes", "why_tests_cant": "the interleavings of lock acquisitions are unboundedly many and a test sees one of them", "anchors": ["src/parsers/tree.rs:to_dot", "src/parsers/tree.rs:collect_nodes_and_alts", "src/parsers/tree.rs:DotPrinter", "src/parsers/tree.rs:TreeHandle::with"]}
{"id": "C106", "title": "A panic in the caller's own code inside a tree call never corrupts a tree that can still be used", "statement": "Kinds, actions and values are compared, copied and destroyed by the caller's own implementations, and node lists are drawn from the caller's own iterator, all inside tree calls. Whatever of these panics, at whatever point, and the caller catches it: every tree that can still be used is exactly as if the calls that panicked had never been made (apart from an empty node nobody has a handle to), so contents read back as written and alts lists exactly what was added. A panic while a content is being stored makes that tree, and only that tree, unusable for ever: each later call about it panics. A panicking iterator or copy, or mixing trees, makes no tree unusable, and usable trees keep answering.", "quantifier": "all histories of tree calls on any number of trees, all points at which caller code may panic in each call, all later calls", "why_tests_cant": "crash points inside calls cannot be enumerated by tests and half-done states show only after the panic is caught", "anchors": ["src/parsers/tree.rs:TreeHandle::with", "src/parsers/tree.rs:TreeHandle::with_mut", "src/parsers/tree.rs:AltSet::add", "src/parsers/tree.rs:make_branch_alt"]}
{"id": "C107", "title": "Pass contexts stay consistent when panics are caught", "statement": "If a program, or a pass, catches the panic of a pass request and goes on using the context: every pass body is still started at most once and all values handed out for a pass are the same allocation; a pass whose request returned an error or panicked answers every later request with the recursion panic, a pass that gave a value gives the same value for ever; a pass that succeeds by itself (all passes it needs succeeding) is never spoilt by panics of other passes and answers with its value in every context that can be reached; values and errors are those of evaluating the pass plainly.", "quantifier": "all sets of passes (finite or not), all programs requesting them and catching panics, all histories", "why_tests_cant": "needs every interleaving of requests, failures and caught panics", "anchors": ["src/grammar/passes/mod.rs:PassContext::get_pass", "src/grammar/passes/mod.rs:NoCurrentValue"]}
{"id": "C108", "title": "Grammars in which one token decides are parsed correctly", "statement": "If no nonterminal of an accepted grammar derives the empty word and no two productions of a rule can begin with the same terminal - which can be tested with the library's own Nullable and Firsts passes -, the grammar is unambiguous and, if all its reachable nonterminals derive words, the Earley parser is right on every input: a word gives a node from which exactly its one derivation tree can be read, a proper beginning of a word gives None, and anything else is the panic of a syntax error.", "quantifier": "every such grammar, every token sequence, memory layout and starting tree", "why_tests_cant": "Unit tests can try some such grammars on some inputs; the claim is about all of them, although the same parser fails on most other grammars.", "anchors": ["src/parsers/earley.rs:parse", "src/parsers/earley/state.rs", "src/grammar/passes/firsts.rs", "src/grammar/passes/nullable.rs"]}
{"id": "C109", "title": "Left-recursive and nullable productions cannot be parsed", "statement": "Whenever a derivation of the input, or only of a beginning of it, uses a production that begins with its own head and has more symbols after it, parse panics; and it panics as soon as a production is reached at a symbol that derives the empty word. So no word with a derivation through a directly left-recursive production, and none through a production containing a nullable nonterminal, can ever be parsed; for words the panic is never that of a syntax error.", "quantifier": "every accepted grammar with such a production, every input with such a derivation, every layout and tree", "why_tests_cant": "Holds for every grammar and input of that kind, not for examples only.", "anchors": ["src/parsers/earley.rs:parse", "src/parsers/earley/state.rs:StateSet", "src/state.rs:ProdState"]}
{"id": "C110", "title": "Exactly the grammars all of whose words can be parsed", "statement": "Let every reachable nonterminal of an accepted grammar derive a word. Then the Earley parser returns a node for every word of the language exactly if the empty word is not in the language and no reachable production has a beginning of its body that derives a word which a longer beginning of the same body derives too. For these grammars every input gets the right verdict (node for a word, None for a proper beginning of one, the panic of a syntax error for anything else), and if moreover no beginning of a body splits off its last symbol in two ways, exactly the derivation trees of the word can be read from the node - also for ambiguous grammars.", "quantifier": "every accepted productive grammar, every token sequence, layout and starting tree", "why_tests_cant": "An if-and-only-if over all grammars, all words and all parses.", "anchors": ["src/parsers/earley.rs:parse", "src/parsers/earley/state.rs:StateSet", "src/state.rs:ProdState"]}
{"id": "C111", "title": "Panics of the caller's code among threads", "statement": "When several threads share trees and the caller's own code (comparison, copy, destructor, iterator) panics inside calls anywhere, the calls of all threads still behave as if made one after the other, each at one moment between its call and its return, with the same panics; so what one thread made any thread that gets an answer reads back, equal alternatives get equal handles, and no added alternative is lost on a tree that is not poisoned. A panic while storing a content poisons that tree for all threads for ever (every call about it begun later panics); nothing else poisons a tree, so no tree is ever poisoned if comparisons and destructors do not panic; a call on one unpoisoned tree panics only with the caller's own panic. No panic leaves a lock held: with readers first all calls return, and the only deadlock under the other policy is the one of C54.", "quantifier": "every number of threads, every sequence of calls per thread, every schedule, both priority policies, every point at which caller code may panic in each call", "why_tests_cant": "schedules and panic points multiply; a test sees one interleaving with one panic", "anchors": ["src/parsers/tree.rs:TreeHandle::with", "src/parsers/tree.rs:TreeHandle::with_mut", "src/parsers/tree.rs:AltSet::add"]}
{"id": "C112", "title": "Productions, their keys, and what a parse tree says about them", "statement": "Listing the productions of a built grammar gives each production added in the last call for its rule exactly once, rule by rule in the order of the heads and within a rule in the order of the calls, and asking a production for an element beyond its end gives nothing rather than a panic. Its head and its action key identify a production, as documented, so that a tree returned by a parse names exactly one derivation. (The last sentence fails: build never looks at keys, so a rule may use one key twice and a single parse tree then stands for two derivations. Head and key identify productions exactly for grammars in which no rule gives a key twice; wrapping keeps that, and then every tree of every parse result names exactly one derivation.)", "quantifier": "every sequence of builder calls, every grammar, every relabelling of keys and values, every token sequence and parse, every tree read from the result", "why_tests_cant": "a test sees one grammar; identity of productions concerns all pairs of productions and all derivations behind a tree", "anchors": ["src/grammar/base.rs:Prod", "src/grammar/base.rs:ProdKey", "src/grammar/base.rs:Prod::element_at", "src/grammar/base.rs:Grammar::prods", "src/grammar/base/builder.rs:GrammarBuilder::build", "src/parsers/earley.rs:parse"]}
{"id": "C113", "title": "the parser reads from left to right and looks only at kinds", "statement": "If parse panics on some tokens, it panics with the same text on every longer token list that begins with them, and there is a first token at which this happens: every list that stops before it is parsed without a panic. If a token list is parsed without a panic, so is every beginning of it, and the nodes made for the beginning are still there, with all their alternatives and readings, when the rest has been read into the same tree. Only the kinds of the tokens decide between panic, None and Some: lists with the same kinds have the same outcome, whatever the values, the tree and the memory layout.", "quantifier": "every accepted grammar, token list, continuation, tree and memory layout", "why_tests_cant": "tests try finitely many continuations and values", "anchors": ["src/parsers/earley.rs: parse", "src/parsers/earley/state.rs: scan, shift, insert", "src/parsers/tree.rs"]}
{"id": "C114", "title": "grammars with optional parts are parsed after the null-removing transformation", "statement": "Let a grammar in which productions deriving the empty word derive nothing else be transformed, wrapped and used for parsing. All its nonempty words are accepted exactly if no beginning of a body of the transformed grammar derives a word that a longer beginning derives too; then the parser accepts exactly the nonempty words, returns None on what only begins a word and panics on what begins no word. If moreover words are cut in one way, the trees of the forest are exactly the trees of the input in the original grammar without their empty parts, and each comes from exactly one original tree when keys are distinct.", "quantifier": "every accepted grammar with these properties, token list, tree and memory layout", "why_tests_cant": "tests try finitely many grammars and inputs; the statement composes three parts of the library", "anchors": ["src/grammar/transform/nonnull.rs", "src/start_grammar.rs", "src/parsers/earley.rs"]}
{"id": "C115", "title": "the parser never looks at token values", "statement": "Replacing the values of the tokens by any function, even one that makes different values equal or changes their type, changes nothing but the values in the trees: parse panics with the same text, or returns None in both cases, or returns nodes whose trees are the same up to this replacement. For inputs with the same kinds there is one set of trees with token positions at the leaves from which both forests are obtained by filling in the values.", "quantifier": "every accepted grammar, token list, function on values, tree and memory layout", "why_tests_cant": "tests try finitely many values; equal values share alternatives in the tree, which could change what the parser does", "anchors": ["src/parsers/earley.rs: parse", "src/parsers/earley/state.rs: scan, insert", "src/parsers/tree.rs: AltSet::add"]}
{"id": "C116", "title": "Machine integers do not show", "statement": "The crate computes with usize. Compiled with overflow checks or without, text ranges, their lengths and positions, steps through a production and token streams answer exactly what they would answer with unbounded numbers; lines and columns are no larger than the byte offset. Looking ahead in a production (offset_elem, offset_prod_elem) past the end answers None.", "quantifier": "all word sizes, both build profiles, all texts and productions that fit in memory, all ranges and positions a program can obtain, all offsets", "why_tests_cant": "An overflow shows only at sizes and offsets near usize::MAX, and differently in debug and release builds.", "anchors": ["src/utils/buffer.rs: BufferRange::byte_len, read_char_mut, start_pos, end_pos", "src/state.rs: ProdState::offset_prod_elem, offset_elem, next_elem_state", "src/parsers/mod.rs: VecTokenStream::next"]}
{"id": "C117", "title": "Values that are equal but not identical", "statement": "Kinds, action keys and values may be of types whose equality is coarser than identity (a value that compares by one of its parts). Tree operations and parse then give the same handles, change reports, verdicts and panics as for the parts compared; contents read back equal what was put in, up to that equality, never change, and are those first put in; every leaf of a parse forest shows a value equal to that of the token it stands for. A leaf of a parse carries the very value of its token.", "quantifier": "all types compared by a key, all histories of tree operations, all grammars and token sequences, all earlier contents of the tree", "why_tests_cant": "Tests use values whose equality is identity; sharing of equal contents shows only with values that differ in a part not compared, in forests that contain equal values.", "anchors": ["src/parsers/tree.rs: AltSet::add, TreeHandle::make_leaf_alt, Alternative::content", "src/parsers/earley.rs: parse"]}
{"id": "C118", "title": "What a forest shows about ambiguity", "statement": "A forest returned by parse has no dead ends: every node below the result has an alternative, and every alternative of such a node is used by some complete tree. A forest in which no node has a choice holds exactly one tree, and that is the only derivation tree of the input, whatever the grammar. The forest holds infinitely many trees exactly if some node occurs below itself, and if none does the input has finitely many derivation trees. If every piece of the input can be cut into the parts of a production in at most one way, the input has infinitely many derivation trees exactly if a node occurs below itself; and, if moreover no rule uses an action key twice, it has a single one exactly if no node has a choice. Without that condition on cuts a choice in the forest need not mean the input is ambiguous.", "quantifier": "all grammars the builder accepts, layouts of it in memory, token sequences and trees parsed into", "why_tests_cant": "the forest is shared and possibly cyclic; the claims compare the (possibly infinite) set of trees it holds with the set of derivation trees, over every grammar and input", "anchors": ["src/parsers/earley.rs: parse", "src/parsers/earley/state.rs:EarleyStateSet", "src/parsers/tree.rs: TreeHandle, Node, Alternative"]}
{"id": "C119", "title": "Symbols that are equal but not identical", "statement": "Terminals, nonterminals and action keys may be of types whose equality is coarser than identity (they compare by one of their parts). Building, wrapping, the Nullable, Firsts and Follows passes, the null-removing transformation, sets of items and their closure, LALR states with their shifts and reductions, and parsing then do, loop round by loop round, what they would do for the parts compared: the same grammar, error sets, pass results, item sets, LALR states, verdicts, root, tree and panics, up to those parts. In particular a nonterminal is reported nullable exactly if it derives the empty word when equal symbols are taken as one (rules are found by equal heads, terminals stand for equal kinds), parse accepts only words of the grammar read that way and rejects only other inputs, and the trees read off the forest are those of the parts.", "quantifier": "all types compared by a part, builder calls, grammars, layouts, item sets, closing functions that respect the parts, LALR states, token sequences and trees parsed into", "why_tests_cant": "the types and their comparison are parameters supplied by the user; a test fixes one type", "anchors": ["src/grammar/base.rs:Grammar::new", "src/grammar/base/builder.rs:GrammarBuilder", "src/start_grammar.rs:wrap_grammar_with_start", "src/grammar/passes/nullable/nullables.rs:calculate_nullables", "src/grammar/passes/firsts.rs:Firsts", "src/grammar/passes/follows.rs:Follows", "src/grammar/transform/nonnull.rs:transform_to_nonnull", "src/parsers/earley.rs:parse", "src/state.rs:ProdStateSet", "src/parsers/lalr.rs:ParseState"]}
{"id": "C120", "title": "What can be seen in a dot drawing", "statement": "In the graph to_dot writes, follow the arrows from a vertex, choosing one arrow at each point and taking all arrows, in order, at each box: from the point of any node strictly below the drawn one this gives exactly the trees of that node, from the box of an alternative exactly the trees of that alternative, each with its labels; so the trees of the drawn node are exactly those under the boxes of its alternatives, among which are all boxes no arrow leads to. Different trees are drawn differently if labels are different. In the drawing of a parse result every derivation tree of the input is found in this way, and nothing else if pieces of the input are cut in one way only. But which other boxes belong to the drawn node cannot be seen: two nodes with different trees can have the same drawing.", "quantifier": "every history of tree operations, every node (also on cycles, with infinitely many trees), every Debug output; every accepted grammar, layout and token sequence for parse results", "why_tests_cant": "the drawing of a cyclic forest stands for infinitely many trees, each of which has to be found", "anchors": ["src/parsers/tree.rs:to_dot", "src/parsers/tree.rs:DotPrinter", "src/parsers/earley.rs:parse"]}
{"id": "C121", "title": "The example programs, from the rules to the drawing", "statement": "A program of the form of examples/*.rs (build a grammar, wrap it, print it, parse tokens into a new tree, print the drawing), with any rules and tokens: it dies before printing anything (inside build if something reachable is undefined, otherwise at the unwrap of build's result) if the rules are not in order (something reachable or mentioned undefined, something mentioned unreachable, a rule without productions); otherwise it prints the wrapped grammar to its error output and then dies in the parser with the text belonging to the first position where the input goes wrong, or where a production is at two places at once; or dies at the unwrap of the result exactly if the parser gets through and the input is not a word; or prints a drawing in which every derivation tree of the input is drawn. simple_earley prints its grammar and the drawing of exactly one tree, the parentheses around the value, and ambiguous_earley prints its grammar and dies in the parser, wherever the productions are in memory.", "quantifier": "all rules, token sequences, symbol and value types, layouts of the productions in memory, renderers", "why_tests_cant": "ranges over all grammars, inputs and address layouts; running the two programs tries one layout each", "anchors": ["examples/simple_earley.rs:main", "examples/ambiguous_earley.rs:main", "src/grammar/base.rs:to_pretty", "src/parsers/tree.rs:to_dot"]}
{"id": "C122", "title": "Collecting LALR states by shifting", "statement": "For every grammar and every LALR parse state made from it, only finitely many states can be reached by shifting, so collecting them with breadth_first_search over the shift actions always ends; it panics only if a shift from a reachable state panics. The states found are reachable, pairwise different under their comparison, and every state after the first one or after a state found compares equal to one found; when no two different reachable states compare equal, exactly the reachable states are found. (Expected and false: that all reachable states are always found: parse states compare equal when they differ only in positions, so from any production that starts with two terminals not followed by a nonterminal the state after the second terminal is lost.)", "quantifier": "every grammar, memory layout, start state, and history of shifts", "why_tests_cant": "The set of states reachable by shifting is the closure of a step relation over every grammar; a test explores a few grammars.", "anchors": ["src/parsers/lalr.rs:ParseState::shift_actions", "src/utils.rs:breadth_first_search", "src/state.rs:ProdState::cmp"]}
{"id": "C123", "title": "Maps merged by least upper bounds", "statement": "If merge replaces a value by its least upper bound with the other and reports Unchanged exactly when the other was below already, a MergableMap holds under each key the least upper bound of everything inserted under equal keys, whatever the order, the repetitions and the mixture of owned and borrowed insertions; an insertion reports Unchanged exactly when the map already holds at least that value, and then changes nothing. Inserting what a function gives for the map until nothing changes (change_loop over change_iter over insert) ends whenever the keys are finitely many and the values of bounded height; the result holds everything the function gives for it and, if the function is monotone, is the least such map.", "quantifier": "every key order, merge function, history of insertions, function on maps", "why_tests_cant": "Ranges over all lattices, histories and functions; a test inserts a few values in a few orders.", "anchors": ["src/utils/mergeables.rs:MergableMap", "src/utils.rs:change_loop", "src/utils.rs:change_iter"]}
{"id": "C124", "title": "Sizes of nullable actions and of null-free grammars", "statement": "The action tree the Nullable pass records for a nonterminal has at most 1 + b + ... + b^(n-1) nodes for a grammar of n rules with at most b elements in a body (subtrees are cloned, not shared), and this growth is real: for every n the accepted grammar i -> l:(i+1) r:(i+1) (i < n), n -> (empty) gets a tree of 2^(n+1) - 1 nodes. transform_to_nonnull makes no production of one that derives the empty word and 2^k productions of any other, where k counts its elements that are nonterminals deriving the empty word; for every n > 0 an accepted grammar of three productions gets 2^n productions for one.", "quantifier": "every accepted grammar, nonterminal and production; every n", "why_tests_cant": "Sizes as a function of arbitrary grammars; tests only see small ones.", "anchors": ["src/grammar/passes/nullable/nullables.rs:calculate_nullables", "src/grammar/transform/nonnull.rs:build_nonnull_prods", "src/utils.rs:TreeNode"]}
{"id": "C125", "title": "From a text to a parse", "statement": "A program that cuts a buffer's text into tokens with advance_n and remove_suffix, taking each time as many characters as a lexer says of the rest of the text, and then parses the tokens. Cutting never panics; if the lexer's cut of the text is complete, the ranges made spell the pieces in order and together the text, each starts and ends at the positions its piece has in the buffer, and each ends where the next one starts; if the lexer asks for more than there is, the cutting ends with an error holding the range of what is left, up to the end of the text; if the lexer takes nothing for ever it does not end; a lexer that always takes something gives exactly one cut. Then, for every accepted grammar: a node is given only if the kinds of the pieces are a word of the language, every derivation tree of the tokens can be read from it, and every derivation tree, read from left to right, spells the whole text; every leaf read from it spells one of the pieces; no node is given only for nonwords. For grammars in which one token decides and nothing is empty: a word gives one tree, whose leaves spell the text; a proper beginning of a word gives no node; any other text is the panic of a syntax error.", "quantifier": "every text, buffer heap, range got from the API, lexer, classification of pieces, accepted grammar and start tree", "why_tests_cant": "Quantifies over all texts, lexers and grammars, and joins the buffers' guarantees with the parser's.", "anchors": ["src/utils/buffer.rs:BufferRange", "src/parsers/earley.rs:parse", "src/utils/tree.rs:TreeHandle"]}
{"id": "C126", "title": "A predictive parser written with the passes", "statement": "A top-down parser a user can write with Grammar::get_rule, the Nullable pass and the Firsts pass: it takes the first production that can begin with the next token, or that can be empty where the token may follow (or at the end of the input). For every accepted grammar on which the passes succeed, and whatever it is told about what may follow: it never panics, and what it returns is a derivation tree of the input. If it knows everything that can follow a nonterminal that may be empty, and no two productions ever fit, it ends on every input, with the only tree of a word and with None for a nonword; if it knows exactly that, its check decides whether the grammar is LL(1). For LL(1) grammars it need not know what follows: taking the empty production when nothing else begins with the token is enough. The content of the Follows pass (which has no accessor) serves this purpose when no nonterminal that may be empty stands right after a nonterminal, but not in general: there is an LL(1) grammar with a word the program rejects, and a grammar passing the check with a word on which the program does not end.", "quantifier": "every accepted grammar on which Nullable and Firsts succeed, every knowledge of followers, every input, every memory layout", "why_tests_cant": "Correctness and termination of a parser built from the passes is about all grammars and inputs; the defect of Follows only shows with two nullable symbols in a row.", "anchors": ["src/grammar/passes/nullable/nullables.rs:is_prod_nullable", "src/grammar/passes/firsts.rs:Firsts", "src/grammar/passes/follows.rs:Follows", "src/grammar/base.rs:get_rule"]}
{"id": "C127", "title": "Reading trees out of a forest", "statement": "Programs over the node a parse returns, written with Node::alts, Alternative::content and the accessors of leaves and branches. Always taking the first alternative ends without panicking, even when the forest has cycles, with a tree of the forest; if the pieces of the input are cut in one way it is a derivation tree of the input, otherwise it need not be (in an example it drops a token). Collecting all trees ends without panicking exactly if the forest has no cycle, with exactly the trees of the forest; if the pieces are cut in one way and no rule repeats an action key it ends exactly if the input has finitely many derivation trees, and lists each of them once. Reading the tree as long as there is nothing to choose, and giving up at the first node that does not have exactly one alternative, always ends; what it finds is the only derivation tree of the input, and it finds one exactly if the forest has no choice, which under the same conditions is exactly if the input is unambiguous. For grammars in which one token decides (C108), with distinct keys, it always finds the tree. The recursion of the first and the third program is never deeper than the number of alternatives C85 allows, that of the second, without cycles, than the number of nodes.", "quantifier": "every built grammar, every memory layout, every input, every tree the parse starts with, every other tree of the program", "why_tests_cant": "Termination on cyclic forests and exact enumeration are about all grammars and inputs; a test sees one forest.", "anchors": ["src/parsers/tree.rs: Node::alts, Alternative::content, Branch::nodes", "src/parsers/earley.rs: parse", "src/parsers/earley/state.rs: complete, insert"]}
{"id": "C128", "title": "Exact results from any forest", "statement": "The result of a parse may hold trees that are not derivation trees of the input (C46, C127), but never misses one (C45), and every tree in it follows the grammar (C66); so programs over the public calls get exact answers for every grammar. Listing the trees up to a given height always ends without panicking, even when the forest has cycles; those of them whose leaves, from left to right, are the input are exactly the derivation trees of the input up to that height. If the forest has no cycle the same filter turns the list of all its trees into exactly the derivation trees of the input. Trying one height after the other always ends after a successful parse, with a derivation tree of the input than which none is lower; no height above the number of rules times the number of pieces of the input, plus one, is needed. If no rule repeats an action key, the filtered trees up to twice that height contain two different ones exactly if the input is ambiguous. For grammars with optional parts the same programs work after transform_to_nonnull: the filtered trees are exactly the trimmed trees (C88) of the original grammar for the input, the search finds one of them, and ambiguity in the original grammar is found out.", "quantifier": "every built grammar, every memory layout, every input, every tree the parse starts with, every other tree of the program, every height", "why_tests_cant": "That a filter on a possibly wrong forest is exact, and that bounded heights suffice, concerns all grammars and inputs.", "anchors": ["src/parsers/tree.rs: Node::alts, Alternative::content, Branch::nodes", "src/parsers/earley.rs: parse", "src/parsers/earley/state.rs: complete, insert"]}
{"id": "C129", "title": "Locating errors and completing input with the parser as an oracle", "statement": "Parsing returns nothing useful on a syntax error: it panics (C44, C99). But a program that parses beginnings of the input, or the input with other tokens after it, each in a fresh tree and inside catch_unwind, and looks at the panic text, gets exact answers. For every accepted grammar whose reachable nonterminals all derive a word: going through the beginnings one after the other always ends; if it names a first wrong token, then some word begins with the tokens before it and none with it included; if it reports no trouble some word begins with the whole input; otherwise it names the first position at which a production is at two places at once. Every token it says can follow can follow. If moreover the start symbol does not derive the empty word and no beginning of a body overlaps a longer one (C110's condition) the answers are complete: one attempt tells exactly words, proper beginnings and the rest apart; the first wrong token is found exactly if there is one; the tokens tried after the input that are not refused are exactly those that can follow; a breadth-first search always ends, with a shortest completion of the input if it has one and otherwise with none; and the search to a depth lists exactly the completions up to that length (for the empty input: the words of the language up to that length). Without that condition tokens that can follow may be missed (left-recursive sums).", "quantifier": "every accepted productive grammar, every memory layout, every input, every depth; every assignment of values to the tokens tried", "why_tests_cant": "A test tries a few inputs; exactness speaks about all continuations of the input, an infinite set.", "anchors": ["src/parsers/earley.rs: parse", "src/parsers/earley.rs: close_state", "src/grammar/base.rs: Grammar::prods", "src/grammar/base.rs: Elem::as_term"]}
{"id": "C130", "title": "All readings of an input, or that they are infinitely many", "statement": "A program over the public calls decides, after every successful parse and whatever the grammar, whether the input has finitely many derivation trees, and if so lists exactly all of them: it lists the trees of the result up to twice the height (number of rules) x (number of pieces of the input) + 1, keeps those whose leaves are the input, and looks whether one of them is higher than that bound. It always ends without panicking. The input has finitely many derivation trees exactly if none is higher than the bound. What the program gives does not depend on the order in which the productions were listed (compare C100), nor on memory, the tree the parse starts with or other trees. For grammars with optional parts, after transform_to_nonnull, it gives exactly the trimmed trees (C88) of the original grammar for the input, unless the input has infinitely many trees in it; if no rule repeats an action key, finitely many are told from infinitely many for the original grammar too.", "quantifier": "every built grammar, every memory layout, every input, every tree the parse starts with, every other tree of the program", "why_tests_cant": "A test looks at particular forests; that no further tree exists, however high, needs a proof.", "anchors": ["src/parsers/tree.rs: Node::alts, Alternative::content, Branch::nodes", "src/parsers/earley.rs: parse", "src/parsers/earley/state.rs: complete, insert"]}
{"id": "C131", "title": "The oracle on grammars with optional parts", "statement": "A grammar whose productions can derive the empty word cannot be parsed as it is; transformed with transform_to_nonnull it can (C114). The oracle programs of C129 run on the transformed grammar then answer about the original one, as a user wrote it, optional parts included, provided productions that derive the empty word derive nothing else, everything reachable in the result derives a word, and no beginning of a body of the result overlaps a longer one: one attempt tells the nonempty words, what only begins a nonempty word and what begins none apart, and never panics with another message; the first wrong token is found exactly if there is one; the tokens said to be able to come next are exactly those with which some word of the original grammar goes on; a shortest completion to a nonempty word is found if there is one; and the search to a depth lists exactly the completions to nonempty words up to that length.", "quantifier": "every accepted grammar and transformation result that meet the conditions, every two memory layouts, every input, every depth, every assignment of values to the tokens tried", "why_tests_cant": "Tests sample inputs; the answers are about all words that begin with the input, of a grammar the parser never sees.", "anchors": ["src/grammar/transform/nonnull.rs: transform_to_nonnull", "src/start_grammar.rs: wrap_grammar_with_start", "src/parsers/earley.rs: parse", "src/parsers/earley/state.rs: close_state"]}
{"id": "C132", "title": "Correcting an input to a nearest word", "statement": "A program that only parses candidates (each in a fresh tree, inside catch_unwind) corrects a wrong input: it tries the input, then everything one edit away (a token left out, put in, or exchanged for a token of the grammar), then two edits, and so on. On the grammars where one attempt is exact (C129: everything reachable derives a word, the empty word is not in the language, no beginning of a body overlaps a longer one) the search always ends, whatever the input, even if nothing begins with it; it gives a word of the language, the tokens it keeps are the input's own with their values, and no word of the language has a smaller edit distance to the input. An input that is a word is given back unchanged, and only then. The bounded search lists exactly the words up to that edit distance. For every productive grammar what is listed is a word and within the distance. On a transformed grammar (C131) the same holds for the nonempty words of the original grammar, with its optional parts.", "quantifier": "every accepted productive grammar, every memory layout, every input, every edit distance, every assignment of values to the tokens put in", "why_tests_cant": "Tests correct sample inputs; that no nearer word exists and that the search ends quantify over all words of infinite languages.", "anchors": ["src/parsers/earley.rs: parse", "src/parsers/earley/state.rs: close_state", "src/grammar/transform/nonnull.rs: transform_to_nonnull"]}
{"id": "C133", "title": "A grammar test written with the library, and what its yes is worth", "statement": "A program over public calls tests any accepted grammar: it runs the Nullable and Firsts passes, computes the nonterminals that derive a word with change_loop and change_iter, visits the reachable ones with breadth_first_search, and compares the first tokens of all pairs of productions of a rule. For every accepted grammar and memory layout it ends without panicking; the set it computes is exactly the nonterminals that derive a word; and it says yes exactly if one token decides between the productions of each rule, nothing derives the empty word, and everything reachable derives a word. After a yes the Earley parser is right on every input: words have exactly one derivation tree, which is exactly what can be read from the result, proper beginnings of words give None, everything else is the panic of a syntax error; and the programs of C129 and C132 find the first wrong token, exactly the tokens that can follow, and a nearest word.", "quantifier": "every accepted grammar, every memory layout, every input, every starting tree", "why_tests_cant": "A test runs the check on sample grammars; that its yes covers all inputs of all grammars is a theorem about the check.", "anchors": ["src/grammar/passes/nullable.rs: Nullable", "src/grammar/passes/firsts.rs: Firsts", "src/utils.rs: change_loop, change_iter, breadth_first_search", "src/grammar/base.rs: prods, get_rule", "src/parsers/earley.rs: parse"]}
{"id": "C134", "title": "A test for grammars with optional parts, and what its yes is worth", "statement": "A program over public calls tests any accepted grammar that may derive the empty word: it runs the Nullable pass and transform_to_nonnull, computes with change_loop and change_iter the nonterminals that derive a nonempty word, checks that no production that derives the empty word has an element that derives another, and runs the test of C133 on the transformed grammar. For every accepted grammar and memory layouts it ends without panicking; the set it computes is exactly the nonterminals that derive a nonempty word; and it says yes exactly if productions that derive the empty word derive nothing else, the transformation succeeds, and its result is decided by one token and fully productive. After a yes, parsing with the transformed grammar is right about the grammar as the user wrote it, for every input: a nonempty word gives exactly its one derivation tree with empty parts trimmed, a proper beginning of a word that is not itself a nonempty word gives None, everything else is the panic of a syntax error; and the programs of C131 and C132 find the first wrong token, exactly the tokens that can follow, and a nearest nonempty word.", "quantifier": "every accepted grammar, every memory layout of the grammar and of its transformation, every input, every starting tree", "why_tests_cant": "A test runs the check on sample grammars; that its yes covers all inputs of all grammars with optional parts is a theorem about the check.", "anchors": ["src/grammar/passes/nullable.rs: Nullable", "src/grammar/transform/nonnull.rs: transform_to_nonnull", "src/utils.rs: change_loop, change_iter, breadth_first_search", "src/parsers/earley.rs: parse"]}
{"id": "C135", "title": "Cleaning a grammar: rules that cannot take part in a word are removed", "statement": "A program over public calls cleans any accepted grammar: it computes the nonterminals that derive a word with change_loop and change_iter, walks from the start symbol with breadth_first_search through the productions all of whose nonterminals do, and calls build with these productions of the rules it met. For every accepted grammar it ends without panicking; it answers that there is no word exactly if the language is empty, and otherwise build accepts the new rules. The productions of the new grammar are exactly those used in some derivation of a word, in their old order within a rule; every rule is reachable and derives a word; the words and the derivation trees are exactly those of the original grammar; cleaning again changes nothing; and the test of C133 says yes on the result exactly if one token decides between the productions of each of its rules. So the condition of C110 that everything derives a word can always be met: parsing with the cleaned grammar returns a node for all words of the original grammar exactly if the empty word is none of them and no beginnings of bodies of the cleaned grammar overlap, and then every input gets the right answer about the original grammar.", "quantifier": "every accepted grammar, every word and derivation tree, every token sequence, layout and starting tree", "why_tests_cant": "A test cleans sample grammars; that no word or tree is lost or added, for any grammar, is a theorem about the program.", "anchors": ["src/grammar/base/builder.rs: build, add_rule, add_prod_with_elems", "src/grammar/base.rs: rules, prods, try_get_rule", "src/utils.rs: change_loop, change_iter, breadth_first_search", "src/parsers/earley.rs: parse"]}
