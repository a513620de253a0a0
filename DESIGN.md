# Formal model of google/bongo in Rocq (Coq 8.16.1)

## 1. Approach

* `rocq/theories/Model/*` — executable Gallina transcription of the Rust code, function by
  function. Every definition cites file and lines. Rust `&mut` becomes a returned value;
  `Result`/`Option` stay data; a panic is the constructor `Panic`; a loop is recursion on fuel that
  returns `NoFuel` when exhausted. All total-correctness theorems say
  "there is an `n` such that for every `fuel >= n` the result is ..."; a non-termination theorem says
  "for every fuel the result is `NoFuel`".
* `rocq/theories/Spec/*` — small specifications that never mention model helpers: context-free
  derivations, derivation trees, sentential forms, reachability, line counting, by-value semantics.
* `rocq/theories/Proofs/*` — lemmas.
* `rocq/theories/Properties/*` — only the property theorems, each closed by `exact`, followed by
  `Print Assumptions`, with a non-vacuity `Example` beside it.

Ordered collections (`BTreeMap`/`BTreeSet`) are modelled as association lists kept sorted by the key's
`cmp` (`Model/Ord.v`, `Model/BTree.v`). `cmp` is only required to be a total preorder, because the code
really uses keys whose `Ord` identifies different values (`ProdState` ignores the dot).
Symbol types `T`, `NT`, `AK`, `V` are arbitrary types with a lawful `Ord` (class `OrdEq`).
Production references (`Prod`) compare by address: theorems quantify over an arbitrary injective
address assignment (`layout`).

## 2. Per-property plan

| id | modelled | proof idea |
|----|----------|-----------|
| C01-C04 | `Model/Grammar.v`: builder, `Grammar::new`, `check_grammar`, BFS | BFS = transitive closure of the "occurs in a body of" relation; exact sets; C04 refuted by witness, proved for nonterminals that occur in bodies |
| C05-C06 | `Model/StartGrammar.v` | homomorphism of derivations |
| C07-C09 | `Model/Nullable.v` | fixed-point induction; rank argument for the second loop |
| C10-C13 | `Model/NonNull.v` | induction on production bodies; derivation transfer; C11 refuted in general (nullable productions are dropped wholesale), proved when nullable productions are empty |
| C14-C18 | `Model/Firsts.v`, `Model/Follows.v` | fixed point on finite relations; C15, C17, C18 refuted + exact/partial versions |
| C19-C21 | `Model/Passes.v`: generic passes as request programs | invariant over the cache; C21 refuted |
| C22-C26, C30 | `Model/Utils.v` | loop invariants, C26 refuted |
| C27 | `Model/Name.v`: Rc heap with reference counts | refinement to by-value store |
| C28 | `Model/TypeMap.v` | refinement to abstract typed map |
| C29 | `Model/Mergeables.v` | case analysis, for arbitrary merge functions |
| C31-C35 | `Model/Buffer.v`: chars, UTF-8 lengths, byte offsets | invariants on char boundaries; grapheme segmentation is an oracle |
| C36 | `Model/Tokens.v` | refuted, exact behaviour proved |
| C37-C40 | `Model/Tree.v` | invariants on the arena; C40 refuted for the root, exact walk proved |
| C41-C48 | `Model/Earley.v` | Earley item specification; closure = saturation; lexicographic termination measure; C44 and C46 refuted, exact panic condition proved |
| C49-C51 | `Model/ProdState.v` | invariants; C50 refuted |
| C52 | `Model/Lalr.v` | closure; refuted (dot collisions, nullable) |
| C53 | `Model/Grammar.v` (addresses) | order laws |
| C54, C74, C75 | `Model/RwLock.v`: every tree operation as a program of lock, unlock, read and write steps; any number of threads; two priority policies of the lock | C54 refuted by an explicit schedule under a writer-preferring lock, proved (no reachable stuck configuration) for a reader-preferring one, for calls without nested locks and for one thread; C74 by a simulation into the sequential histories of `Model/Tree.v`; C75 by an invariant |
| C55, C56 | `Model/NonNull.v` | C55 refuted by computation; C56: derivations of the result = derivations of the original in which productions deriving the empty word are used only for it |
| C57-C60 | `Model/Firsts.v`, `Model/Utils.v` | exact behaviour where C15, C17, C18, C26 are false |
| C61, C62 | `Model/Passes.v` | invariant "a failed pass keeps its marker"; evaluation without a context as specification |
| C63 | `Model/Tokens.v` | exact behaviour where C36 is false |
| C64 | `Model/Tree.v`: walk of the dot export | exact set of vertices and edges where C40 is false |
| C65-C69 | `Model/Earley.v`, `Proofs/TreeLink.v` | item invariant in both directions; forest read as a set of trees; parse as a history of tree operations |
| C70 | `Model/Buffer.v` | monotonicity of line/column |
| C71 | `Model/State.v` | induction over histories of adds |
| C72, C73 | `Model/Lalr.v` | work-list invariant; exact closure of what the code computes |
| C77-C79 | `Model/Pretty.v`: the `ToDoc` implementations as documents; renderer = any choice of line breaks | tokens of every layout by induction on documents; a reader for the text, proved to return the grammar; C79 refuted |
| C80 | `Model/DotText.v`: identifiers, labels and statements of the dot export | decimal printing is injective; walk of C64 refined to the list of statements |
| C81 | `Model/Earley.v` | nodes labelled with the place (production, index, origin) they were made for |
| C82 | `Model/Earley.v` | exact contents of every node of the forest, described without addresses (`Proofs/EarleyExact.v`): which set an entry was first made from, what every node holds when each set is closed; sound and complete against the run, for every layout in which the productions of a rule follow one another |
| C83 | `Model/Compare.v` | the three comparison functions of every type; laws by pulling back along injections into sums, products and lists; trees by induction on depth |
| C84 | `Model/ExampleGrammars.v` | the builder calls of the eight grammars; languages by induction on length and derivations; the parser through C65/C47/C67 with prefix-freeness, two-places witnesses and unique cuts; the arithmetic verdict by counting parentheses and a left-to-right decision procedure |
| C85 | `Model/Earley.v` | a second, label-free invariant of the parser (Proofs/EarleySize.v): every new alternative is a token or a complete state of some set, states of a set are distinct by production and origin; the loop's measure = states + alternatives of their nodes grows with every change and is bounded |
| C86 | `Model/EarleyShared.v`: the parser over abstract tree operations (equal to `Model/Earley.v` with the plain ones), and tree operations cut into the critical sections of the lock with arbitrary operations of other threads in between | a simulation up to a growing one-to-one relation between node numbers (Proofs/EarleyShare.v); the change flags agree, so the loops run in step. Assumed of the others: they do not write to nodes the parser made (they have no handle of them). Not in the model: blocking (C54) |
| C87 | `Model/DotShared.v`: the export with arbitrary operations of other threads before every lock acquisition | trees only grow (Proofs/DotShare.v, [grow]); walk invariant: seen is below the root now, and closed under the edges of the first tree for what is done; termination by the finitely many vertices of the last tree |
| C88 | `Model/NonNull.v` | trimming is a function on trees (Spec/TrimSpec.v); both directions by mutual induction on derivation trees, with the variants of C13; uniqueness of empty trees from the absence of null ambiguity (Proofs/TrimFacts.v) |
| C89 | `Model/NonNull.v`, `Model/StartGrammar.v`, `Model/Earley.v` | composition of C10, C11, C88 with C42, C43, C45, C65-C67 |
| C90 | `Model/RwLock.v` | a well-founded measure for every schedule; in a stopped configuration a chain from a blocked thread to a reader that waits to read again; the locks a call takes are those of the trees it is given |
| C91 | `Model/{Utils,Grammar,Nullable,Firsts,NonNull}.v` | the measure of each saturation loop is bounded by the finite set it grows in; every round that changes something lowers it |
| C92 | `Model/Debug.v`, `Spec/DebugSpec.v` | a lexer turns both styles into the same tokens up to trailing commas; tokens have one reading as a tree (`Proofs/DebugFacts.v`: `uniq`); trees are injective in the value |
| C93 | `Model/Grammar.v`, `Spec/OrderSpec.v` | equal `last_rule`s give equal rule maps (`Proofs/OrderFacts.v`); the verdict via C01 |
| C94 | `Model/{NonNull,Nullable,Firsts}.v` | derivations of the result are derivations of the original; conversely FIRST/FOLLOW by rules with nullable parts erased (`Proofs/NullFreeFacts.v`) |
| C95 | `Model/NonNull.v` | every choice keeps everything when nothing is nullable, so each production has one variant (`Proofs/IdleFacts.v`); twice: C10 gives null-freeness of the result |
| C96 | `Model/{Nullable,Firsts,NonNull}.v` | the Nullable result is a sorted map with content fixed by C09, hence the same for all layouts; the others use addresses only through it (`Proofs/MemFacts.v`) |
| C97 | `Model/{Grammar,Nullable,Firsts,NonNull,Earley}.v` | derivations, reachability and action trees are equivariant; results follow from the exact characterisations C01, C07-C09, C14, C57-C59, C65 (`Spec/RenameSpec.v`, `Proofs/Rename{Facts,Parse}.v`) |
| C98 | `Model/{StartGrammar,State,Earley,Tree}.v` | relational (lock-step) simulation of two parses at equal fuel: state sets correspond by position, trees by equal node tables and renamed alternatives (`Spec/RenameForestSpec.v`, `Proofs/RenameForest.v`) |
| C99 | `Model/Earley.v` | the parse invariant (C41-C45) carries the message and the least position in trouble (`Proofs/Earley{Run,Parse,Main}.v`) |
| C100 | `Model/Earley.v` | refuted by two computed parses of one word (`ex_lo`, `ex_lo2`); what holds follows from C65, C67, C99 and monotonicity of derivations in the set of productions (`Proofs/ReorderFacts.v`) |
| C101 | `Model/RwLock.v`, `Model/EarleyShared.v` (the parser over abstract tree operations), `Spec/ThreadParseSpec.v` | the effects of an execution in linearised order (C74); the parser run on its own log simulates the parser run alone: each logged make/add is matched to its effects, effects of other threads keep the view (`Proofs/ParseThreads.v`, simulation `parse_sim` of C86) |
| C102 | `Model/Lalr.v`, `Spec/LalrMeaning.v` (`expects`, `continues`, `shifted`) | textbook LR(1) closure (C52) related to derivations by induction on derivation trees of forms; invariant `continues` along shifts (`Proofs/LalrMeaningFacts.v`) |
| C103 | `Model/Compare.v` (`C_ParseState`), `Model/Lalr.v` | lexicographic order on pairs (C80's laws); equality by induction on the two sorted maps; refutation for a whole class of productions: the closure of one item not before a nonterminal is that item |
| C104 | `Model/UtilsFnMut.v` (the loops with a function that keeps state and panics), `Spec/CallsSpec.v` (`calls`, `by_rounds`, `next_call`, `linked`) | invariant: seen set = items answered so far; induction on fuel one way, on the rounds the other; the pure versions are instances |
| C105 | `Model/DotReads.v` (the export over its two reads), `Spec/ThreadDotSpec.v` (the calls of a thread are those of an export), `Model/RwLock.v` | the effects of the other threads between two reads are operations of `Model/DotShared.v`: the export of the thread is in step with one of C87 (Proofs/DotThreads.v), then the tree grows to its end |
| C106 | `Model/TreeFaults.v`: every tree call with a panic of the caller's code at any point where it runs; the poison flag of each lock | simulation into the histories of `Model/Tree.v`: panicked calls are dropped, a dead tree is matched to its last good state (`Proofs/TreeFaultsFacts.v`); what kills a tree by cases over the calls (`Proofs/TreeFaultsPoison.v`) |
| C107 | `Model/PassesCatch.v`: pass bodies and programs that see panics; the context is what the panic leaves | the invariant of C19 without the values, by induction on nesting and body; a pass with a plain value is never left unfinished (simulation of C19 at every state a program reaches) |
| C108 | the models of C41 (parser), C07 and C14 (passes); the condition in `Spec/LL1Spec.v` | two derivations from the same symbols of comparable words use the same productions (induction on one derivation): prefix-free and unambiguous, then C47, C99; the test by C07 and C14 |
| C109 | as C41 | a symbol of a sentential form is predicted where what precedes it ends (induction on the derivation of the form), so the production is at two places there: C65, C99 |
| C110 | as C41; the grammar condition in `Spec/LL1Spec.v` | a reachable overlap is completed to a word by productivity (the production is at two places there: C65); conversely two places of a production give an overlap; verdicts by C42, C43, C44, C99, trees by C67 |
| C111 | the programs of `Model/RwLock.v` with the faults of `Model/TreeFaults.v` (`Model/ThreadFaults.v`); executions and linearisations with panics in `Spec/ThreadFaultsSpec.v` | each program follows a guard discipline in which every change of memory is one sequential faulty call (`psafe`), which gives an invariant tying each configuration to a sequential history with panics (as C74); C106 then applies to that history; poison by the monotonicity of dead trees along the effects; progress as C54 |
| C112 | the productions and accessors of `Model/Grammar.v`; derivations that name productions, and the trees that show them, in `Spec/KeySpec.v` | content of `prods` from C02; the verdict of C01 is invariant under relabelling; a tree with distinct keys is read top-down to one derivation (mutual induction); refuted for repeated keys by a grammar whose only parse tree of a word has two derivations |
| C113 | nothing new: `Model/Earley.v` | the exact panic condition (C99) at a position mentions only the kinds before it; `parse_tokens` on `u ++ v` is its run on `u` followed by its run on `v`, and every tree operation only adds (`Proofs/PrefixFacts.v`) |
| C114 | nothing new: the transformation, the wrapper and the parser of C10-C13, C05 and C41-C48 used one after the other | composition of C88, C89 and C110; prefix-free grammars meet both conditions (`Proofs/Overlaps.v`) |
| C115 | nothing new: `Model/Earley.v`; replacing values in tokens and trees in `Spec/ValueSpec.v` | the exact description of the forest (`areads`, proof of C82) mentions values at leaves only; it commutes with replacing them, and the tokens numbered by position are the general case (`Proofs/ValueFacts.v`) |
| C116 | every expression with `usize` arithmetic, with the machine's operations for any word size and both profiles: `Model/Machine.v` | the ranges, positions and states a program can obtain keep all numbers below the lengths of texts and bodies, so the machine functions equal those on `nat` (`Proofs/MachineFacts.v`); REFUTED for looking ahead: `offset_elem(usize::MAX)` panics in dev builds and answers the *previous* element in release builds |
| C117 | nothing new: `Model/Tree.v`, `Model/Earley.v`, with comparisons that are only lawful preorders; types compared by a key in `Spec/CoarseSpec.v` | every tree operation and every function of the parser commutes with replacing things by their keys (`Proofs/CoarseFacts.v`), so the theorems for identical-if-equal types transfer; REFUTED for the identity of leaf values: the tree keeps the first of equal leaves, so a token's own value may be lost |
| C118 | nothing new: `Model/Earley.v`, `Model/Tree.v`; reading a forest alternative by alternative in `Spec/AmbigSpec.v` | every node below the result can be read (from the two run invariants of C45 and C67), so every alternative completes; trees along a cycle get bigger without bound, acyclic forests are enumerated by induction on the depth of the (finite) tree; transfer to derivation trees by C45/C67; a grammar and input with one derivation tree and a forest with a choice, checked by computation |
| C119 | nothing new; replacing symbols by the parts they compare by in `Spec/RenameSpec.v`, `Spec/SymbolSpec.v`, which also says what a word is when equal symbols are one | every function of the builder, the wrapper, the passes, the transformation and the parser commutes with that replacement at every amount of fuel (`Proofs/SymbolFacts.v`); the meaning then follows from C07, C42 and C43 for the parts. Item sets, their closure and LALR states: `Spec/SymbolLalrSpec.v`, `Proofs/SymbolLalrFacts.v`, `Properties/SymbolLalrProps.v` |
| C120 | nothing new (`Model/DotText.v`); reading trees by following arrows in `Spec/DrawSpec.v` | the statements determine, for every vertex, its label and its arrows in order (from C80); then induction on readings in both directions (`Proofs/DrawFacts.v`); parse results by C45, C67 and C69; the counterexample is a history of nine calls, computed |
| C121 | `Model/ExamplePrograms.v`: `main` of the two examples as one program with rules, tokens, layout and renderer as parameters; a panic ends it and what was written before stays | composition of C01, C05, C41-C43, C99, C120; for the two programs also C78, C84 |
| C122 | `Spec/LalrExploreSpec.v`: `breadth_first_search` applied to `shift_actions(..).unwrap().values()`, a program a user writes to get all states, on the modelled functions | states over a finite set of items with sorted lookaheads are finitely many; `Proofs/CoarseBfs.v`: breadth-first search under an order that is only a total preorder; REFUTED that every reachable state is found |
| C123 | the map of C29 and the loops of C30 with any merge function that computes least upper bounds (`Spec/JoinSpec.v`) | induction on the history; the loop by a measure: the sum over the keys of the heights reached |
| C124 | `Spec/NullSizeSpec.v`: nodes of an action tree, occurrences of nonterminals that derive the empty word, two families of grammars | trees are unique (C09), so no nonterminal repeats on a path; variants of C13 counted by their flags; the families by induction on n |
| C125 | `Spec/CutSpec.v`: the cutting loop over `advance_n`/`remove_suffix` and then `parse`; the relation between a text, its pieces and the rest | the loop's ranges are located in the text (`at_` of C31); then C42, C43, C45, C81, C108 and the yield of derivation trees |
| C126 | `Spec/PredictSpec.v`: the stack machine over `get_rule`, `is_prod_nullable`, `firsts_get`; LL(1) by derivations | soundness by induction on fuel; completeness on derivation trees; termination by induction on the input, the stack and FIRST derivations, with FIRST/FOLLOW disjointness derived from the check; C07, C08, C14 connect the passes; two grammars for the Follows content |
| C127 | `Spec/WalkSpec.v`: the three programs over `w_alts` and `w_content` | an invariant of the parser's tree: every alternative is newer than some alternative of each of its children, so following first alternatives descends; no dead ends (C118); paths without repetition bound the depth when there is no cycle; exactness from C67, distinct alternatives from distinct keys |
| C128 | `Spec/SiftSpec.v`: listing up to a height, filtering by the leaves, searching by height, looking for two trees | C45 and C66 make the filter exact; a tree of height above the bound repeats a nonterminal with the same piece on one path and can be cut there (`Proofs/SiftFacts.v: low`); two trees differ at a lowest place reached by a path of such pairs without repetition (`descend`, `two_low`) |
| C129 | `Spec/BlameSpec.v`: the programs (attempt, blame, expected, complete, completions) over `parse` in fresh trees; sentential forms and confusion as in C44/C99 | a returning parse leaves an item, hence a sentential form, at every position (`Proofs/ViableRun.v`), so verdicts are constructive; prefixes share their confusions (`PrefixFacts`); the search keeps all live candidates of a length (`Proofs/BlameFacts.v: level_step`) |
| C130 | `Spec/ReadingsSpec.v`: listing up to twice the bound, filtering, and testing the height | pumping (`Proofs/ReadingsFacts.v`): above the bound a tree repeats a nonterminal with the same piece on a path, so it can be made larger (`up`) and, at a lowest such place, smaller by at most the bound in height (`down`); a tree between the bound and twice the bound exists exactly if there are infinitely many |
| C131 | the oracle programs of C129 on the result of `transform_to_nonnull`, wrapped | C129 for the transformed grammar and C114's language equation: the words of the result are the nonempty words of the original |
| C132 | `Spec/RepairSpec.v`: one-token edits, searched breadth first with the parser as the test; edit distance as an inductive relation | edit distance obeys the triangle inequality, and n edits to a word of the grammar's tokens are at most n steps of the program, so the first level with a word is the distance; every word is at a finite distance (`Proofs/RepairFacts.v`) |
| C133 | `Spec/GrammarTestSpec.v`: the passes, a fixed-point loop for the nonterminals that derive a word, the reachability walk, pairs of productions | the loop grows a set of usable heads, bounded by the heads (`Proofs/GrammarTestFacts.v`); its end is closed under productions, so induction on derivations gives the converse; then C108, C110, C129 and C132 apply |
| C134 | `Spec/OptionalTestSpec.v`: a fixed-point loop for the nonterminals that derive a nonempty word, the purity of null productions, the test of C133 on the transformed grammar | the loop as in C133 (`Proofs/OptionalTestFacts.v`); C07 and C12 give what the two passes return; then C114, C88, C131 and C132 carry the answers back to the grammar as written |
| C135 | `Spec/CleanSpec.v`: the set of C133, a walk through the productions inside it, `build` on what was met; `used` = occurs in a derivation of a word | C22 gives what the walk visits; C01/C02 that build accepts the calls and what the rules are; sentential forms that derive words contain only visited nonterminals, and conversely (`Proofs/CleanFacts.v`); then C110 applies |
| C76 | `Model/Utils.v` | an iterator is any state machine, possibly infinite |

Properties that turn out false of the code are kept as stated and settled by a `..._refuted` theorem with
a concrete witness, plus the strongest true statement (a `_partial` theorem, or a property of its own that
states the exact behaviour). In MANIFEST.json they have the status "partial" and a note that begins with
REFUTED.

## 3. Trusted base

**Logic.** Coq 8.16.1's kernel (with its `vm_compute`, used for the concrete examples). No axioms: every
`Print Assumptions` in `Properties/*` prints "Closed under the global context". The development uses only Coq's
standard library. `coqchk -o` also names `Coq.ssr.ssrunder.Under_rel.*`, which belongs to a module type of the
standard library that is merely loaded; no theorem depends on it. No functors, module types, `Declare Module`, plugins
or disabled checks. Section variables are all generalised: a theorem's printed type lists every hypothesis.

**Reading.** The model is a hand transcription; nothing ties it mechanically to the Rust code. Each definition cites
the lines it transcribes and says where it simplifies.

**Assumed behaviour of things outside the repository** (hypotheses or definitions of the model):

* `std`: `BTreeMap`/`BTreeSet` search by `cmp` and iterate in increasing order (`Model/BTree.v`); where versions of std
  differ (which of two `Equal` keys `collect` keeps) theorems hold for both. `Rc::make_mut` copies iff shared.
  `slice::binary_search_by` is any function meeting its documented contract (the usual algorithm is shown to).
  `str` slicing panics off character boundaries; UTF-8 encoding as in `core::char`.
  `TypeId`s are distinct for distinct types and `Any::downcast` succeeds exactly on its own type.
* `RwLock`: mutual exclusion of a writer with everything else; poisoning when a write guard is dropped by a panic; whether
  waiting writers keep new readers out is a parameter (policy of the operating system).
* User types: symbol and key types have a lawful `Ord` whose `Equal` is equality (`OrdEq`), except where a theorem says
  otherwise (C83, C117); `clone` returns an equal value; callbacks are pure functions of their arguments and state
  (`Model/Utils.v` passes the state explicitly).
* Productions compare by address: any injective assignment of addresses (`layout`).  Where more is needed (C82, C98_any_memory, and in every refutation) the layout is one that memory can have (`in_memory`, `Spec/NullSpec.v`): the productions of a rule are the elements of one `Vec`, the `Vec`s of different rules do not overlap.
* Pretty printing (crate `pretty`): the documents are the crate's, with `softline`, `intersperse` etc. as documented; the
  renderer decides freely, group by group, between flat and broken.
* `std::fmt`: `debug_struct`, `debug_tuple`, `debug_list`, `debug_set`, `debug_map` and the pretty style's indentation write
  what core's source writes (`Model/Debug.v`: `fmt`); no width, precision or other flags.
* Grapheme segmentation (crate `unicode-segmentation`): any function cutting a line into nonempty pieces.
* `usize` is `nat`.  C116 justifies this: the eight expressions of the crate that compute with `usize` are modelled again with machine
  arithmetic (both build profiles) and proved to agree, given that texts and production bodies are shorter than `usize::MAX`, except
  for `offset_elem`/`offset_prod_elem` with offsets near `usize::MAX` (finding; C49 speaks of smaller offsets only in this sense).
* Memory exhaustion, stack overflow and running time are not modelled.

**Modelled:** `utils.rs` (fixed points, `take_only`, `Name`, `TreeNode`, `CollectMap`, `change_iter`, `change_loop`,
`breadth_first_search`, `merge_value_pairs`), `utils/buffer.rs`, `utils/mergeables.rs`, `utils/type_map.rs`,
`grammar/base.rs`, `grammar/base/builder.rs`, `grammar/base/cmp_wrappers.rs`, `grammar/base/element_types.rs`, all `ToDoc` implementations, the `Debug` implementations a user can see and `utils/fmt.rs`, `start_grammar.rs`, `state.rs`,
`grammar/passes/*`, `grammar/transform/nonnull.rs`, `parsers/mod.rs`, `parsers/tree.rs`, `parsers/earley.rs`,
`parsers/earley/state.rs`, `parsers/lalr.rs`, the two programs of `examples/`.

**Not modelled:** logging; `Display` of errors; the derived `Debug` of internal wrappers (`cmp_wrappers.rs`, `mergeables.rs`, pass maps);
tests (their grammars are: `Model/ExampleGrammars.v`);
`utils/graph_closure.rs` (an empty stub); the concrete syntax of dot statements (crate `dot`; its identifier check is modelled).

**Simplifications worth knowing.** A write section of the tree lock is one step. `to_dot` under
concurrency is modelled with atomic critical sections (C87), and as a caller of the locked reads (C105; its reads of a node and of an alternative are the calls `alts` and `content`, which take the read lock once as well); `parse` as a caller of the locked operations (C101). `Arc` sharing is not observable and not modelled. A pass body is modelled by the requests it makes and pure
computation between them. Caller code (comparison, copying, destruction, iterators) is assumed not to panic, except in C106, where it may panic anywhere inside a tree call. Reading from the forest is a relation (trees may be infinitely many), not a function of the
code: the API offers only `alts` and `content`, which it is defined from.

## 4. Wrong programs

`seeded/LOG.jsonl` lists edits of the model that imitate bugs, with the theorems that stop being provable. Each was
made in a scratch copy: the edited model is rebuilt, every proof script that fails is replaced by `Admitted`, and the
theorems whose `Print Assumptions` then lists one of these are the ones that failed.
