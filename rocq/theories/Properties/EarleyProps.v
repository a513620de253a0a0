(** C41 - C48, C65 - C69: the Earley parser (src/parsers/earley.rs, src/parsers/earley/state.rs). *)
From Coq Require Import String List Arith NArith Lia.
From Verif.Model Require Import Ord BTree Outcome Utils Grammar StartGrammar Tokens Tree State Earley.
From Verif.Spec Require Import Reach Cfg BuildSpec NullSpec TreeSpec EarleySpec Examples.
From Verif.Proofs Require Import OrdFacts BTreeFacts LoopFacts GrammarFacts StartFacts BuildMore CfgFacts TreeFacts TreeHist
  EarleyItems EarleyRun EarleyParse EarleyMain TreeLink EarleyMore.
Import ListNotations.

Section Props.
  Context {T NT AK AV V : Type} `{OrdEq T} `{OrdEq NT} `{OrdEq AK} `{OrdEq V}.
  (** A grammar the builder accepted, wrapped with a start rule; productions at any different addresses. *)
  Variable g : Grammar T NT AK AV.
  Variable sg : StartGrammar T NT AK AV.
  Variable lay : layout (StartNonTerminal NT).
  Hypothesis Bg : built g.
  Hypothesis Wr : runs_to (wrap_grammar_with_start g) (Ret (Ok sg)).
  Hypothesis Lay : lay_inj sg lay.
  Local Notation P := (rhs_of g).
  Local Notation S0 := (start_nt g).

  Lemma sg_eq : sg = wrapg g.
  Proof. exact (wrapped_eq g sg (built_accepted g Bg) Wr). Qed.
  Lemma main (w : list (Token T V)) t0 : api_tree t0 -> exists r, runs_to (fun fuel => parse lay sg w t0 fuel) r /\
    match r with
    | Ret (o, t) => (forall j, j <= length w -> ~ stuck g w j) /\ TInv t /\ tmono t0 t /\
        (forall n, node_ok t0 n -> node_ok t n /\ nalts t n = nalts t0 n) /\
        match o with
        | Some m => lang P S0 (map tk_kind w) /\ node_ok t m /\ ~ node_ok t0 m /\ forall tr, dtree g (NonTerm S0) w tr -> reads t m tr
        | None => ~ lang P S0 (map tk_kind w)
        end
    | Panic m => exists j, j <= length w /\ stuck g w j /\ (forall i, i < j -> ~ stuck g w i) /\
        ((m = "assertion failed: !new_state.is_empty()"%string /\ ~ viable P S0 (firstn j (map tk_kind w))) \/
         (m = "assertion failed: `(left == right)`"%string /\ viable P S0 (firstn j (map tk_kind w))))
    | NoFuel => False
    end.
  Proof.
    intro A. pose proof Lay as L. rewrite sg_eq in L |- *. exact (parse_main g (built_accepted g Bg) lay L w t0 (api_tree_inv _ A)).
  Qed.
  Lemma main_ret (w : list (Token T V)) t0 o t : api_tree t0 -> runs_to (fun fuel => parse lay sg w t0 fuel) (Ret (o, t)) ->
    (forall j, j <= length w -> ~ stuck g w j) /\ TInv t /\ tmono t0 t /\
    (forall n, node_ok t0 n -> node_ok t n /\ nalts t n = nalts t0 n) /\
    match o with
    | Some m => lang P S0 (map tk_kind w) /\ node_ok t m /\ ~ node_ok t0 m /\ forall tr, dtree g (NonTerm S0) w tr -> reads t m tr
    | None => ~ lang P S0 (map tk_kind w)
    end.
  Proof. intros A R. destruct (main w t0 A) as (r & Rr & Pr). rewrite (runs_to_fun _ _ _ Rr R) in Pr. exact Pr. Qed.

  (** C41.  [parse] terminates on every input: there is an outcome (a result or a panic) that it reaches. *)
  Theorem C41_parse_terminates (w : list (Token T V)) t0 : api_tree t0 ->
    exists r, runs_to (fun fuel => parse lay sg w t0 fuel) r.
  Proof. intro A. destruct (main w t0 A) as (r & Rr & _). eauto. Qed.

  (** C42.  It accepts only words of the language. *)
  Theorem C42_parse_accepts_only_words (w : list (Token T V)) t0 m t : api_tree t0 ->
    runs_to (fun fuel => parse lay sg w t0 fuel) (Ret (Some m, t)) -> lang P S0 (map tk_kind w).
  Proof. intros A R. apply (main_ret _ _ _ _ A R). Qed.

  (** C43.  It rejects (returning [None]) only non-words. *)
  Theorem C43_parse_rejects_only_nonwords (w : list (Token T V)) t0 t : api_tree t0 ->
    runs_to (fun fuel => parse lay sg w t0 fuel) (Ret (None, t)) -> ~ lang P S0 (map tk_kind w).
  Proof. intros A R. apply (main_ret _ _ _ _ A R). Qed.

  (** C65.  Exactly when it panics: some beginning of the input begins no sentential form, or some production
      is at two places at once, or the start symbol derives the empty word. *)
  Theorem C65_parse_panics_iff (w : list (Token T V)) t0 : api_tree t0 ->
    ((exists msg, runs_to (fun fuel => parse lay sg w t0 fuel) (Panic msg)) <->
     exists j, j <= length w /\
       (~ viable P S0 (firstn j (map tk_kind w)) \/ two_places P S0 (map tk_kind w) j \/ lang P S0 [])).
  Proof.
    intro A. destruct (main w t0 A) as (r & Rr & Pr). split.
    - intros (m & R). rewrite (runs_to_fun _ _ _ Rr R) in Pr. destruct Pr as (j & L & St & _). exists j. split; [exact L|].
      destruct St as [X|[X|[_ X]]]; auto.
    - intros (j & L & St). assert (Bad : exists j, j <= length w /\ stuck g w j).
      { destruct St as [X|[X|X]]; [exists j; split; [exact L|left; exact X]|exists j; split; [exact L|right; left; exact X]|].
        exists 0. split; [lia|]. right. right. auto. }
      destruct Bad as (k & Lk & Sk). destruct r as [[o t]|msg|]; [|eauto|destruct Pr].
      destruct (proj1 Pr k Lk Sk).
  Qed.

  (** C99.  What the panic says.  Let [j] be the first position at which the parse is in trouble.  If the first [j]
      tokens begin no sentential form - a syntax error - the panic is the failed assertion that the new state set
      is not empty; otherwise - a production at two places at once, or a start symbol that derives the empty
      word - it is the failed comparison of two numbers of nodes.  There are no other panics. *)
  Theorem C99_panic_message (w : list (Token T V)) t0 msg : api_tree t0 ->
    let syntax j := ~ viable P S0 (firstn j (map tk_kind w)) in
    let confusion j := two_places P S0 (map tk_kind w) j \/ (j = 0 /\ lang P S0 []) in
    (runs_to (fun fuel => parse lay sg w t0 fuel) (Panic msg) <->
     exists j, j <= length w /\ (forall i, i < j -> ~ syntax i /\ ~ confusion i) /\
       ((syntax j /\ msg = "assertion failed: !new_state.is_empty()"%string) \/
        (~ syntax j /\ confusion j /\ msg = "assertion failed: `(left == right)`"%string))).
  Proof.
    intros A syntax confusion. destruct (main w t0 A) as (r & Rr & Pr). split.
    - intro R. rewrite (runs_to_fun _ _ _ Rr R) in Pr. destruct Pr as (j & L & St & Mn & M). exists j. split; [exact L|]. split.
      + intros i Li. pose proof (Mn i Li) as N. unfold stuck in N. split; intro X; apply N; [left|right]; exact X.
      + destruct M as [[-> X]|[-> X]]; [left; auto|]. right. split; [intro Y; exact (Y X)|]. split; [|reflexivity].
        destruct St as [Y|Y]; [contradiction|exact Y].
    - intros (j & L & Mn & C). assert (St : stuck g w j) by (destruct C as [[X _]|(_ & X & _)]; [left|right]; exact X).
      destruct r as [[o t]|m|]; [destruct (proj1 Pr j L St)| |destruct Pr]. destruct Pr as (k & Lk & Sk & Mk & M).
      assert (k = j) as ->.
      { destruct (Nat.lt_total k j) as [X|[X|X]]; [|exact X|destruct (Mk j X St)].
        destruct (Mn k X) as [N1 N2]. destruct Sk as [Y|Y]; [destruct (N1 Y)|destruct (N2 Y)]. }
      assert (m = msg) as ->; [|exact Rr]. destruct C as [[X ->]|(X & _ & ->)], M as [[-> Y]|[-> Y]]; try reflexivity; [destruct (X Y)|destruct (X Y)].
  Qed.

  (** C44, part that holds: no panic when every beginning of the input begins a sentential form, no production
      is at two places at once, and the start symbol does not derive the empty word (missing: the other inputs,
      on which it panics). *)
  Theorem C44_parse_returns_partial (w : list (Token T V)) t0 : api_tree t0 ->
    (forall j, j <= length w -> viable P S0 (firstn j (map tk_kind w))) ->
    (forall j, ~ two_places P S0 (map tk_kind w) j) -> ~ lang P S0 [] ->
    exists o t, runs_to (fun fuel => parse lay sg w t0 fuel) (Ret (o, t)).
  Proof.
    intros A Vi Tw Em. destruct (main w t0 A) as (r & Rr & Pr). destruct r as [[o t]|msg|]; [eauto| |destruct Pr].
    destruct Pr as (j & L & [X|[X|[_ X]]] & _); [destruct (X (Vi j L))|destruct (Tw j X)|destruct (Em X)].
  Qed.

  (** C44 is false for every grammar whose start symbol derives the empty word: every parse panics. *)
  Theorem C44_nullable_start_panics (w : list (Token T V)) t0 : api_tree t0 -> lang P S0 [] ->
    exists msg, runs_to (fun fuel => parse lay sg w t0 fuel) (Panic msg).
  Proof. intros A L. apply (C65_parse_panics_iff w t0 A). exists 0. split; [lia|auto]. Qed.

  (** C44 is false for every syntax error before the end of the input: the parser panics. *)
  Theorem C44_syntax_error_panics (u v : list (Token T V)) t0 : api_tree t0 -> ~ viable P S0 (map tk_kind u) ->
    exists msg, runs_to (fun fuel => parse lay sg (u ++ v) t0 fuel) (Panic msg).
  Proof.
    intros A L. apply (C65_parse_panics_iff _ t0 A). exists (length u). rewrite app_length. split; [lia|]. left.
    rewrite map_app, firstn_app, map_length, Nat.sub_diag, app_nil_r, <- (map_length tk_kind u), firstn_all. exact L.
  Qed.

  (** C45.  Every derivation tree of the input can be read off the returned node. *)
  Theorem C45_forest_complete (w : list (Token T V)) t0 m t : api_tree t0 ->
    runs_to (fun fuel => parse lay sg w t0 fuel) (Ret (Some m, t)) ->
    forall tr, dtree g (NonTerm S0) w tr -> reads t m tr.
  Proof. intros A R. apply (main_ret _ _ _ _ A R). Qed.

  (** C66.  Every tree read off the returned node is a derivation tree of the start symbol, for some token
      sequence. *)
  Theorem C66_forest_conforms (w : list (Token T V)) t0 m t : api_tree t0 ->
    runs_to (fun fuel => parse lay sg w t0 fuel) (Ret (Some m, t)) ->
    forall tr, reads t m tr -> conforms g (NonTerm S0) tr.
  Proof.
    intros A R. pose proof Lay as L. rewrite sg_eq in L, R.
    exact (parse_conforms g (built_accepted g Bg) lay L w t0 (api_tree_inv _ A) m t R).
  Qed.

  (** C67.  When every piece of the input is cut in one way only, the trees of the returned node are exactly the
      derivation trees of the input. *)
  Theorem C67_forest_exact (w : list (Token T V)) t0 m t : api_tree t0 -> unique_cuts P S0 (map tk_kind w) ->
    runs_to (fun fuel => parse lay sg w t0 fuel) (Ret (Some m, t)) ->
    forall tr, reads t m tr <-> dtree g (NonTerm S0) w tr.
  Proof.
    intros A U R tr. split; [|apply (C45_forest_complete w t0 m t A R)]. pose proof Lay as L. rewrite sg_eq in L, R.
    exact (parse_exact g (built_accepted g Bg) lay L w t0 (api_tree_inv _ A) U m t R tr).
  Qed.

  (** C47.  On a prefix-free grammar: no panic on any beginning of a word; [Some] exactly for the words; the
      trees of the node are exactly the derivation trees. *)
  Theorem C47_prefix_free_parse (w : list (Token T V)) t0 rest : api_tree t0 -> prefix_free P ->
    lang P S0 (map tk_kind w ++ rest) ->
    exists o t, runs_to (fun fuel => parse lay sg w t0 fuel) (Ret (o, t)) /\
      (o <> None <-> lang P S0 (map tk_kind w)) /\
      (forall m, o = Some m -> forall tr, reads t m tr <-> dtree g (NonTerm S0) w tr).
  Proof.
    intros A PF W. destruct (C44_parse_returns_partial w t0 A) as (o & t & R).
    - intros j _. apply (word_viable P S0 _ (skipn j (map tk_kind w) ++ rest)). rewrite app_assoc, firstn_skipn. exact W.
    - intro j. apply (pf_two_places P PF).
    - apply (pf_no_empty P PF).
    - exists o, t. split; [exact R|]. split.
      + destruct (main_ret _ _ _ _ A R) as (_ & _ & _ & _ & X). destruct o as [m|]; split; [intros _; apply X|discriminate|congruence|contradiction].
      + intros m ->. exact (C67_forest_exact w t0 m t A (pf_unique_cuts P PF _ _) R).
  Qed.
  (** C47.  On a prefix-free grammar the parser panics exactly on the inputs with a syntax error before their
      end. *)
  Theorem C47_prefix_free_panics_iff (w : list (Token T V)) t0 : api_tree t0 -> prefix_free P ->
    ((exists msg, runs_to (fun fuel => parse lay sg w t0 fuel) (Panic msg)) <->
     exists j, j <= length w /\ ~ viable P S0 (firstn j (map tk_kind w))).
  Proof.
    intros A PF. rewrite (C65_parse_panics_iff w t0 A). split; intros (j & L & X); exists j; (split; [exact L|]); [|auto].
    destruct X as [X|[X|X]]; [exact X|destruct (pf_two_places P PF _ _ _ X)|destruct (pf_no_empty P PF _ X)].
  Qed.

  (** C68.  What was in the tree stays as it was: the nodes that existed have the same alternatives, the
      alternatives that existed have the same contents, the same trees are read off the old nodes; and the node
      returned is new. *)
  Theorem C68_parse_keeps_tree (w : list (Token T V)) t0 o t : api_tree t0 ->
    runs_to (fun fuel => parse lay sg w t0 fuel) (Ret (o, t)) ->
    (forall n s, get_node t0 n = Ret s -> get_node t n = Ret s /\ forall tr, reads t n tr <-> reads t0 n tr) /\
    (forall a c, get_alt t0 a = Ret c -> get_alt t a = Ret c) /\
    (forall m, o = Some m -> (exists s, get_node t m = Ret s) /\ ~ exists s, get_node t0 m = Ret s).
  Proof.
    intros A R. destruct (main_ret _ _ _ _ A R) as (_ & _ & Tm & Un & X). pose proof (api_tree_inv _ A) as I0.
    split; [|split].
    - intros n s G. assert (O : node_ok t0 n) by (apply node_ok_get; eauto). destruct (Un n O) as [O' N]. split.
      + rewrite (get_nalts _ _ O), <- N in G. rewrite (get_nalts _ _ O'). exact G.
      + intro tr. split; intro Rd; [exact (proj1 (old_reads t0 t I0 Tm Un) n tr Rd O)|].
        exact (proj1 (reads_mono t0 t (proj1 Tm) (proj2 Tm)) n tr Rd).
    - intros a c. rewrite !get_alt_acont. apply Tm.
    - intros m ->. destruct X as (_ & O & No & _). split; [apply node_ok_get; exact O|]. rewrite <- node_ok_get. exact No.
  Qed.

  (** C69.  A parse that returns is a sequence of calls of the public tree API on this tree, each of which
      returned and used only this tree and nodes the parse itself had made; other trees are not touched, the
      returned node was made by one of the calls. *)
  Theorem C69_parse_is_api_history (tr0 : history T AK V) W0 h (w : list (Token T V)) t0 o t : run tr0 W0 -> known_tree tr0 h ->
    nth_error W0 h = Some t0 -> runs_to (fun fuel => parse lay sg w t0 fuel) (Ret (o, t)) ->
    exists tr W, run (tr ++ tr0) W /\ nth_error W h = Some t /\
      Forall (fun e => exists v, snd e = Ret v /\
        match fst e with
        | TMakeLeafNode h' _ _ => h' = h
        | TMakeBranchNode h' _ ns => h' = h /\ forall n, In n ns -> nd_inner n = h
        | TAddAll n m => nd_inner n = h /\ nd_inner m = h
        | _ => False
        end) tr /\
      (forall k, k <> h -> nth_error W k = nth_error W0 k) /\ length W = length W0 /\
      (forall m, o = Some m -> exists op, In (op, Ret (RNode {| nd_index := m; nd_inner := h |})) tr).
  Proof.
    intros R0 K0 E (_ & n & R). specialize (R n (le_n n)).
    destruct (parse_history h tr0 W0 R0 K0 lay sg w t0 n o t E R) as (tr & W & X1 & X2 & X3 & X4 & X5 & X6).
    exists tr, W. repeat (split; [assumption|]). split; [|auto].
    eapply Forall_impl; [|exact X3]. intros [op r] St. destruct op, r; try destruct St; (eexists; split; [reflexivity|]); simpl; auto.
  Qed.
End Props.

(** C48.  Whether [parse] panics (and with which text), rejects or accepts depends neither on the addresses of the productions nor on
    what is in the tree. *)
Theorem C48_layout_independent {T NT AK AV V : Type} `{OrdEq T} `{OrdEq NT} `{OrdEq AK} `{OrdEq V}
  (g : Grammar T NT AK AV) sg lay lay' (w : list (Token T V)) t0 t0' :
  built g -> runs_to (wrap_grammar_with_start g) (Ret (Ok sg)) -> lay_inj sg lay -> lay_inj sg lay' ->
  api_tree t0 -> api_tree t0' ->
  exists r r', runs_to (fun fuel => parse lay sg w t0 fuel) r /\ runs_to (fun fuel => parse lay' sg w t0' fuel) r' /\
    match r, r' with
    | Ret (Some _, _), Ret (Some _, _) | Ret (None, _), Ret (None, _) => True
    | Panic m, Panic m' => m = m'
    | _, _ => False
    end.
Proof.
  intros Bg Wr L L' A A'. destruct (main g sg lay Bg Wr L w t0 A) as (r & Rr & Pr).
  destruct (main g sg lay' Bg Wr L' w t0' A') as (r' & Rr' & Pr'). exists r, r'. split; [exact Rr|]. split; [exact Rr'|].
  destruct r as [[o t]|m|]; [| |exact Pr].
  - destruct r' as [[o' t']|m'|]; [| |destruct o; exact Pr'].
    + destruct o, o'; try exact I; destruct Pr as (_ & _ & _ & _ & X), Pr' as (_ & _ & _ & _ & X'); [apply X', X|apply X, X'].
    + destruct Pr' as (j & Lj & S & _). destruct (proj1 Pr j Lj S).
  - destruct r' as [[o' t']|m'|]; [| |exact Pr'].
    2: { pose proof (proj2 (C99_panic_message g sg lay' Bg Wr L' w t0' m A') (proj1 (C99_panic_message g sg lay Bg Wr L w t0 m A) Rr)) as R2.
      pose proof (runs_to_fun _ _ _ R2 Rr') as E. congruence. }
    destruct Pr as (j & Lj & S & _). destruct (proj1 Pr' j Lj S).
Qed.

(** C44 is false already for a syntax error, for an unambiguous word of an unambiguous grammar, and for a word
    of the usual left-recursive grammar of sums ("id + id"). *)
Theorem C44_syntax_error_refuted : exists (g : Grammar nat nat nat nat) sg lay (w : list (Token nat nat)) t0 msg,
  built g /\ runs_to (wrap_grammar_with_start g) (Ret (Ok sg)) /\ in_memory sg lay /\ api_tree t0 /\ prefix_free (rhs_of g) /\
  runs_to (fun fuel => parse lay sg w t0 fuel) (Panic msg).
Proof.
  exists ex_br_g, (ex_wrap ex_br_g), ex_slay, [ex_tok 2], in_new. eexists.
  refine (conj built_br (conj wrap_br (conj _ (conj api_tree_new (conj br_prefix_free _))))); [apply ex_slay_mem; vm_compute; reflexivity|..].
  apply (parse_vm _ _ _ _ 20); [vm_compute; reflexivity|discriminate].
Qed.
Theorem C44_unambiguous_word_refuted : exists (g : Grammar nat nat nat nat) sg lay (w : list (Token nat nat)) t0 msg,
  built g /\ runs_to (wrap_grammar_with_start g) (Ret (Ok sg)) /\ in_memory sg lay /\ api_tree t0 /\
  (exists tr, dtree g (NonTerm (start_nt g)) w tr /\ forall tr', dtree g (NonTerm (start_nt g)) w tr' -> tr' = tr) /\
  runs_to (fun fuel => parse lay sg w t0 fuel) (Panic msg).
Proof.
  exists ex_bb_g, (ex_wrap ex_bb_g), ex_slay, [ex_tok 7; ex_tok 7], in_new. eexists.
  refine (conj built_bb (conj wrap_bb (conj _ (conj api_tree_new (conj _ _))))); [apply ex_slay_mem; vm_compute; reflexivity|..].
  - eexists. split; [exact bb_tree|]. intros tr' D. exact (bb_unambiguous _ _ D bb_tree).
  - apply (parse_vm _ _ _ _ 20); [vm_compute; reflexivity|discriminate].
Qed.
Theorem C44_left_recursive_sum_refuted : exists sg lay t0 msg,
  built ex_expr_g /\ runs_to (wrap_grammar_with_start ex_expr_g) (Ret (Ok sg)) /\ in_memory sg lay /\ api_tree t0 /\
  lang (rhs_of ex_expr_g) 0 [0; 1; 0] /\
  runs_to (fun fuel => parse lay sg (map ex_tok [0; 1; 0]) t0 fuel) (Panic msg).
Proof.
  exists (ex_wrap ex_expr_g), ex_slay, in_new. eexists.
  refine (conj built_expr (conj wrap_expr (conj _ (conj api_tree_new (conj _ _))))); [apply ex_slay_mem; vm_compute; reflexivity|..].
  - assert (P1 : rhs_of ex_expr_g 1 [Term 0]) by (eexists; split; [eexists; split; [right; left; reflexivity|left; reflexivity]|reflexivity]).
    assert (P2 : rhs_of ex_expr_g 0 [NonTerm 1]) by (eexists; split; [eexists; split; [left; reflexivity|right; left; reflexivity]|reflexivity]).
    assert (P3 : rhs_of ex_expr_g 0 [NonTerm 0; Term 1; NonTerm 1]) by (eexists; split; [eexists; split; [left; reflexivity|left; reflexivity]|reflexivity]).
    assert (G1 : gen (rhs_of ex_expr_g) [NonTerm 1] [0]) by (apply (gen_nonterm _ _ _ _ [0] [] P1); repeat constructor).
    apply (gen_nonterm _ 0 _ [] [0; 1; 0] [] P3); [|constructor]. apply (gen_nonterm _ 0 _ _ [0] [1; 0] P2 G1). constructor. exact G1.
  - apply (parse_vm _ _ _ _ 20); [vm_compute; reflexivity|discriminate].
Qed.
(** C44 is false of the repository's own example program (examples/ambiguous_earley.rs): it parses the empty
    input and unwraps the result, but [parse] panics. *)
Theorem C44_repo_example_refuted : exists sg lay t0 msg,
  built ex_repo_g /\ runs_to (wrap_grammar_with_start ex_repo_g) (Ret (Ok sg)) /\ in_memory sg lay /\ api_tree t0 /\
  runs_to (fun fuel => parse lay sg (@nil (Token nat nat)) t0 fuel) (Panic msg).
Proof.
  exists (ex_wrap ex_repo_g), ex_slay, in_new. eexists.
  refine (conj _ (conj _ (conj _ (conj api_tree_new _)))).
  - exists 0, ex_repo. apply (build_vm _ _ 10); [vm_compute; reflexivity | discriminate].
  - apply wrap_vm. vm_compute. reflexivity.
  - apply ex_slay_mem. vm_compute. reflexivity.
  - apply (parse_vm _ _ _ _ 20); [vm_compute; reflexivity|discriminate].
Qed.

(** C46 is false: on an unambiguously tokenised word with two ways to cut it, a tree can be read off the
    returned node whose leaves are not the input (it is even longer than the input). *)
Theorem C46_forest_only_input_refuted : exists (g : Grammar nat nat nat nat) sg lay (w : list (Token nat nat)) t0 m t tr,
  built g /\ runs_to (wrap_grammar_with_start g) (Ret (Ok sg)) /\ in_memory sg lay /\ api_tree t0 /\
  runs_to (fun fuel => parse lay sg w t0 fuel) (Ret (Some m, t)) /\
  reads t m tr /\ length w < length (yield tr) /\ ~ dtree g (NonTerm (start_nt g)) w tr.
Proof.
  exists ex_bbc_g, (ex_wrap ex_bbc_g), ex_slay, (map ex_tok [7; 7; 8]), in_new.
  let r := eval vm_compute in (parse ex_slay (ex_wrap ex_bbc_g) (map ex_tok [7; 7; 8]) in_new 20) in
  match r with Ret (Some ?m, ?t) => exists m, t end.
  exists (PBranch 10 [PBranch 12 [PLeaf 7 0; PLeaf 7 0]; PBranch 13 [PLeaf 7 0; PLeaf 8 0]]).
  refine (conj built_bbc (conj wrap_bbc (conj _ (conj api_tree_new (conj _ (conj _ (conj _ _))))))); [apply ex_slay_mem; vm_compute; reflexivity|..].
  - apply (parse_vm _ _ _ _ 20); [vm_compute; reflexivity|discriminate].
  - apply (reads_branch _ 14 [6] 6 10 [2; 12]); [reflexivity|left; reflexivity|reflexivity|].
    constructor; [|constructor; [|constructor]].
    + apply (reads_branch _ 2 [1; 2] 2 12 [1; 5]); [reflexivity|right; left; reflexivity|reflexivity|].
      constructor; [|constructor; [|constructor]]; eapply (reads_leaf _ _ [0] 0); reflexivity || (left; reflexivity).
    + apply (reads_branch _ 12 [4; 5] 4 13 [6; 10]); [reflexivity|left; reflexivity|reflexivity|].
      constructor; [|constructor; [|constructor]]; [eapply (reads_leaf _ _ [0] 0)|eapply (reads_leaf _ _ [3] 3)]; reflexivity || (left; reflexivity).
  - simpl. lia.
  - intro D. apply (proj1 (dtree_yield ex_bbc_g)) in D. discriminate D.
Qed.

Print Assumptions C41_parse_terminates.
Print Assumptions C42_parse_accepts_only_words.
Print Assumptions C43_parse_rejects_only_nonwords.
Print Assumptions C44_parse_returns_partial.
Print Assumptions C44_nullable_start_panics.
Print Assumptions C44_syntax_error_panics.
Print Assumptions C44_syntax_error_refuted.
Print Assumptions C44_unambiguous_word_refuted.
Print Assumptions C44_repo_example_refuted.
Print Assumptions C44_left_recursive_sum_refuted.
Print Assumptions C45_forest_complete.
Print Assumptions C46_forest_only_input_refuted.
Print Assumptions C47_prefix_free_parse.
Print Assumptions C47_prefix_free_panics_iff.
Print Assumptions C48_layout_independent.
Print Assumptions C65_parse_panics_iff.
Print Assumptions C99_panic_message.
Print Assumptions C66_forest_conforms.
Print Assumptions C67_forest_exact.
Print Assumptions C68_parse_keeps_tree.
Print Assumptions C69_parse_is_api_history.

(** The hypotheses are met: a prefix-free grammar, one word accepted, one beginning of a word rejected. *)
Example ex_br_hyps : built ex_br_g /\ runs_to (wrap_grammar_with_start ex_br_g) (Ret (Ok (ex_wrap ex_br_g))) /\
  lay_inj (ex_wrap ex_br_g) ex_slay /\ api_tree (@in_new nat nat nat) /\ prefix_free (rhs_of ex_br_g) /\
  unique_cuts (rhs_of ex_br_g) 0 [1; 0; 1; 0; 0; 2; 2] /\ lang (rhs_of ex_br_g) 0 ([1; 0; 1; 0] ++ [0; 2; 2]).
Proof.
  refine (conj built_br (conj wrap_br (conj _ (conj api_tree_new (conj br_prefix_free (conj (pf_unique_cuts _ br_prefix_free _ _) br_word)))))); [apply ex_slay_inj; vm_compute; reflexivity|..].
Qed.
Example ex_br_accepts : exists t, runs_to (fun fuel => parse ex_slay (ex_wrap ex_br_g) (map ex_tok [1; 0; 1; 0; 0; 2; 2]) in_new fuel) (Ret (Some 17, t)).
Proof. eexists. apply (parse_vm _ _ _ _ 20); [vm_compute; reflexivity|discriminate]. Qed.
Example ex_br_rejects : exists t, runs_to (fun fuel => parse ex_slay (ex_wrap ex_br_g) (map ex_tok [1; 0; 1; 0]) in_new fuel) (Ret (None, t)).
Proof. eexists. apply (parse_vm _ _ _ _ 20); [vm_compute; reflexivity|discriminate]. Qed.
(** A grammar with a cycle, and so infinitely many trees of one word, is accepted. *)
Example ex_cyc_accepts : built ex_cyc_g /\ runs_to (wrap_grammar_with_start ex_cyc_g) (Ret (Ok (ex_wrap ex_cyc_g))) /\
  exists m t, runs_to (fun fuel => parse ex_slay (ex_wrap ex_cyc_g) (map ex_tok [7]) in_new fuel) (Ret (Some m, t)).
Proof.
  refine (conj built_cyc (conj wrap_cyc _)). eexists. eexists. apply (parse_vm _ _ _ _ 20); [vm_compute; reflexivity|discriminate].
Qed.
(** A grammar whose start symbol derives the empty word. *)
Example ex_doc_nullable : built ex_doc_g /\ lang (rhs_of ex_doc_g) (start_nt ex_doc_g) [].
Proof.
  split; [exists 0, ex_doc; apply (build_vm _ _ 10); [vm_compute; reflexivity | discriminate]|].
  assert (P1 : rhs_of ex_doc_g 1 []) by (eexists; split; [eexists; split; [right; left; reflexivity|right; left; reflexivity]|reflexivity]).
  assert (P2 : rhs_of ex_doc_g 0 [NonTerm 1; NonTerm 1]) by (eexists; split; [eexists; split; [left; reflexivity|left; reflexivity]|reflexivity]).
  apply (gen_nonterm _ 0 _ [] [] [] P2); [|constructor].
  apply (gen_nonterm _ 1 _ _ [] [] P1); [constructor|]. apply (gen_nonterm _ 1 _ _ [] [] P1); constructor.
Qed.

(** Both messages occur: "id + id" of the grammar of sums, and "id id". *)
Example C99_example : built ex_expr_g /\ runs_to (wrap_grammar_with_start ex_expr_g) (Ret (Ok (ex_wrap ex_expr_g))) /\ lay_inj (ex_wrap ex_expr_g) ex_slay /\
  runs_to (fun fuel => parse ex_slay (ex_wrap ex_expr_g) (map ex_tok [0; 1; 0]) in_new fuel) (Panic "assertion failed: `(left == right)`"%string) /\
  runs_to (fun fuel => parse ex_slay (ex_wrap ex_expr_g) (map ex_tok [0; 0]) in_new fuel) (Panic "assertion failed: !new_state.is_empty()"%string).
Proof.
  split; [exact built_expr|]. split; [exact wrap_expr|]. split; [apply ex_slay_inj; vm_compute; reflexivity|].
  split; (apply (parse_vm _ _ _ _ 20); [vm_compute; reflexivity|discriminate]).
Qed.
