(** C88, C89: the null-removing transformation and derivation trees; parsing with the transformed grammar. *)
From Coq Require Import String List Arith NArith Lia.
From Verif.Model Require Import Ord BTree Outcome Utils Grammar StartGrammar Nullable NonNull Tokens Tree State Earley.
From Verif.Spec Require Import Reach Cfg BuildSpec NullSpec NonNullSpec TreeSpec EarleySpec TrimSpec Examples.
From Verif.Proofs Require Import OrdFacts BTreeFacts LoopFacts GrammarFacts StartFacts BuildMore CfgFacts NullableFacts NullableMore
  NonNullFacts NonNullMore TreeFacts TreeHist EarleyItems EarleyMore TrimFacts.
From Verif.Properties Require Import EarleyProps.
Import ListNotations.

Section Trees.
  Context {T NT AK AV V : Type} `{OrdEq NT}.
  Variable lay : layout NT.
  Variable g : Grammar T NT AK AV.
  Variable g' : NonNullGrammar T NT AK AV.
  Hypothesis Inj : lay_inj g lay.
  Hypothesis B : built g.
  Hypothesis R : runs_to (transform_to_nonnull lay g) (Ret (Ok g')).

  (** C88.  The derivation trees of the result are the trimmed derivation trees of the original that use
      productions deriving the empty word for the empty word only. *)
  Theorem C88_trees_trimmed A ts (t : ptree T (NNActionKey AK) V) :
    dtree g' (NonTerm A) ts t <-> ts <> [] /\ exists t0, stree g (NonTerm A) ts t0 /\ trim t0 = t.
  Proof. exact (trim_trees lay g Inj B g' R A ts t). Qed.

  (** C88.  The original tree can be recovered, when productions of one rule have different keys. *)
  Theorem C88_trees_recoverable A ts us (t u : ptree T AK V) : keys_distinct g ->
    stree g (NonTerm A) ts t -> stree g (NonTerm A) us u -> trim t = trim u -> t = u.
  Proof. exact (fun K S1 S2 => proj1 (trim_inj lay g Inj B g' R K) _ _ _ S1 _ _ S2). Qed.

  (** C88.  When productions deriving the empty word derive nothing else, these are all trees of the original. *)
  Theorem C88_trees_all A ts (t : ptree T (NNActionKey AK) V) : null_prods_pure g ->
    (dtree g' (NonTerm A) ts t <-> ts <> [] /\ exists t0, dtree g (NonTerm A) ts t0 /\ trim t0 = t).
  Proof.
    intro Pu. rewrite C88_trees_trimmed. split; intros (N & t0 & S0 & E); (split; [exact N|]); exists t0; (split; [|exact E]).
    - exact (proj1 (stree_dtree g) _ _ _ S0).
    - exact (proj1 (pure_stree g Pu) _ _ _ S0).
  Qed.
End Trees.

Section Parse.
  Context {T NT AK AV V : Type} `{OrdEq T} `{OrdEq NT} `{OrdEq AK} `{OrdEq V}.
  (** A grammar, transformed, then wrapped with a start rule; productions at any different addresses. *)
  Variable lay0 : layout NT.
  Variable g : Grammar T NT AK AV.
  Variable g' : NonNullGrammar T NT AK AV.
  Variable sg : StartGrammar T NT (NNActionKey AK) (NNActionValue NT AK AV).
  Variable lay : layout (StartNonTerminal NT).
  Hypothesis Inj : lay_inj g lay0.
  Hypothesis B : built g.
  Hypothesis R : runs_to (transform_to_nonnull lay0 g) (Ret (Ok g')).
  Hypothesis Wr : runs_to (wrap_grammar_with_start g') (Ret (Ok sg)).
  Hypothesis Lay : lay_inj sg lay.

  Let B' : built g' := proj1 (transform_nonempty lay0 g Inj B g' R).
  Let St : start_nt g' = start_nt g := proj1 (transform_shape lay0 g Inj B g' R).

  (** C89.  When [parse] returns, it has accepted exactly the nonempty words with a derivation in the original
      grammar that uses productions deriving the empty word for the empty word only. *)
  Theorem C89_nonnull_parse_accepts (w : list (Token T V)) t0 o t : api_tree t0 ->
    runs_to (fun fuel => parse lay sg w t0 fuel) (Ret (o, t)) ->
    (o <> None <-> w <> [] /\ strict g [NonTerm (start_nt g)] (map tk_kind w)).
  Proof.
    intros A Rn. assert (E : w <> [] <-> map tk_kind w <> []) by (destruct w; simpl; split; congruence).
    rewrite E, <- (transform_lang_exact lay0 g Inj B g' R), <- St. destruct o as [m|].
    - split; [|discriminate]. intros _. exact (C42_parse_accepts_only_words g' sg lay B' Wr Lay w t0 m t A Rn).
    - split; [congruence|]. intro L. destruct (C43_parse_rejects_only_nonwords g' sg lay B' Wr Lay w t0 t A Rn L).
  Qed.
  Theorem C89_nonnull_parse_accepts_all (w : list (Token T V)) t0 o t : api_tree t0 -> null_prods_pure g ->
    runs_to (fun fuel => parse lay sg w t0 fuel) (Ret (o, t)) ->
    (o <> None <-> w <> [] /\ lang (rhs_of g) (start_nt g) (map tk_kind w)).
  Proof.
    intros A Pu Rn. rewrite (C89_nonnull_parse_accepts w t0 o t A Rn).
    assert (E : w <> [] <-> map tk_kind w <> []) by (destruct w; simpl; split; congruence). rewrite E.
    rewrite <- (transform_lang_exact lay0 g Inj B g' R), (transform_lang_pure lay0 g Inj B g' R Pu). reflexivity.
  Qed.

  (** C89.  The forest: it contains the trimmed tree of every such derivation of the input; every tree in it is
      the trimmed tree of such a derivation of some word, and of the input when it is cut in one way. *)
  Theorem C89_nonnull_parse_forest (w : list (Token T V)) t0 m t : api_tree t0 ->
    runs_to (fun fuel => parse lay sg w t0 fuel) (Ret (Some m, t)) ->
    (forall tr, stree g (NonTerm (start_nt g)) w tr -> reads t m (trim tr)) /\
    (forall tr', reads t m tr' -> exists ts tr, stree g (NonTerm (start_nt g)) ts tr /\ trim tr = tr') /\
    (unique_cuts (rhs_of g') (start_nt g') (map tk_kind w) ->
     forall tr', reads t m tr' -> exists tr, stree g (NonTerm (start_nt g)) w tr /\ trim tr = tr').
  Proof.
    intros A Rn. split; [|split].
    - intros tr Sr. apply (C45_forest_complete g' sg lay B' Wr Lay w t0 m t A Rn). rewrite St. apply (C88_trees_trimmed lay0 g g' Inj B R).
      split; [|exists tr; auto]. apply (C89_nonnull_parse_accepts w t0 (Some m) t A Rn). discriminate.
    - intros tr' Rd. destruct (C66_forest_conforms g' sg lay B' Wr Lay w t0 m t A Rn tr' Rd) as (ts & D). rewrite St in D.
      apply (C88_trees_trimmed lay0 g g' Inj B R) in D. destruct D as (_ & tr & X). eauto.
    - intros U tr' Rd. apply (C67_forest_exact g' sg lay B' Wr Lay w t0 m t A U Rn) in Rd. rewrite St in Rd.
      apply (C88_trees_trimmed lay0 g g' Inj B R) in Rd. exact (proj2 Rd).
  Qed.

  (** C89.  It no longer panics because of the empty word: only on a syntax error, or when a production is at two
      places at once. *)
  Theorem C89_nonnull_parse_panics_iff (w : list (Token T V)) t0 : api_tree t0 ->
    ((exists msg, runs_to (fun fuel => parse lay sg w t0 fuel) (Panic msg)) <->
     exists j, j <= length w /\ (~ viable (rhs_of g') (start_nt g') (firstn j (map tk_kind w)) \/ two_places (rhs_of g') (start_nt g') (map tk_kind w) j)).
  Proof.
    intro A. rewrite (C65_parse_panics_iff g' sg lay B' Wr Lay w t0 A). split; intros (j & L & X); exists j; (split; [exact L|]).
    - destruct X as [X|[X|X]]; auto. destruct (proj2 (proj2 (transform_nonempty lay0 g Inj B g' R)) _ X).
    - destruct X; auto.
  Qed.
End Parse.

Print Assumptions C88_trees_trimmed.
Print Assumptions C88_trees_recoverable.
Print Assumptions C88_trees_all.
Print Assumptions C89_nonnull_parse_accepts.
Print Assumptions C89_nonnull_parse_accepts_all.
Print Assumptions C89_nonnull_parse_forest.
Print Assumptions C89_nonnull_parse_panics_iff.

(** The hypotheses are met by a grammar with an optional part on both sides of a token. *)
Definition ex_nnp : NonNullGrammar nat nat nat nat :=
  match transform_to_nonnull ex_lay ex_pure_g 10 with Ret (Ok g) => g | _ => Build_Grammar 0 [] end.
Definition ex_nnp_sg : StartGrammar nat nat (NNActionKey nat) (NNActionValue nat nat nat) :=
  match wrap_grammar_with_start ex_nnp 20 with Ret (Ok sg) => sg | _ => Build_Grammar Start [] end.
Example ex_nnp_hyps : lay_inj ex_pure_g ex_lay /\ built ex_pure_g /\ runs_to (transform_to_nonnull ex_lay ex_pure_g) (Ret (Ok ex_nnp)) /\
  runs_to (wrap_grammar_with_start ex_nnp) (Ret (Ok ex_nnp_sg)) /\ lay_inj ex_nnp_sg ex_slay /\ null_prods_pure ex_pure_g /\ keys_distinct ex_pure_g.
Proof.
  split; [apply ex_lay_inj; vm_compute; reflexivity|]. split; [exact built_pure|]. split.
  { apply (transform_vm _ _ 10); [vm_compute; reflexivity|discriminate]. }
  split. { apply (runs_to_mono _ 20); [apply build_mono|vm_compute; reflexivity|discriminate]. }
  split; [apply ex_slay_inj; vm_compute; reflexivity|]. split; [exact ex_pure_pure|].
  intros A r [E|[E|[]]]; injection E as <- <-; simpl; repeat constructor; simpl; intuition discriminate.
Qed.
(** The word 7 9 8, whose only tree has an empty left part, is accepted; its tree is in the forest, trimmed. *)
Example ex_nnp_parse : exists m t,
  runs_to (fun fuel => parse ex_slay ex_nnp_sg (map ex_tok [7; 9; 8]) in_new fuel) (Ret (Some m, t)) /\
  stree ex_pure_g (NonTerm 0) (map ex_tok [7; 9; 8])
    (PBranch 10 [PBranch 12 []; PLeaf 7 0; PBranch 13 [PLeaf 9 0; PBranch 11 [PLeaf 8 0]]]) /\
  reads t m (PBranch (Build_NNActionKey 10 [true; false])
    [PLeaf 7 0; PBranch (Build_NNActionKey 13 [false]) [PLeaf 9 0; PBranch (Build_NNActionKey 11 []) [PLeaf 8 0]]]).
Proof.
  set (tr := PBranch 10 [PBranch 12 []; PLeaf 7 0; PBranch 13 [PLeaf 9 0; PBranch 11 [PLeaf 8 0]]]).
  assert (Sr : stree ex_pure_g (NonTerm 0) (map ex_tok [7; 9; 8]) tr).
  { assert (D : dtree ex_pure_g (NonTerm 0) (map ex_tok [7; 9; 8]) tr).
    { assert (P : forall A i p, nth_prod ex_pure_g A i p -> prod_of ex_pure_g A p).
      { intros A i p N. apply prod_of_nth. eauto. }
      assert (D0 : dtree ex_pure_g (NonTerm 0) [ex_tok 8] (PBranch 11 [PLeaf 8 0])).
      { refine (dtree_branch _ 0 (Build_ProdInner 11 5 [Build_ProdElement None (Term 8)]) _ _ (P 0 1 _ _) _).
        - eexists. split; [left; reflexivity|reflexivity].
        - apply (dtrees_cons _ (Term 8) [] [ex_tok 8] []); constructor. }
      assert (D1 : dtree ex_pure_g (NonTerm 1) [ex_tok 9; ex_tok 8] (PBranch 13 [PLeaf 9 0; PBranch 11 [PLeaf 8 0]])).
      { refine (dtree_branch _ 1 (Build_ProdInner 13 6 [Build_ProdElement None (Term 9); Build_ProdElement None (NonTerm 0)]) _ _ (P 1 1 _ _) _).
        - eexists. split; [right; left; reflexivity|reflexivity].
        - apply (dtrees_cons _ (Term 9) [NonTerm 0] [ex_tok 9] [ex_tok 8]); [constructor|].
          apply (dtrees_cons _ (NonTerm 0) [] [ex_tok 8] []); [exact D0|constructor]. }
      refine (dtree_branch _ 0 (Build_ProdInner 10 5 [Build_ProdElement (Some "l"%string) (NonTerm 1); Build_ProdElement None (Term 7);
                Build_ProdElement (Some "r"%string) (NonTerm 1)]) _ _ (P 0 0 _ _) _).
      - eexists. split; [left; reflexivity|reflexivity].
      - apply (dtrees_cons _ (NonTerm 1) [Term 7; NonTerm 1] [] (map ex_tok [7; 9; 8])).
        + refine (dtree_branch _ 1 (Build_ProdInner 12 6 []) _ _ (P 1 0 _ _) _); [|constructor].
          eexists. split; [right; left; reflexivity|reflexivity].
        + apply (dtrees_cons _ (Term 7) [NonTerm 1] [ex_tok 7] (map ex_tok [9; 8])); [constructor|].
          apply (dtrees_cons _ (NonTerm 1) [] [ex_tok 9; ex_tok 8] []); [exact D1|constructor]. }
    exact (proj1 (pure_stree ex_pure_g ex_pure_pure) _ _ _ D). }
  destruct ex_nnp_hyps as (I & B & Rt & Wr & L & _).
  let r := eval vm_compute in (parse ex_slay ex_nnp_sg (map ex_tok [7; 9; 8]) in_new 20) in
  match r with Ret (Some ?m, ?t) => exists m, t;
    assert (Rn : runs_to (fun fuel => parse ex_slay ex_nnp_sg (map ex_tok [7; 9; 8]) in_new fuel) (Ret (Some m, t)))
      by (apply (parse_vm _ _ _ _ 20); [vm_compute; reflexivity|discriminate]) end.
  split; [exact Rn|]. split; [exact Sr|].
  exact (proj1 (C89_nonnull_parse_forest ex_lay ex_pure_g ex_nnp ex_nnp_sg ex_slay I B Rt Wr L _ _ _ _ api_tree_new Rn) tr Sr).
Qed.
(** Without the transformation the same word makes the parser panic. *)
Example ex_pure_direct_panics : exists msg,
  runs_to (fun fuel => parse ex_slay (ex_wrap ex_pure_g) (map ex_tok [7; 9; 8]) in_new fuel) (Panic msg).
Proof. eexists. apply (parse_vm _ _ _ _ 20); [vm_compute; reflexivity|discriminate]. Qed.
