(** C130: all readings of an input, or that they are infinitely many, for every grammar
    (src/parsers/tree.rs:387-399, 450-461; src/parsers/earley/state.rs:171-214, 263-313). *)
From Coq Require Import String List Arith NArith Lia Bool.
From Verif.Model Require Import Ord BTree Outcome Utils Grammar StartGrammar Nullable NonNull Tokens Tree State Earley.
From Verif.Spec Require Import Reach Cfg BuildSpec NullSpec NonNullSpec TreeSpec EarleySpec SizeSpec KeySpec AmbigSpec WalkSpec SiftSpec ReadingsSpec TrimSpec Examples.
From Verif.Proofs Require Import OrdFacts BTreeFacts LoopFacts GrammarFacts StartFacts BuildMore CfgFacts TreeFacts TreeHist
  EarleyItems EarleyRun EarleyParse EarleyMain TreeLink EarleyMore EarleySize EarleyExact NullableFacts NullableMore NonNullFacts NonNullMore TrimFacts AmbigFacts ExampleFacts WalkFacts SiftFacts ReorderFacts ReadingsFacts.
From Verif.Properties Require Import EarleyProps SizeProps AmbigProps WalkProps PipelineProps OptionalProps SiftProps.
Import ListNotations.

Section Props.
  Context {T NT AK AV V : Type} `{OrdEq T} `{OrdEq NT} `{OrdEq AK} `{OrdEq V}.
  Variable g : Grammar T NT AK AV.
  Variable sg : StartGrammar T NT AK AV.
  Variable lay : layout (StartNonTerminal NT).
  Hypothesis Bg : built g.
  Hypothesis Wr : runs_to (wrap_grammar_with_start g) (Ret (Ok sg)).
  Hypothesis Lay : in_memory sg lay.
  Local Notation S0 := (start_nt g).
  Variable w : list (Token T V).
  Variables (t0 t : Inner T AK V) (m : nat).
  Hypothesis A : api_tree t0.
  Hypothesis R : runs_to (fun fuel => parse lay sg w t0 fuel) (Ret (Some m, t)).
  (** [root] is the node the parser returned, in the trees [W] of the program. *)
  Variable W : world T AK V.
  Variable h : TreeHandle.
  Hypothesis At : nth_error W h = Some t.
  Local Notation root := {| nd_index := m; nd_inner := h |}.

  (** C130.  The program ends, and gives all derivation trees of the input if they are finitely many. *)
  Theorem C130_readings : exists o, readings W (height_bound g (length w)) w root = Ret o /\
    match o with
    | Some l => forall tr, In tr l <-> dtree g (NonTerm S0) w tr
    | None => ~ finitely_many (dtree g (NonTerm S0) w : ptree T AK V -> Prop)
    end.
  Proof.
    destruct (C128_sift g sg lay Bg Wr Lay w t0 t m A R W h At (2 * height_bound g (length w))) as (l & E & I).
    unfold readings. rewrite E. cbn [obind]. eexists. split; [reflexivity|].
    destruct (existsb (fun tr => height_bound g (length w) <? height tr) (sift w l)) eqn:X.
    - apply existsb_exists in X as (tr & J & L). apply Nat.ltb_lt in L. apply I in J as [D _]. exact (infinitely g w _ tr D L).
    - intro tr. rewrite I. split; [tauto|]. intro D. split; [exact D|].
      destruct (le_lt_dec (height tr) (height_bound g (length w))) as [L|L]; [lia|]. exfalso.
      destruct (between g w _ tr D L) as (tr' & D' & L').
      assert (Y : existsb (fun tr => height_bound g (length w) <? height tr) (sift w l) = true); [|congruence].
      apply existsb_exists. exists tr'. split; [apply I; split; [exact D'|lia]|]. apply Nat.ltb_lt. lia.
  Qed.
  (** C130.  So finitely many readings have at most the height of the bound, and which case holds can be found out. *)
  Theorem C130_height : finitely_many (dtree g (NonTerm S0) w : ptree T AK V -> Prop) <->
    forall tr : ptree T AK V, dtree g (NonTerm S0) w tr -> height tr <= height_bound g (length w).
  Proof.
    split.
    - intros F tr D. destruct (le_lt_dec (height tr) (height_bound g (length w))) as [L|L]; [exact L|]. destruct (infinitely g w _ tr D L F).
    - intro Hb. destruct (C128_sift g sg lay Bg Wr Lay w t0 t m A R W h At (height_bound g (length w))) as (l & _ & I).
      exists (sift w l). intros tr D. apply I. split; [exact D|exact (Hb tr D)].
  Qed.
End Props.

(** C130.  What the program gives does not depend on the order in which the productions are listed, nor on the memory, the
    tree the parse starts with or the other trees of the program (compare C100). *)
Section Order.
  Context {T NT AK AV V : Type} `{OrdEq T} `{OrdEq NT} `{OrdEq AK} `{OrdEq V}.
  Variables g g' : Grammar T NT AK AV.
  Variables sg sg' : StartGrammar T NT AK AV.
  Variables lay lay' : layout (StartNonTerminal NT).
  Hypothesis Bg : built g.
  Hypothesis Bg' : built g'.
  Hypothesis Wr : runs_to (wrap_grammar_with_start g) (Ret (Ok sg)).
  Hypothesis Wr' : runs_to (wrap_grammar_with_start g') (Ret (Ok sg')).
  Hypothesis Lay : in_memory sg lay.
  Hypothesis Lay' : in_memory sg' lay'.
  Hypothesis Same : start_nt g = start_nt g'.
  Hypothesis Prods : forall B p, prod_of g B p <-> prod_of g' B p.
  Theorem C130_order (w : list (Token T V)) t0 t m t0' t' m' W W' h h' : api_tree t0 -> api_tree t0' ->
    runs_to (fun fuel => parse lay sg w t0 fuel) (Ret (Some m, t)) -> runs_to (fun fuel => parse lay' sg' w t0' fuel) (Ret (Some m', t')) ->
    nth_error W h = Some t -> nth_error W' h' = Some t' ->
    exists o o', readings W (height_bound g (length w)) w {| nd_index := m; nd_inner := h |} = Ret o /\
      readings W' (height_bound g' (length w)) w {| nd_index := m'; nd_inner := h' |} = Ret o' /\
      match o, o' with
      | Some l, Some l' => forall tr, In tr l <-> In tr l'
      | None, None => True
      | _, _ => False
      end.
  Proof.
    intros A A' R R' At At'.
    destruct (C130_readings g sg lay Bg Wr Lay w t0 t m A R W h At) as (o & E & Po).
    destruct (C130_readings g' sg' lay' Bg' Wr' Lay' w t0' t' m' A' R' W' h' At') as (o' & E' & Po').
    assert (D : forall tr : ptree T AK V, dtree g (NonTerm (start_nt g)) w tr <-> dtree g' (NonTerm (start_nt g')) w tr).
    { intro tr. rewrite <- Same. split; apply dtree_to; intros B p; apply Prods. }
    exists o, o'. split; [exact E|]. split; [exact E'|]. destruct o as [l|], o' as [l'|]; [| | |exact I].
    - intro tr. rewrite Po, Po'. apply D.
    - apply Po'. exists l. intros tr X. apply Po, D, X.
    - apply Po. exists l'. intros tr X. apply Po', D, X.
  Qed.
End Order.

(** ** Grammars with optional parts *)
Section Optional.
  Context {T NT AK AV V : Type} `{OrdEq T} `{OrdEq NT} `{OrdEq AK} `{OrdEq V}.
  (** A grammar, transformed, then wrapped with a start rule. *)
  Variable lay0 : layout NT.
  Variable g : Grammar T NT AK AV.
  Variable g' : NonNullGrammar T NT AK AV.
  Variable sg : StartGrammar T NT (NNActionKey AK) (NNActionValue NT AK AV).
  Variable lay : layout (StartNonTerminal NT).
  Hypothesis Inj : lay_inj g lay0.
  Hypothesis Bg : built g.
  Hypothesis Tr : runs_to (transform_to_nonnull lay0 g) (Ret (Ok g')).
  Hypothesis Wr : runs_to (wrap_grammar_with_start g') (Ret (Ok sg)).
  Hypothesis Lay : in_memory sg lay.
  Variable w : list (Token T V).
  Variables (t0 t : Inner T (NNActionKey AK) V) (m : nat).
  Hypothesis A : api_tree t0.
  Hypothesis R : runs_to (fun fuel => parse lay sg w t0 fuel) (Ret (Some m, t)).
  Variable W : world T (NNActionKey AK) V.
  Variable h : TreeHandle.
  Hypothesis At : nth_error W h = Some t.
  Local Notation root := {| nd_index := m; nd_inner := h |}.
  Local Notation tree_of tr := (stree g (NonTerm (start_nt g)) w tr).

  (** C130.  All trimmed trees of the original grammar for the input, unless it has infinitely many trees. *)
  Theorem C130_optional : exists o, readings W (height_bound g' (length w)) w root = Ret o /\
    match o with
    | Some l => (forall tr', In tr' l <-> exists tr, tree_of tr /\ trim tr = tr') /\
        (KeySpec.keys_distinct g -> finitely_many (stree g (NonTerm (start_nt g)) w))
    | None => ~ finitely_many (stree g (NonTerm (start_nt g)) w)
    end.
  Proof.
    pose proof (proj1 (transform_nonempty lay0 g Inj Bg g' Tr)) as B'.
    assert (O : forall tr', dtree g' (NonTerm (start_nt g')) w tr' <-> exists tr, tree_of tr /\ trim tr = tr')
      by exact (optional_trees lay0 g g' sg lay Inj Bg Tr Wr Lay w t0 t m A R).
    destruct (C130_readings g' sg lay B' Wr Lay w t0 t m A R W h At) as (o & E & Po). exists o. split; [exact E|].
    destruct o as [l|].
    - split; [intro tr'; rewrite Po; apply O|]. intro K.
      assert (K2 : TrimSpec.keys_distinct g) by (intros X r Ir; exact (K r (in_map snd _ _ Ir))).
      assert (X : exists l2, forall tr, tree_of tr -> In (trim tr) l -> In tr l2).
      { assert (All : forall tr', In tr' l -> exists tr, tree_of tr /\ trim tr = tr') by (intros tr' J; apply O, Po, J).
        clear - All K2 Inj Bg Tr H0 H2 H4 H6. induction l as [|x l IH]; [exists []; intros tr _ []|].
        destruct IH as (l2 & F); [intros y J; apply All; right; exact J|]. destruct (All x (or_introl eq_refl)) as (y & Sy & Ty).
        exists (y :: l2). intros tr Sr [J|J]; [|right; exact (F tr Sr J)]. left. 
        exact (C88_trees_recoverable lay0 g g' Inj Bg Tr _ _ _ _ _ K2 Sy Sr (eq_trans Ty J)). }
      destruct X as (l2 & F). exists l2. intros tr Sr. apply (F tr Sr). apply Po, O. eauto.
    - intros (l & F). apply Po. exists (map trim l). intros tr' D. apply O in D as (tr & Sr & <-). apply in_map. exact (F tr Sr).
  Qed.
End Optional.

(** ** The hypotheses are met *)
(** The input of C128_turn has one reading, although the forest holds two trees; that of C128_cycle has infinitely many. *)
Example C130_turn : exists m t, runs_to (fun fuel => parse ex_slay (ex_wrap turn_g) (map ex_tok [1; 2; 3; 4]) in_new fuel) (Ret (Some m, t)) /\
  readings [t] (height_bound turn_g 4) (map ex_tok [1; 2; 3; 4]) {| nd_index := m; nd_inner := 0 |} =
    Ret (Some [PBranch 10 [PBranch 12 [PLeaf 1 0; PLeaf 2 0]; PBranch 15 [PLeaf 3 0; PLeaf 4 0]]]).
Proof. eexists _, _. split; [apply (parse_vm _ _ _ _ 20); [vm_compute; reflexivity|discriminate]|]. vm_compute. reflexivity. Qed.
(** 0 -> 1 | 2;  1 -> 7;  2 -> 7: two readings. *)
Definition both_calls : list (gb_call nat nat nat nat) :=
  [AddRule 0 [AddProd 10 0 [AddNonterm 1]; AddProd 11 0 [AddNonterm 2]]; AddRule 1 [AddProd 12 0 [AddTerm 7]]; AddRule 2 [AddProd 13 0 [AddTerm 7]]].
Definition both_g : Grammar nat nat nat nat := Eval vm_compute in
  match build 0 both_calls 20 with Ret (Ok g) => g | _ => Build_Grammar 0 [] end.
Example C130_both : exists m t, runs_to (fun fuel => parse ex_slay (ex_wrap both_g) (map ex_tok [7]) in_new fuel) (Ret (Some m, t)) /\
  exists l, readings [t] (height_bound both_g 1) (map ex_tok [7]) {| nd_index := m; nd_inner := 0 |} = Ret (Some l) /\
    forall tr, In tr l <-> tr = PBranch 10 [PBranch 12 [PLeaf 7 0]] \/ tr = PBranch 11 [PBranch 13 [PLeaf 7 0]].
Proof.
  eexists _, _. split; [apply (parse_vm _ _ _ _ 20); [vm_compute; reflexivity|discriminate]|]. eexists. split; [vm_compute; reflexivity|].
  intro tr. cbn [In]. intuition.
Qed.
Example C130_cycle : exists m t, runs_to (fun fuel => parse ex_slay (ex_wrap ex_cyc_g) (map ex_tok [7]) in_new fuel) (Ret (Some m, t)) /\
  readings [t] (height_bound ex_cyc_g 1) (map ex_tok [7]) {| nd_index := m; nd_inner := 0 |} = Ret None.
Proof. eexists _, _. split; [apply (parse_vm _ _ _ _ 20); [vm_compute; reflexivity|discriminate]|]. vm_compute. reflexivity. Qed.

Print Assumptions C130_readings.
Print Assumptions C130_height.
Print Assumptions C130_order.
Print Assumptions C130_optional.
