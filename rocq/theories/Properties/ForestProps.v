(** C81, C82, C100: what the parse forest can contain, and what that depends on (src/parsers/earley/state.rs). *)
From Coq Require Import String List Arith NArith Lia.
From Verif.Model Require Import Ord BTree Outcome Utils Grammar StartGrammar Tokens Tree State Earley.
From Verif.Spec Require Import Reach Cfg BuildSpec NullSpec TreeSpec EarleySpec Examples.
From Verif.Proofs Require Import OrdFacts BTreeFacts LoopFacts GrammarFacts StartFacts BuildMore CfgFacts TreeFacts TreeHist
  EarleyItems EarleyRun EarleyParse EarleyMain EarleyPieces TreeLink EarleyMore EarleyExact ReorderFacts.
From Verif.Properties Require Import EarleyProps.
Import ListNotations.

Section Props.
  Context {T NT AK AV V : Type} `{OrdEq T} `{OrdEq NT} `{OrdEq AK} `{OrdEq V}.
  Variable g : Grammar T NT AK AV.
  Variable sg : StartGrammar T NT AK AV.
  Hypothesis Bg : built g.
  Hypothesis Wr : runs_to (wrap_grammar_with_start g) (Ret (Ok sg)).
  Local Notation P := (rhs_of g).
  Local Notation S0 := (start_nt g).

  (** C81.  Whatever the grammar, every tree of the forest is put together from pieces of the input: see
      [pieced]. *)
  Theorem C81_forest_pieces lay (w : list (Token T V)) t0 m t : lay_inj sg lay -> api_tree t0 ->
    runs_to (fun fuel => parse lay sg w t0 fuel) (Ret (Some m, t)) ->
    forall tr, reads t m tr -> pieced g w (NonTerm S0) 0 (length w) tr.
  Proof.
    intros L A R. rewrite (wrapped_eq g sg (built_accepted g Bg) Wr) in L, R.
    exact (parse_pieces g (built_accepted g Bg) lay L w t0 (api_tree_inv _ A) m t R).
  Qed.
  (** C81.  In particular every leaf of every tree is a token of the input: no token is invented. *)
  Theorem C81_leaves_are_tokens lay (w : list (Token T V)) t0 m t : lay_inj sg lay -> api_tree t0 ->
    runs_to (fun fuel => parse lay sg w t0 fuel) (Ret (Some m, t)) ->
    forall tr tok, reads t m tr -> In tok (yield tr) -> In tok w.
  Proof. intros L A R tr tok Rd. exact (pieced_leaves g w _ _ _ _ (C81_forest_pieces lay w t0 m t L A R tr Rd) tok). Qed.

  (** C82.  Which trees can be read off the returned node does not depend on where the productions lie in memory,
      nor on what the tree held before the parse, nor on the run: any two parses of the same tokens give the same
      trees. *)
  Theorem C82_forest_layout lay lay' (w : list (Token T V)) t0 t0' m t m' t' : in_memory sg lay -> in_memory sg lay' ->
    api_tree t0 -> api_tree t0' ->
    runs_to (fun fuel => parse lay sg w t0 fuel) (Ret (Some m, t)) ->
    runs_to (fun fuel => parse lay' sg w t0' fuel) (Ret (Some m', t')) ->
    forall tr, reads t m tr <-> reads t' m' tr.
  Proof.
    intros L L' A A' R R' tr. rewrite (wrapped_eq g sg (built_accepted g Bg) Wr) in *.
    rewrite (parse_areads g (built_accepted g Bg) w lay t0 m t (in_memory_inj _ _ L) (in_memory_up _ _ L) (api_tree_inv _ A) R tr).
    rewrite (parse_areads g (built_accepted g Bg) w lay' t0' m' t' (in_memory_inj _ _ L') (in_memory_up _ _ L') (api_tree_inv _ A') R' tr).
    reflexivity.
  Qed.
  (** C82.  When every piece of the input is cut in one way only, not even the order of the productions of a rule
      in memory matters. *)
  Theorem C82_unique_cuts lay lay' (w : list (Token T V)) t0 t0' m t m' t' : lay_inj sg lay -> lay_inj sg lay' ->
    api_tree t0 -> api_tree t0' -> unique_cuts P S0 (map tk_kind w) ->
    runs_to (fun fuel => parse lay sg w t0 fuel) (Ret (Some m, t)) ->
    runs_to (fun fuel => parse lay' sg w t0' fuel) (Ret (Some m', t')) ->
    forall tr, reads t m tr <-> reads t' m' tr.
  Proof.
    intros L L' A A' U R R' tr.
    rewrite (C67_forest_exact g sg lay Bg Wr L w t0 m t A U R tr), (C67_forest_exact g sg lay' Bg Wr L' w t0' m' t' A' U R' tr). reflexivity.
  Qed.
End Props.

Section Reorder.
  Context {T NT AK AV V : Type} `{OrdEq T} `{OrdEq NT} `{OrdEq AK} `{OrdEq V}.
  (** Two grammars with the same start symbol and the same productions, in any order and number. *)
  Variables g g' : Grammar T NT AK AV.
  Variables sg sg' : StartGrammar T NT AK AV.
  Hypothesis Bg : built g.
  Hypothesis Wr : runs_to (wrap_grammar_with_start g) (Ret (Ok sg)).
  Hypothesis Bg' : built g'.
  Hypothesis Wr' : runs_to (wrap_grammar_with_start g') (Ret (Ok sg')).
  Hypothesis Same_start : start_nt g = start_nt g'.
  Hypothesis Same_prods : forall A p, prod_of g A p <-> prod_of g' A p.
  Lemma same_rhs A r : rhs_of g A r <-> rhs_of g' A r.
  Proof. split; intros (p & I & E); (exists p; split; [apply Same_prods; exact I|exact E]). Qed.

  (** C100, part that holds: the verdict is the same, and so is the panic and its text. *)
  Theorem C100_verdict_partial lay lay' (w : list (Token T V)) t0 t0' : lay_inj sg lay -> lay_inj sg' lay' -> api_tree t0 -> api_tree t0' ->
    exists r r', runs_to (fun fuel => parse lay sg w t0 fuel) r /\ runs_to (fun fuel => parse lay' sg' w t0' fuel) r' /\
      match r, r' with
      | Ret (Some _, _), Ret (Some _, _) => True
      | Ret (None, _), Ret (None, _) => True
      | Panic m, Panic m' => m = m'
      | _, _ => False
      end.
  Proof.
    intros L L' A A'. destruct (main g sg lay Bg Wr L w t0 A) as (r & Rr & Pr). destruct (main g' sg' lay' Bg' Wr' L' w t0' A') as (r' & Rr' & Pr').
    exists r, r'. split; [exact Rr|]. split; [exact Rr'|].
    assert (HP : forall A r, rhs_of g A r <-> rhs_of g' A r) by exact same_rhs.
    assert (HP' : forall A r, rhs_of g' A r <-> rhs_of g A r) by (intros; symmetry; apply HP).
    assert (S1 : forall j, stuck g w j -> stuck g' w j) by (intro; apply stuck_to; assumption).
    assert (S2 : forall j, stuck g' w j -> stuck g w j) by (intro; apply stuck_to; [assumption|symmetry; assumption]).
    assert (L1 : lang (rhs_of g) (start_nt g) (map tk_kind w) <-> lang (rhs_of g') (start_nt g') (map tk_kind w)) by (rewrite <- Same_start; split; apply gen_to; assumption).
    assert (V1 : forall u, viable (rhs_of g) (start_nt g) u <-> viable (rhs_of g') (start_nt g') u) by (intro u; rewrite <- Same_start; split; apply viable_to; assumption).
    destruct r as [[o t]|m|]; [|destruct r' as [[o' t']|m'|]; [| |exact Pr']|destruct Pr].
    - destruct r' as [[o' t']|m'|]; [| |destruct o; exact Pr'].
      + destruct o, o'; try exact I; destruct Pr as (_ & _ & _ & _ & X), Pr' as (_ & _ & _ & _ & X'); tauto.
      + destruct Pr' as (j & Lj & S & _). destruct (proj1 Pr j Lj (S2 j S)).
    - destruct Pr as (j & Lj & S & _). destruct (proj1 Pr' j Lj (S1 j S)).
    - destruct Pr as (j & Lj & S & Mn & M), Pr' as (j' & Lj' & S' & Mn' & M').
      assert (j = j') as <-.
      { destruct (Nat.lt_total j j') as [X|[X|X]]; [destruct (Mn' j X (S1 _ S))|exact X|destruct (Mn j' X (S2 _ S'))]. }
      rewrite <- V1 in M'. destruct M as [[-> X]|[-> X]], M' as [[-> Y]|[-> Y]]; tauto.
  Qed.
  (** C100, part that holds: the trees are the same when every piece of the input is cut in one way only (missing:
      the other inputs). *)
  Theorem C100_unique_cuts_partial lay lay' (w : list (Token T V)) t0 t0' m t m' t' : lay_inj sg lay -> lay_inj sg' lay' ->
    api_tree t0 -> api_tree t0' -> unique_cuts (rhs_of g) (start_nt g) (map tk_kind w) ->
    runs_to (fun fuel => parse lay sg w t0 fuel) (Ret (Some m, t)) ->
    runs_to (fun fuel => parse lay' sg' w t0' fuel) (Ret (Some m', t')) ->
    forall tr, reads t m tr <-> reads t' m' tr.
  Proof.
    intros L L' A A' U R R' tr.
    assert (HP : forall A r, rhs_of g A r <-> rhs_of g' A r) by exact same_rhs.
    assert (HP' : forall A r, rhs_of g' A r <-> rhs_of g A r) by (intros; symmetry; apply HP).
    assert (U' : unique_cuts (rhs_of g') (start_nt g') (map tk_kind w)).
    { rewrite <- Same_start. intros i B pre post k cs cs' Pr Pb C1 C2. apply (U i B pre post k).
      - apply (predicted_to _ _ HP'). exact Pr.
      - apply HP'. exact Pb.
      - apply (cuts_to _ _ HP'). exact C1.
      - apply (cuts_to _ _ HP'). exact C2. }
    rewrite (C67_forest_exact g sg lay Bg Wr L w t0 m t A U R tr), (C67_forest_exact g' sg' lay' Bg' Wr' L' w t0' m' t' A' U' R' tr).
    rewrite <- Same_start. split; apply dtree_to; intros B p; apply Same_prods.
  Qed.
End Reorder.

Lemma built_lo : built ex_lo_g.
Proof. exists 0, ex_lo. apply (build_vm _ _ 10); [vm_compute; reflexivity | discriminate]. Qed.
Lemma wrap_lo : runs_to (wrap_grammar_with_start ex_lo_g) (Ret (Ok (ex_wrap ex_lo_g))).
Proof. apply wrap_vm. vm_compute. reflexivity. Qed.
Lemma built_lo2 : built ex_lo2_g.
Proof. exists 0, ex_lo2. apply (build_vm _ _ 10); [vm_compute; reflexivity | discriminate]. Qed.
Lemma wrap_lo2 : runs_to (wrap_grammar_with_start ex_lo2_g) (Ret (Ok (ex_wrap ex_lo2_g))).
Proof. apply wrap_vm. vm_compute. reflexivity. Qed.

(** C100 is false: two grammars with the same productions, listed in another order within one rule; a word with one
    derivation.  With one order the trees that can be read off the returned node are that derivation, with the
    other there is also a tree that is no derivation of the word. *)
Theorem C100_production_order_refuted : exists (g g' : Grammar nat nat nat nat) sg sg' lay lay' (w : list (Token nat nat)) t0 m t m' t' tr tr',
  built g /\ runs_to (wrap_grammar_with_start g) (Ret (Ok sg)) /\ built g' /\ runs_to (wrap_grammar_with_start g') (Ret (Ok sg')) /\
  start_nt g = start_nt g' /\ (forall A p, prod_of g A p <-> prod_of g' A p) /\
  in_memory sg lay /\ in_memory sg' lay' /\ api_tree t0 /\
  runs_to (fun fuel => parse lay sg w t0 fuel) (Ret (Some m, t)) /\
  runs_to (fun fuel => parse lay' sg' w t0 fuel) (Ret (Some m', t')) /\
  (forall x, reads t' m' x <-> x = tr) /\ dtree g (NonTerm (start_nt g)) w tr /\
  reads t m tr' /\ ~ reads t' m' tr' /\ ~ dtree g (NonTerm (start_nt g)) w tr'.
Proof.
  exists ex_lo_g, ex_lo2_g, (ex_wrap ex_lo_g), (ex_wrap ex_lo2_g), ex_slay, ex_slay, (map ex_tok [0; 1; 2; 3]), in_new.
  let r := eval vm_compute in (parse ex_slay (ex_wrap ex_lo_g) (map ex_tok [0; 1; 2; 3]) in_new 20) in
  match r with Ret (Some ?m, ?t) => exists m, t end.
  let r := eval vm_compute in (parse ex_slay (ex_wrap ex_lo2_g) (map ex_tok [0; 1; 2; 3]) in_new 20) in
  match r with Ret (Some ?m, ?t) => exists m, t end.
  exists (PBranch 10 [PBranch 11 [PLeaf 0 0]; PBranch 15 [PLeaf 1 0; PLeaf 2 0; PLeaf 3 0]]),
    (PBranch 10 [PBranch 12 [PLeaf 0 0; PLeaf 1 0]; PBranch 15 [PLeaf 1 0; PLeaf 2 0; PLeaf 3 0]]).
  match goal with |- _ /\ _ /\ _ /\ _ /\ _ /\ _ /\ _ /\ _ /\ _ /\ _ /\ _ /\ ?X /\ _ => assert (Only : X) end.
  { intro x. split.
    - intro R.
      assert (Lf : forall t n a k (tr : ptree nat nat nat), reads t n tr -> get_node t n = Ret [a] -> get_alt t a = Ret (CLeaf k 0) -> tr = PLeaf k 0).
      { clear. intros t n a k tr R N A. destruct R as [n s a' k' v Gn Ia Ga|n s a' y ns cs Gn Ia Ga Rs];
          rewrite N in Gn; injection Gn as <-; destruct Ia as [<-|[]]; rewrite A in Ga; congruence. }
      assert (Br : forall t n a y ns (tr : ptree nat nat nat), reads t n tr -> get_node t n = Ret [a] -> get_alt t a = Ret (CBranch y ns) ->
        exists cs, tr = PBranch y cs /\ reads_all t ns cs).
      { clear. intros t n a y ns tr R N A. destruct R as [n s a' k' v Gn Ia Ga|n s a' y' ns' cs Gn Ia Ga Rs];
          rewrite N in Gn; injection Gn as <-; destruct Ia as [<-|[]]; rewrite A in Ga; [discriminate|]. injection Ga as <- <-. eauto. }
      assert (Cs : forall t n ns (trs : list (ptree nat nat nat)), reads_all t (n :: ns) trs -> exists tr trs', trs = tr :: trs' /\ reads t n tr /\ reads_all t ns trs')
        by (clear; intros t n ns trs R; inversion R; subst; eauto).
      assert (Nl : forall t (trs : list (ptree nat nat nat)), reads_all t [] trs -> trs = []) by (clear; intros t trs R; inversion R; reflexivity).
      apply (Br _ _ 10 10 [2; 23]) in R; [|reflexivity|reflexivity]. destruct R as (cs & -> & R).
      apply Cs in R. destruct R as (x1 & cs1 & -> & R1 & R). apply Cs in R. destruct R as (x2 & cs2 & -> & R2 & R). apply Nl in R. subst cs2.
      apply (Br _ _ 1 11 [0]) in R1; [|reflexivity|reflexivity]. destruct R1 as (cs & -> & R).
      apply Cs in R. destruct R as (y1 & cs1 & -> & R1 & R). apply Nl in R. subst cs1. apply (Lf _ _ 0 0) in R1; [|reflexivity|reflexivity]. subst y1.
      apply (Br _ _ 9 15 [7; 13; 22]) in R2; [|reflexivity|reflexivity]. destruct R2 as (cs & -> & R).
      apply Cs in R. destruct R as (y1 & cs1 & -> & R1 & R). apply Cs in R. destruct R as (y2 & cs2 & -> & R2 & R).
      apply Cs in R. destruct R as (y3 & cs3 & -> & R3 & R). apply Nl in R. subst cs3.
      apply (Lf _ _ 2 1) in R1; [|reflexivity|reflexivity]. apply (Lf _ _ 4 2) in R2; [|reflexivity|reflexivity].
      apply (Lf _ _ 8 3) in R3; [|reflexivity|reflexivity]. subst y1 y2 y3. reflexivity.
    - intros ->.
      apply (reads_branch _ 24 [10] 10 10 [2; 23]); [reflexivity|left; reflexivity|reflexivity|].
      constructor; [|constructor; [|constructor]].
      + apply (reads_branch _ 2 [1] 1 11 [0]); [reflexivity|left; reflexivity|reflexivity|].
        constructor; [|constructor]. apply (reads_leaf _ 0 [0] 0); [reflexivity|left; reflexivity|reflexivity].
      + apply (reads_branch _ 23 [9] 9 15 [7; 13; 22]); [reflexivity|left; reflexivity|reflexivity|].
        constructor; [|constructor; [|constructor; [|constructor]]].
        * apply (reads_leaf _ 7 [2] 2); [reflexivity|left; reflexivity|reflexivity].
        * apply (reads_leaf _ 13 [4] 4); [reflexivity|left; reflexivity|reflexivity].
        * apply (reads_leaf _ 22 [8] 8); [reflexivity|left; reflexivity|reflexivity]. }
  refine (conj built_lo (conj wrap_lo (conj built_lo2 (conj wrap_lo2 (conj eq_refl (conj _ (conj _ (conj _ (conj api_tree_new (conj _ (conj _ (conj Only (conj _ (conj _ (conj _ _))))))))))))))).
  - intros A p. unfold prod_of. split; intros (r & I & J); cbn in I; destruct I as [I|[I|[I|[]]]]; injection I as <- <-; cbn in J;
      (eexists; split; [first [left; reflexivity|right; left; reflexivity|right; right; left; reflexivity]|cbn; tauto]).
  - apply ex_slay_mem. vm_compute. reflexivity.
  - apply ex_slay_mem. vm_compute. reflexivity.
  - apply (parse_vm _ _ _ _ 20); [vm_compute; reflexivity|discriminate].
  - apply (parse_vm _ _ _ _ 20); [vm_compute; reflexivity|discriminate].
  - assert (P1 : prod_of ex_lo_g 1 (Build_ProdInner 11 0 [Build_ProdElement None (Term 0)]))
      by (eexists; split; [right; left; reflexivity|left; reflexivity]).
    assert (P2 : prod_of ex_lo_g 2 (Build_ProdInner 15 0 [Build_ProdElement None (Term 1); Build_ProdElement None (Term 2); Build_ProdElement None (Term 3)]))
      by (eexists; split; [right; right; left; reflexivity|right; right; left; reflexivity]).
    assert (P0 : prod_of ex_lo_g 0 (Build_ProdInner 10 0 [Build_ProdElement None (NonTerm 1); Build_ProdElement None (NonTerm 2)]))
      by (eexists; split; [left; reflexivity|left; reflexivity]).
    apply (dtree_branch ex_lo_g 0 _ (map ex_tok [0; 1; 2; 3]) _ P0). simpl.
    apply (dtrees_cons _ _ _ [ex_tok 0] (map ex_tok [1; 2; 3])).
    + apply (dtree_branch _ 1 _ [ex_tok 0] _ P1). apply (dtrees_cons _ _ _ [ex_tok 0] []); constructor.
    + apply (dtrees_cons _ _ _ (map ex_tok [1; 2; 3]) []); [|constructor].
      apply (dtree_branch _ 2 _ (map ex_tok [1; 2; 3]) _ P2).
      apply (dtrees_cons _ _ _ [ex_tok 1] [ex_tok 2; ex_tok 3]); [constructor|].
      apply (dtrees_cons _ _ _ [ex_tok 2] [ex_tok 3]); [constructor|].
      apply (dtrees_cons _ _ _ [ex_tok 3] []); constructor.
  - apply (reads_branch _ 24 [10] 10 10 [2; 23]); [reflexivity|left; reflexivity|reflexivity|].
    constructor; [|constructor; [|constructor]].
    + apply (reads_branch _ 2 [1; 3] 3 12 [1; 5]); [reflexivity|right; left; reflexivity|reflexivity|].
      constructor; [|constructor; [|constructor]].
      * apply (reads_leaf _ 1 [0] 0); [reflexivity|left; reflexivity|reflexivity].
      * apply (reads_leaf _ 5 [2] 2); [reflexivity|left; reflexivity|reflexivity].
    + apply (reads_branch _ 23 [9] 9 15 [7; 13; 22]); [reflexivity|left; reflexivity|reflexivity|].
      constructor; [|constructor; [|constructor; [|constructor]]].
      * apply (reads_leaf _ 7 [2] 2); [reflexivity|left; reflexivity|reflexivity].
      * apply (reads_leaf _ 13 [4] 4); [reflexivity|left; reflexivity|reflexivity].
      * apply (reads_leaf _ 22 [8] 8); [reflexivity|left; reflexivity|reflexivity].
  - intro R. apply Only in R. discriminate R.
  - intro D. apply (proj1 (dtree_yield ex_lo_g)) in D. discriminate D.
Qed.

Print Assumptions C81_forest_pieces.
Print Assumptions C81_leaves_are_tokens.
Print Assumptions C82_forest_layout.
Print Assumptions C82_unique_cuts.
Print Assumptions C100_production_order_refuted.
Print Assumptions C100_verdict_partial.
Print Assumptions C100_unique_cuts_partial.

(** The hypotheses of C82 are met, by a word whose forest has a tree that is no derivation: in the second layout the
    rules lie in the opposite order, and the two trees of nodes are numbered differently. *)
Definition ex_slay_rev : layout (StartNonTerminal nat) := fun A i => ex_lay (match A with Start => 3 | NTerm 0 => 2 | NTerm 1 => 1 | NTerm 2 => 0 | NTerm n => S n end) i.
Example C82_example : built ex_lo_g /\ runs_to (wrap_grammar_with_start ex_lo_g) (Ret (Ok (ex_wrap ex_lo_g))) /\
  in_memory (ex_wrap ex_lo_g) ex_slay /\ in_memory (ex_wrap ex_lo_g) ex_slay_rev /\
  exists m t m' t', runs_to (fun fuel => parse ex_slay (ex_wrap ex_lo_g) (map ex_tok [0; 1; 2; 3]) in_new fuel) (Ret (Some m, t)) /\
    runs_to (fun fuel => parse ex_slay_rev (ex_wrap ex_lo_g) (map ex_tok [0; 1; 2; 3]) in_new fuel) (Ret (Some m', t')) /\ t <> t'.
Proof.
  split; [exact built_lo|]. split; [exact wrap_lo|]. split; [apply ex_slay_mem; vm_compute; reflexivity|]. split.
  - apply ex_mem_gen; [|vm_compute; reflexivity]. intros [|[|[|[|a]]]] [|[|[|[|b]]]]; congruence.
  - eexists _, _, _, _. split; [apply (parse_vm _ _ _ _ 20); [vm_compute; reflexivity|discriminate]|].
    split; [apply (parse_vm _ _ _ _ 20); [vm_compute; reflexivity|discriminate]|]. discriminate.
Qed.
(** Those of the partial theorems of C100: the grammar of brackets, 0 -> x | ( 0 0 ), and 0 -> ( 0 0 ) | x. *)
Definition ex_br2 : list (gb_call nat nat nat nat) :=
  [AddRule 0 [AddProd 11 0 [AddTerm 1; AddNonterm 0; AddNonterm 0; AddTerm 2]; AddProd 10 0 [AddTerm 0]]].
Example C100_example : exists g', runs_to (build 0 ex_br2) (Ret (Ok g')) /\ built ex_br_g /\ start_nt ex_br_g = start_nt g' /\ ex_br_g <> g' /\
  (forall A p, prod_of ex_br_g A p <-> prod_of g' A p) /\ unique_cuts (rhs_of ex_br_g) 0 [1; 0; 0; 2] /\
  runs_to (wrap_grammar_with_start g') (Ret (Ok (ex_wrap g'))) /\
  exists m t m' t', runs_to (fun fuel => parse ex_slay (ex_wrap ex_br_g) (map ex_tok [1; 0; 0; 2]) in_new fuel) (Ret (Some m, t)) /\
    runs_to (fun fuel => parse ex_slay (ex_wrap g') (map ex_tok [1; 0; 0; 2]) in_new fuel) (Ret (Some m', t')).
Proof.
  eexists. split; [apply (build_vm _ _ 10); [vm_compute; reflexivity|discriminate]|]. split; [exact built_br|]. split; [reflexivity|]. split; [discriminate|]. split.
  - intros A p. unfold prod_of. split; intros (r & I & J); cbn in I; destruct I as [I|[]]; injection I as <- <-; cbn in J;
      (eexists; split; [left; reflexivity|cbn; tauto]).
  - split; [apply pf_unique_cuts; exact br_prefix_free|]. split; [apply wrap_vm; vm_compute; reflexivity|].
    eexists _, _, _, _. split; (apply (parse_vm _ _ _ _ 20); [vm_compute; reflexivity|discriminate]).
Qed.

(** The hypotheses of C81 are met by an ambiguous word whose forest has trees that are no derivations of it. *)
Example ex_pieces : built ex_bbc_g /\ runs_to (wrap_grammar_with_start ex_bbc_g) (Ret (Ok (ex_wrap ex_bbc_g))) /\ lay_inj (ex_wrap ex_bbc_g) ex_slay /\
  exists m t, runs_to (fun fuel => parse ex_slay (ex_wrap ex_bbc_g) (map ex_tok [7; 7; 8]) in_new fuel) (Ret (Some m, t)).
Proof.
  refine (conj built_bbc (conj wrap_bbc (conj _ _))); [apply ex_slay_inj; vm_compute; reflexivity|..].
  eexists _, _. apply (parse_vm _ _ _ _ 20); [vm_compute; reflexivity|discriminate].
Qed.
(** [pieced] is not everything: the tree that takes the longer [1] and the longer [2] is put together from
    pieces, one whose leaves are in the wrong places is not. *)
Example ex_not_pieced : ~ pieced ex_lo_g (map ex_tok [0; 1; 2; 3]) (NonTerm 0) 0 4
  (PBranch 10 [PBranch 11 [PLeaf 0 0]; PBranch 14 [PLeaf 2 0]]).
Proof.
  assert (Inv : forall A i k ak cs, pieced ex_lo_g (map ex_tok [0; 1; 2; 3]) (NonTerm A) i k (PBranch ak cs) ->
    exists p, prod_of ex_lo_g A p /\ pi_action_key p = ak /\
      forall c e tr, nth_error (map pe_elem (pi_elements p)) c = Some e -> nth_error cs c = Some tr ->
        exists a b, (S c = length (pi_elements p) -> b = k) /\ pieced ex_lo_g (map ex_tok [0; 1; 2; 3]) e a b tr).
  { intros A i k ak cs D. inversion D as [|A' p i' k' cs' Pp L1 L2 G Len Hc]; subst. exists p. split; [exact Pp|]. split; [reflexivity|].
    intros c e tr N1 N2. destruct (Hc c e tr N1 N2) as (a & b & _ & _ & Eb & D'). eauto. }
  assert (Pr : forall A p, prod_of ex_lo_g A p -> A = 0 /\ pi_action_key p = 10 /\ map pe_elem (pi_elements p) = [NonTerm 1; NonTerm 2] \/
    A <> 0 /\ (pi_action_key p = 14 -> map pe_elem (pi_elements p) = [Term 2])).
  { intros A p (r & I & Ip). simpl in I. destruct I as [[= <- <-]|[[= <- <-]|[[= <- <-]|[]]]]; simpl in Ip.
    - destruct Ip as [<-|[]]. left. auto.
    - right. split; [discriminate|]. destruct Ip as [<-|[<-|[]]]; discriminate.
    - right. split; [discriminate|]. destruct Ip as [<-|[<-|[<-|[]]]]; try discriminate. reflexivity. }
  intro D. apply Inv in D. destruct D as (p & Pp & _ & Hc). destruct (Pr _ _ Pp) as [(_ & _ & Es)|(N & _)]; [|destruct (N eq_refl)].
  assert (Lp : length (pi_elements p) = 2) by (rewrite <- (map_length pe_elem), Es; reflexivity).
  rewrite Es in Hc. destruct (Hc 1 _ _ eq_refl eq_refl) as (a & b & Eb & D). rewrite (Eb (eq_sym Lp)) in D.
  apply Inv in D. destruct D as (q & Pq & Ak & Hq). destruct (Pr _ _ Pq) as [(E & _)|(_ & Es')]; [discriminate|]. specialize (Es' Ak).
  assert (Lq : length (pi_elements q) = 1) by (rewrite <- (map_length pe_elem), Es'; reflexivity).
  rewrite Es' in Hq. destruct (Hq 0 _ _ eq_refl eq_refl) as (a' & b' & Eb' & D). rewrite (Eb' (eq_sym Lq)) in D.
  inversion D as [i k v E|]; subst. simpl in E. discriminate.
Qed.
