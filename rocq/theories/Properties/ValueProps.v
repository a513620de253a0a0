(** C115: the parser never looks at the values of the tokens; it only passes them to the leaves
    (src/parsers/earley.rs:60-88, src/parsers/earley/state.rs:119-139, src/parsers/tree.rs:286-291). *)
From Coq Require Import String List Arith NArith Lia.
From Verif.Model Require Import Ord BTree Outcome Utils Grammar StartGrammar Tokens Tree State Earley.
From Verif.Spec Require Import Reach Cfg BuildSpec NullSpec TreeSpec EarleySpec ValueSpec Examples.
From Verif.Proofs Require Import OrdFacts BTreeFacts LoopFacts GrammarFacts StartFacts BuildMore CfgFacts TreeFacts TreeHist
  EarleyItems EarleyRun EarleyParse EarleyMain EarleyMem EarleyExact TreeLink EarleyMore ValueFacts.
From Verif.Properties Require Import EarleyProps.
Import ListNotations.

Section Props.
  Context {T NT AK AV V V' : Type} `{OrdEq T} `{OrdEq NT} `{OrdEq AK} `{OrdEq V} `{OrdEq V'}.
  Variable g : Grammar T NT AK AV.
  Variable sg : StartGrammar T NT AK AV.
  Variables lay lay' : layout (StartNonTerminal NT).
  Hypothesis Bg : built g.
  Hypothesis Wr : runs_to (wrap_grammar_with_start g) (Ret (Ok sg)).
  Hypothesis Lay : in_memory sg lay.
  Hypothesis Lay' : in_memory sg lay'.

  (** The outcomes of two parses, whose trees may hold different types of values, are of the same kind, and
      returned nodes are related by [rel]. *)
  Definition alike (rel : Inner T AK V -> nat -> Inner T AK V' -> nat -> Prop)
    (r : outcome (option nat * Inner T AK V)) (r' : outcome (option nat * Inner T AK V')) : Prop :=
    match r, r' with
    | Ret (Some m, t), Ret (Some m', t') => rel t m t' m'
    | Ret (None, _), Ret (None, _) => True
    | Panic e, Panic e' => e = e'
    | _, _ => False
    end.

  Lemma alike_kinds (rel : Inner T AK V -> nat -> Inner T AK V' -> nat -> Prop) (w : list (Token T V)) (w' : list (Token T V')) t0 t0' : api_tree t0 -> api_tree t0' -> map tk_kind w = map tk_kind w' ->
    (forall m t m' t', runs_to (fun fuel => parse lay sg w t0 fuel) (Ret (Some m, t)) ->
       runs_to (fun fuel => parse lay' sg w' t0' fuel) (Ret (Some m', t')) -> rel t m t' m') ->
    exists r r', runs_to (fun fuel => parse lay sg w t0 fuel) r /\ runs_to (fun fuel => parse lay' sg w' t0' fuel) r' /\ alike rel r r'.
  Proof.
    intros A A' E Rel. pose proof (in_memory_inj _ _ Lay) as I. pose proof (in_memory_inj _ _ Lay') as I'.
    assert (El : length w = length w') by (rewrite <- (map_length tk_kind w), E, map_length; reflexivity).
    destruct (main g sg lay Bg Wr I w t0 A) as (r & Rr & Pr). destruct (main g sg lay' Bg Wr I' w' t0' A') as (r' & Rr' & Pr').
    exists r, r'. split; [exact Rr|]. split; [exact Rr'|].
    assert (Ps : forall m, runs_to (fun fuel => parse lay sg w t0 fuel) (Panic m) <-> runs_to (fun fuel => parse lay' sg w' t0' fuel) (Panic m)).
    { intro m. rewrite (C99_panic_message g sg lay Bg Wr I w t0 m A), (C99_panic_message g sg lay' Bg Wr I' w' t0' m A'), E, El. tauto. }
    destruct r as [[o t]|m|]; [| |exact Pr].
    - destruct r' as [[o' t']|m'|]; [| |destruct o; exact Pr'].
      + destruct o as [m|], o' as [m'|]; try exact Logic.I; cbn [alike].
        * exact (Rel m t m' t' Rr Rr').
        * destruct Pr as (_ & _ & _ & _ & X), Pr' as (_ & _ & _ & _ & X'). rewrite E in X. apply X', X.
        * destruct Pr as (_ & _ & _ & _ & X), Pr' as (_ & _ & _ & _ & X'). rewrite E in X. apply X, X'.
      + apply Ps in Rr'. pose proof (runs_to_fun _ _ _ Rr' Rr). discriminate.
    - apply Ps in Rr. pose proof (runs_to_fun _ _ _ Rr Rr') as Q. destruct r'; try discriminate. injection Q as <-. reflexivity.
  Qed.
  Lemma wrapped : sg = wrapg g.
  Proof. exact (wrapped_eq g sg (built_accepted g Bg) Wr). Qed.

  (** C115.  Replacing the values of the tokens by any function - not only an injective one, and to any other type
      of values - replaces them in the trees and changes nothing else: same panic, or both rejected, or both
      accepted with the same trees up to this replacement. *)
  Theorem C115_values_pass_through (f : V -> V') (w : list (Token T V)) t0 t0' : api_tree t0 -> api_tree t0' ->
    exists r r', runs_to (fun fuel => parse lay sg w t0 fuel) r /\
      runs_to (fun fuel => parse lay' sg (map (with_value f) w) t0' fuel) r' /\
      alike (fun t m t' m' => forall tr', reads t' m' tr' <-> exists tr, reads t m tr /\ map_values f tr = tr') r r'.
  Proof.
    intros A A'. apply alike_kinds; [exact A|exact A'|apply kinds_f|]. intros m t m' t' R R' tr'.
    pose proof Lay as L. pose proof Lay' as L'. rewrite wrapped in *.
    rewrite (parse_areads g (built_accepted g Bg) _ lay' t0' m' t' (in_memory_inj _ _ L') (in_memory_up _ _ L') (api_tree_inv _ A') R' tr').
    rewrite map_length, areads_values. split; intros (tr & X & Y); exists tr; (split; [|exact Y]);
      apply (parse_areads g (built_accepted g Bg) w lay t0 m t (in_memory_inj _ _ L) (in_memory_up _ _ L) (api_tree_inv _ A) R tr); exact X.
  Qed.

  (** C115.  On inputs with the same kinds the forests are the same forest of positions: there is one set of trees
      with positions at the leaves, of which both forests are obtained by writing the tokens' values for their
      positions. *)
  Theorem C115_forest_of_positions (w : list (Token T V)) (w' : list (Token T V')) t0 t0' : api_tree t0 -> api_tree t0' ->
    map tk_kind w = map tk_kind w' ->
    exists (F : ptree T AK nat -> Prop) r r', runs_to (fun fuel => parse lay sg w t0 fuel) r /\
      runs_to (fun fuel => parse lay' sg w' t0' fuel) r' /\
      alike (fun t m t' m' => (forall tr, reads t m tr <-> exists x, F x /\ fills w x tr) /\
                              (forall tr', reads t' m' tr' <-> exists x, F x /\ fills w' x tr')) r r'.
  Proof.
    intros A A' E. exists (areads g (numbered 0 (map tk_kind w)) (length w) (p0 g) 0 0). apply alike_kinds; [exact A|exact A'|exact E|].
    intros m t m' t' R R'. pose proof Lay as L. pose proof Lay' as L'. rewrite wrapped in *. split; intro tr.
    - rewrite (parse_areads g (built_accepted g Bg) _ lay t0 m t (in_memory_inj _ _ L) (in_memory_up _ _ L) (api_tree_inv _ A) R tr).
      apply areads_positions.
    - rewrite (parse_areads g (built_accepted g Bg) _ lay' t0' m' t' (in_memory_inj _ _ L') (in_memory_up _ _ L') (api_tree_inv _ A') R' tr).
      rewrite E. assert (El : length w = length w') by (rewrite <- (map_length tk_kind w), E, map_length; reflexivity). rewrite El.
      apply areads_positions.
  Qed.
End Props.

Print Assumptions C115_values_pass_through.
Print Assumptions C115_forest_of_positions.

(** The hypotheses can be met: the word "7 7 8" of an ambiguously cut grammar, whose forest mixes pieces (C46).
    With the values 0, 1, 2 a tree with leaves 0 1 1 2 can be read off it; with all values equal it becomes the tree
    with leaves 5 5 5 5. *)
Example ex_values : let w := [Build_Token 7 0; Build_Token 7 1; Build_Token 8 2] in
  built ex_bbc_g /\ runs_to (wrap_grammar_with_start ex_bbc_g) (Ret (Ok (ex_wrap ex_bbc_g))) /\ in_memory (ex_wrap ex_bbc_g) ex_slay /\
  api_tree (@in_new nat nat nat) /\
  exists m t, runs_to (fun fuel => parse ex_slay (ex_wrap ex_bbc_g) w in_new fuel) (Ret (Some m, t)) /\
    let tr := PBranch 10 [PBranch 12 [PLeaf 7 0; PLeaf 7 1]; PBranch 13 [PLeaf 7 1; PLeaf 8 2]] in
    reads t m tr /\ map_values (fun _ => 5) tr = PBranch 10 [PBranch 12 [PLeaf 7 5; PLeaf 7 5]; PBranch 13 [PLeaf 7 5; PLeaf 8 5]] /\
    fills w (PBranch 10 [PBranch 12 [PLeaf 7 0; PLeaf 7 1]; PBranch 13 [PLeaf 7 1; PLeaf 8 2]]) tr.
Proof.
  intro w. refine (conj built_bbc (conj wrap_bbc (conj _ (conj api_tree_new _)))); [apply ex_slay_mem; vm_compute; reflexivity|].
  let r := eval vm_compute in (parse ex_slay (ex_wrap ex_bbc_g) w in_new 20) in
  match r with Ret (Some ?m, ?t) => exists m, t end.
  split; [apply (parse_vm _ _ _ _ 20); [vm_compute; reflexivity|discriminate]|]. cbv zeta. split; [|split; reflexivity].
  apply (reads_branch _ 14 [7] 7 10 [2; 12]); [reflexivity|left; reflexivity|reflexivity|].
  constructor; [|constructor; [|constructor]].
  - apply (reads_branch _ 2 [1; 3] 3 12 [1; 5]); [reflexivity|right; left; reflexivity|reflexivity|].
    constructor; [|constructor; [|constructor]]; [eapply (reads_leaf _ _ [0] 0)|eapply (reads_leaf _ _ [2] 2)]; reflexivity || (left; reflexivity).
  - apply (reads_branch _ 12 [5; 6] 5 13 [6; 10]); [reflexivity|left; reflexivity|reflexivity|].
    constructor; [|constructor; [|constructor]]; [eapply (reads_leaf _ _ [2] 2)|eapply (reads_leaf _ _ [4] 4)]; reflexivity || (left; reflexivity).
Qed.
