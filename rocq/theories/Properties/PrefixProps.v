(** C113: the parser reads its input from left to right and looks only at the kinds of the tokens
    (src/parsers/earley.rs:60-88, src/parsers/earley/state.rs:119-139). *)
From Coq Require Import String List Arith NArith Lia.
From Verif.Model Require Import Ord BTree Outcome Utils Grammar StartGrammar Tokens Tree State Earley.
From Verif.Spec Require Import Reach Cfg BuildSpec NullSpec TreeSpec EarleySpec Examples.
From Verif.Proofs Require Import OrdFacts BTreeFacts LoopFacts GrammarFacts StartFacts BuildMore CfgFacts TreeFacts TreeHist
  EarleyItems EarleyRun EarleyParse EarleyMain TreeLink EarleyMore PrefixFacts.
From Verif.Properties Require Import EarleyProps.
Import ListNotations.

Section Props.
  Context {T NT AK AV V : Type} `{OrdEq T} `{OrdEq NT} `{OrdEq AK} `{OrdEq V}.
  Variable g : Grammar T NT AK AV.
  Variable sg : StartGrammar T NT AK AV.
  Variables lay lay' : layout (StartNonTerminal NT).
  Hypothesis Bg : built g.
  Hypothesis Wr : runs_to (wrap_grammar_with_start g) (Ret (Ok sg)).
  Hypothesis Lay : lay_inj sg lay.
  Hypothesis Lay' : lay_inj sg lay'.
  Local Notation P := (rhs_of g).
  Local Notation S0 := (start_nt g).

  (** C113.  A panic stays: if the parser panics on [u], it panics with the same text on every longer input that
      begins with [u], whatever follows. *)
  Theorem C113_panic_persists (u v : list (Token T V)) t0 t0' msg : api_tree t0 -> api_tree t0' ->
    runs_to (fun fuel => parse lay sg u t0 fuel) (Panic msg) ->
    runs_to (fun fuel => parse lay' sg (u ++ v) t0' fuel) (Panic msg).
  Proof.
    intros A A' R. apply (C99_panic_message g sg lay Bg Wr Lay u t0 msg A) in R. apply (C99_panic_message g sg lay' Bg Wr Lay' (u ++ v) t0' msg A').
    destruct R as (j & L & Mn & C). exists j. rewrite !map_app. pose proof (map_length tk_kind u) as Lu.
    split; [rewrite app_length; lia|]. split.
    - intros i Li. rewrite firstn_prefix by lia. rewrite two_places_prefix by lia. exact (Mn i Li).
    - rewrite firstn_prefix by lia. rewrite two_places_prefix by lia. exact C.
  Qed.

  (** C113.  If the parser panics on an input, then it already panics on a beginning of it, of which it can parse
      every shorter beginning; this beginning is the same for all inputs that begin with it. *)
  Theorem C113_first_offender (w : list (Token T V)) t0 msg : api_tree t0 ->
    runs_to (fun fuel => parse lay sg w t0 fuel) (Panic msg) ->
    exists u v, w = u ++ v /\ (forall v', runs_to (fun fuel => parse lay sg (u ++ v') t0 fuel) (Panic msg)) /\
      forall u1 u2, u = u1 ++ u2 -> u2 <> [] -> exists o t, runs_to (fun fuel => parse lay sg u1 t0 fuel) (Ret (o, t)).
  Proof.
    intros A R. apply (C99_panic_message g sg lay Bg Wr Lay w t0 msg A) in R. destruct R as (j & L & Mn & C).
    exists (firstn j w), (skipn j w). split; [symmetry; apply firstn_skipn|].
    assert (Lf : length (firstn j w) = j) by (apply firstn_length_le; exact L).
    assert (Lk : length (map tk_kind (firstn j w)) = j) by (rewrite map_length; exact Lf).
    assert (Ek : map tk_kind w = map tk_kind (firstn j w) ++ map tk_kind (skipn j w)) by (rewrite <- map_app, firstn_skipn; reflexivity).
    rewrite Ek in C, Mn. rewrite firstn_prefix in C by lia. rewrite two_places_prefix in C by lia. split.
    - intro v'. apply (C99_panic_message g sg lay Bg Wr Lay _ t0 msg A). exists j. rewrite app_length, !map_app. split; [lia|]. split.
      + intros i Li. specialize (Mn i Li). rewrite firstn_prefix in Mn |- * by lia. rewrite two_places_prefix in Mn |- * by lia. exact Mn.
      + rewrite firstn_prefix by lia. rewrite two_places_prefix by lia. exact C.
    - intros u1 u2 E Ne. destruct (main g sg lay Bg Wr Lay u1 t0 A) as (r & Rr & Pr).
      destruct r as [[o t]|m|]; [eauto| |destruct Pr]. exfalso. destruct Pr as (i & Li & St & _).
      assert (Lij : i < j). { rewrite <- Lf, E, app_length. destruct u2; [congruence|]. cbn [length]. lia. }
      specialize (Mn i Lij). rewrite firstn_prefix in Mn by lia. rewrite two_places_prefix in Mn by lia.
      rewrite E, map_app in Mn. assert (i <= length (map tk_kind u1)) by (rewrite map_length; exact Li).
      rewrite firstn_prefix in Mn by lia. rewrite two_places_prefix in Mn by lia. unfold stuck in St. tauto.
  Qed.

  (** C113.  If an input can be parsed at all, so can every beginning of it; and, into the same tree, every node
      made for the beginning is there, with all its alternatives and all its readings, when the rest has been
      read. *)
  Theorem C113_beginnings_return (u v : list (Token T V)) t0 o' t' : api_tree t0 ->
    runs_to (fun fuel => parse lay sg (u ++ v) t0 fuel) (Ret (o', t')) ->
    exists o t, runs_to (fun fuel => parse lay sg u t0 fuel) (Ret (o, t)) /\
      (forall n s, get_node t n = Ret s -> exists s', get_node t' n = Ret s' /\ incl s s') /\
      (forall a c, get_alt t a = Ret c -> get_alt t' a = Ret c) /\
      (forall n tr, reads t n tr -> reads t' n tr).
  Proof.
    intros A R. destruct (main g sg lay Bg Wr Lay u t0 A) as (r & Rr & Pr). destruct r as [[o t]|m|]; [| |destruct Pr].
    - exists o, t. pose proof (parse_grows lay sg u v t0 o t o' t' Rr R) as G. split; [exact Rr|].
      split; [exact (proj1 G)|]. split; [exact (proj2 G)|]. exact (grows_reads _ _ G).
    - exfalso. apply (C99_panic_message g sg lay Bg Wr Lay u t0 m A) in Rr.
      assert (X : runs_to (fun fuel => parse lay sg (u ++ v) t0 fuel) (Panic m)).
      { apply (C99_panic_message g sg lay Bg Wr Lay (u ++ v) t0 m A). destruct Rr as (j & L & Mn & C). exists j. rewrite !map_app.
        pose proof (map_length tk_kind u) as Lu. split; [rewrite app_length; lia|]. split.
        - intros i Li. rewrite firstn_prefix by lia. rewrite two_places_prefix by lia. exact (Mn i Li).
        - rewrite firstn_prefix by lia. rewrite two_places_prefix by lia. exact C. }
      pose proof (runs_to_fun _ _ _ X R). discriminate.
  Qed.

  (** C113.  Only the kinds of the tokens decide: on two inputs with the same kinds the parser panics with the same
      text, or rejects both, or accepts both - whatever the values, the trees and the addresses. *)
  Theorem C113_kinds_decide (w w' : list (Token T V)) t0 t0' : api_tree t0 -> api_tree t0' -> map tk_kind w = map tk_kind w' ->
    exists r r', runs_to (fun fuel => parse lay sg w t0 fuel) r /\ runs_to (fun fuel => parse lay' sg w' t0' fuel) r' /\
      match r, r' with
      | Ret (Some _, _), Ret (Some _, _) | Ret (None, _), Ret (None, _) => True
      | Panic m, Panic m' => m = m'
      | _, _ => False
      end.
  Proof.
    intros A A' E. assert (El : length w = length w') by (rewrite <- (map_length tk_kind w), E, map_length; reflexivity).
    destruct (main g sg lay Bg Wr Lay w t0 A) as (r & Rr & Pr). destruct (main g sg lay' Bg Wr Lay' w' t0' A') as (r' & Rr' & Pr').
    exists r, r'. split; [exact Rr|]. split; [exact Rr'|].
    assert (Ps : forall m, runs_to (fun fuel => parse lay sg w t0 fuel) (Panic m) <-> runs_to (fun fuel => parse lay' sg w' t0' fuel) (Panic m)).
    { intro m. rewrite (C99_panic_message g sg lay Bg Wr Lay w t0 m A), (C99_panic_message g sg lay' Bg Wr Lay' w' t0' m A'), E, El. tauto. }
    destruct r as [[o t]|m|]; [| |exact Pr].
    - destruct r' as [[o' t']|m'|]; [| |destruct o; exact Pr'].
      + destruct o, o'; try exact I; destruct Pr as (_ & _ & _ & _ & X), Pr' as (_ & _ & _ & _ & X'); rewrite E in X; [apply X', X|apply X, X'].
      + apply Ps in Rr'. pose proof (runs_to_fun _ _ _ Rr' Rr). discriminate.
    - apply Ps in Rr. pose proof (runs_to_fun _ _ _ Rr Rr') as Q. destruct r'; congruence.
  Qed.
End Props.

(** The hypotheses can be met, and the cases all occur: a word is "0", or two words between "1" and "2"; "1 0" is the
    beginning of a word but no word, "1 0 0 2" is a word, "1 0 2" is an error and stays one. *)
Example ex_prefix : built ex_br_g /\ runs_to (wrap_grammar_with_start ex_br_g) (Ret (Ok (ex_wrap ex_br_g))) /\ lay_inj (ex_wrap ex_br_g) ex_slay /\
  api_tree (@in_new nat nat nat) /\
  (exists t, runs_to (fun fuel => parse ex_slay (ex_wrap ex_br_g) (map ex_tok [1; 0]) in_new fuel) (Ret (None, t))) /\
  (exists n t, runs_to (fun fuel => parse ex_slay (ex_wrap ex_br_g) (map ex_tok [1; 0] ++ map ex_tok [0; 2]) in_new fuel) (Ret (Some n, t))) /\
  (exists n t, runs_to (fun fuel => parse ex_slay (ex_wrap ex_br_g) [Build_Token 1 7; Build_Token 0 8; Build_Token 0 9; Build_Token 2 7] in_new fuel) (Ret (Some n, t))) /\
  forall v, runs_to (fun fuel => parse ex_slay (ex_wrap ex_br_g) (map ex_tok [1; 0; 2] ++ v) in_new fuel)
    (Panic "assertion failed: !new_state.is_empty()").
Proof.
  assert (L : lay_inj (ex_wrap ex_br_g) ex_slay) by (apply ex_slay_inj; vm_compute; reflexivity).
  refine (conj built_br (conj wrap_br (conj L (conj api_tree_new _)))). split; [|split; [|split]].
  - eexists. apply (parse_vm _ _ _ _ 20); [vm_compute; reflexivity|discriminate].
  - eexists. eexists. apply (parse_vm _ _ _ _ 20); [vm_compute; reflexivity|discriminate].
  - eexists. eexists. apply (parse_vm _ _ _ _ 20); [vm_compute; reflexivity|discriminate].
  - intro v. apply (C113_panic_persists ex_br_g _ _ _ built_br wrap_br L L _ v in_new in_new _ api_tree_new api_tree_new).
    apply (parse_vm _ _ _ _ 20); [vm_compute; reflexivity|discriminate].
Qed.

Print Assumptions C113_panic_persists.
Print Assumptions C113_first_offender.
Print Assumptions C113_beginnings_return.
Print Assumptions C113_kinds_decide.
