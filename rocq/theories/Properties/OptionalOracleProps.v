(** C131: the oracle programs of C129 on the transformed grammar answer about the original one, with its optional parts
    (src/grammar/transform/nonnull.rs, src/start_grammar.rs, src/parsers/earley.rs:34-88 used together). *)
From Coq Require Import String List Arith NArith Lia.
From Verif.Model Require Import Ord BTree Outcome Utils Grammar StartGrammar Nullable NonNull Tokens Tree State Earley.
From Verif.Spec Require Import Reach Cfg BuildSpec NullSpec NonNullSpec TreeSpec EarleySpec LL1Spec TrimSpec WalkSpec BlameSpec Examples.
From Verif.Proofs Require Import OrdFacts BTreeFacts LoopFacts GrammarFacts StartFacts BuildMore CfgFacts NullableFacts NullableMore
  NonNullFacts NonNullMore TreeFacts TreeHist EarleyItems EarleyMore TrimFacts ExampleFacts Overlaps BlameFacts.
From Verif.Properties Require Import EarleyProps LL1Props PipelineProps OptionalProps BlameProps.
Import ListNotations.

Section Props.
  Context {T NT AK AV V : Type} `{OrdEq T} `{OrdEq NT} `{OrdEq AK} `{OrdEq V}.
  Variable lay0 : layout NT.
  Variable g : Grammar T NT AK AV.
  Variable g' : NonNullGrammar T NT AK AV.
  Variable sg : StartGrammar T NT (NNActionKey AK) (NNActionValue NT AK AV).
  Variable lay : layout (StartNonTerminal NT).
  Hypothesis Inj : lay_inj g lay0.
  Hypothesis B : built g.
  Hypothesis R : runs_to (transform_to_nonnull lay0 g) (Ret (Ok g')).
  Hypothesis Wr : runs_to (wrap_grammar_with_start g') (Ret (Ok sg)).
  Hypothesis Lay : lay_inj sg lay.
  (** Productions that derive the empty word derive nothing else. *)
  Hypothesis Pure : null_prods_pure g.
  (** Everything reachable in the result derives a word, and no beginning of a body overlaps a longer one. *)
  Hypothesis Pd : productive (rhs_of g') (start_nt g').
  Hypothesis O : no_overlap (rhs_of g') (start_nt g').
  Local Notation L := (lang (rhs_of g) (start_nt g)).

  (** Some nonempty word of the original grammar begins with [u]. *)
  Definition begins (u : list T) : Prop := exists v, u ++ v <> [] /\ L (u ++ v).

  Lemma begins' u : begins_word g' u <-> begins u.
  Proof. unfold begins_word, begins. split; intros (v & X); exists v; apply (lang' lay0 g g' Inj B R Pure) in X || apply (lang' lay0 g g' Inj B R Pure); exact X. Qed.
  Let B' : built g' := proj1 (transform_nonempty lay0 g Inj B g' R).
  Let N' : ~ lang (rhs_of g') (start_nt g') [] := no_empty' lay0 g g' Inj B R Pure.

  (** C131.  One attempt. *)
  Theorem C131_attempt (w : list (Token T V)) : exists v, runs_to (fun fuel => attempt lay sg fuel w) (Ret v) /\
    (v = Accepted <-> w <> [] /\ L (map tk_kind w)) /\
    (v = Unfinished <-> (w = [] \/ ~ L (map tk_kind w)) /\ begins (map tk_kind w)) /\
    (v = Refused <-> ~ begins (map tk_kind w)) /\ v <> Confused.
  Proof.
    destruct (C129_attempt g' sg lay B' Wr Lay Pd N' O w) as (v & Rv & A & U & Rf & C). exists v. split; [exact Rv|].
    pose proof (begins' (map tk_kind w)) as E. rewrite E in *.
    pose proof (lang' lay0 g g' Inj B R Pure (map tk_kind w)) as E1. rewrite E1 in *.
    assert (Em : map tk_kind w <> [] <-> w <> []) by (destruct w; cbn; split; congruence). rewrite Em in *.
    split; [exact A|]. split; [|split; [exact Rf|exact C]]. rewrite U. split; intros [X Y]; (split; [|exact Y]).
    - destruct w as [|x w]; [left; reflexivity|right; intro Z; apply X; split; [discriminate|exact Z]].
    - intros [Z1 Z2]. destruct X as [->|X]; [exact (Z1 eq_refl)|exact (X Z2)].
  Qed.

  (** C131.  The first wrong token. *)
  Theorem C131_blame (w : list (Token T V)) : let kw := map tk_kind w in
    exists r, runs_to (fun fuel => blame lay sg fuel [] w) (Ret r) /\
      (r = Fine <-> begins kw) /\
      (forall i, r = Bad i <-> i < length w /\ begins (firstn i kw) /\ ~ begins (firstn (S i) kw)) /\
      forall i, r <> Unsure i.
  Proof.
    cbv zeta. destruct (C129_blame_sure g' sg lay B' Wr Lay Pd N' O w) as (r & Rr & F & Bd & U). exists r. split; [exact Rr|].
    split; [rewrite F; apply begins'|]. split; [|exact U]. intro i. rewrite Bd, !begins'. reflexivity.
  Qed.

  Variable value : T -> V.
  (** C131.  The tokens that can come next. *)
  Theorem C131_expected (w : list (Token T V)) : exists ks, runs_to (fun fuel => expected lay sg g' value fuel w) (Ret ks) /\
    forall k, In k ks <-> exists v, L (map tk_kind w ++ k :: v).
  Proof.
    destruct (C129_expected g' sg lay B' Wr Lay Pd N' O value w) as (ks & Rk & Pk). exists ks. split; [exact Rk|].
    intro k. rewrite Pk, begins'. unfold begins. split.
    - intros (v & _ & X). exists v. rewrite <- app_assoc in X. exact X.
    - intros (v & X). exists v. rewrite <- app_assoc. split; [destruct (map tk_kind w); discriminate|exact X].
  Qed.

  (** C131.  Completing the input, to a nonempty word. *)
  Theorem C131_complete (w : list (Token T V)) :
    exists o, runs_to (fun fuel => complete lay sg g' value fuel fuel w [[]]) (Ret o) /\
      match o with
      | Some u => (w <> [] \/ u <> []) /\ L (map tk_kind w ++ u) /\
          forall u', w <> [] \/ u' <> [] -> L (map tk_kind w ++ u') -> length u <= length u'
      | None => ~ begins (map tk_kind w)
      end.
  Proof.
    assert (Em : forall u, map tk_kind w ++ u <> [] <-> w <> [] \/ u <> []).
    { intro u. destruct w as [|x w]; cbn; split; intro X; [right; exact X|destruct X as [X|X]; [destruct (X eq_refl)|exact X]|left; discriminate|discriminate]. }
    destruct (C129_complete g' sg lay B' Wr Lay Pd N' O value w) as (o & Ro & Po). exists o. split; [exact Ro|]. destruct o as [u|].
    - destruct Po as [X M]. apply (lang' lay0 g g' Inj B R Pure) in X. rewrite Em in X. split; [tauto|]. split; [tauto|].
      intros u' Ne Lu. apply M. apply (lang' lay0 g g' Inj B R Pure). rewrite Em. split; [exact Ne|exact Lu].
    - rewrite <- begins'. exact Po.
  Qed.
  Theorem C131_completions (n : nat) (w : list (Token T V)) :
    exists us, runs_to (fun fuel => completions lay sg g' value n fuel w [[]]) (Ret us) /\
      forall u, In u us <-> length u <= n /\ (w <> [] \/ u <> []) /\ L (map tk_kind w ++ u).
  Proof.
    assert (Em : forall u, map tk_kind w ++ u <> [] <-> w <> [] \/ u <> []).
    { intro u. destruct w as [|x w]; cbn; split; intro X; [right; exact X|destruct X as [X|X]; [destruct (X eq_refl)|exact X]|left; discriminate|discriminate]. }
    destruct (C129_completions g' sg lay B' Wr Lay Pd N' O value n w) as (us & Ru & Pu). exists us. split; [exact Ru|].
    intro u. rewrite Pu, (lang' lay0 g g' Inj B R Pure), Em. tauto.
  Qed.
End Props.

(** "7 9" with an optional "8" between (C114's example, ex_opt_hyps): after 7, the optional 8 or 9. *)
Example C131_opt :
  attempt ex_slay ex_opt_sg 30 (map ex_tok [7; 9]) = Ret Accepted /\
  attempt ex_slay ex_opt_sg 30 (map ex_tok [7; 8]) = Ret Unfinished /\
  blame ex_slay ex_opt_sg 30 [] (map ex_tok [7; 8; 8; 9]) = Ret (Bad 2) /\
  expected ex_slay ex_opt_sg ex_opt_nn (fun _ => 0) 30 (map ex_tok [7]) = Ret [9; 9; 8] /\
  complete ex_slay ex_opt_sg ex_opt_nn (fun _ => 0) 30 30 (map ex_tok [7; 8]) [[]] = Ret (Some [9]) /\
  exists us, completions ex_slay ex_opt_sg ex_opt_nn (fun _ => 0) 3 30 (map ex_tok []) [[]] = Ret us /\
    forall u, In u us <-> u = [7; 9] \/ u = [7; 8; 9].
Proof.
  repeat match goal with |- _ /\ _ => split end; try (vm_compute; reflexivity). eexists. split; [vm_compute; reflexivity|].
  intro u. cbn. intuition.
Qed.

Print Assumptions C131_attempt.
Print Assumptions C131_blame.
Print Assumptions C131_expected.
Print Assumptions C131_complete.
Print Assumptions C131_completions.
