(** C129: the parser as an oracle (src/parsers/earley.rs:34-88): the first wrong token, the tokens that can follow, and
    the ways to complete the input. *)
From Coq Require Import String List Arith NArith Lia Bool.
From Verif.Model Require Import Ord BTree Outcome Utils Grammar StartGrammar Tokens Tree State Earley.
From Verif.Spec Require Import Reach Cfg BuildSpec NullSpec TreeSpec EarleySpec LL1Spec WalkSpec BlameSpec Examples.
From Verif.Proofs Require Import OrdFacts BTreeFacts LoopFacts GrammarFacts StartFacts BuildMore CfgFacts TreeFacts TreeHist
  EarleyItems EarleyRun EarleyParse EarleyMain TreeLink EarleyMore ExampleFacts LL1Facts Overlaps BlameFacts.
From Verif.Properties Require Import EarleyProps LL1Props.
Import ListNotations.

Section Props.
  Context {T NT AK AV V : Type} `{OrdEq T} `{OrdEq NT} `{OrdEq AK} `{OrdEq V}.
  Variable g : Grammar T NT AK AV.
  Variable sg : StartGrammar T NT AK AV.
  Variable lay : layout (StartNonTerminal NT).
  Hypothesis Bg : built g.
  Hypothesis Wr : runs_to (wrap_grammar_with_start g) (Ret (Ok sg)).
  Hypothesis Lay : lay_inj sg lay.
  Local Notation P := (rhs_of g).
  Local Notation S0 := (start_nt g).
  Hypothesis Pd : productive P S0.
  (** Some word begins with [u]. *)
  Definition begins_word (u : list T) : Prop := exists v, lang P S0 (u ++ v).
  (** A production that began at one position is at two places at once, or nothing is left to read. *)
  Definition confusing (u : list T) (j : nat) : Prop := two_places P S0 u j \/ (j = 0 /\ lang P S0 []).

  (** C129.  The first wrong token, for every grammar. *)
  Theorem C129_blame (w : list (Token T V)) : let kw := map tk_kind w in
    exists r, runs_to (fun fuel => blame lay sg fuel [] w) (Ret r) /\
      match r with
      | Fine => begins_word kw /\ (w <> [] -> forall j, j <= length w -> ~ confusing kw j)
      | Bad i => i < length w /\ begins_word (firstn i kw) /\ ~ begins_word (firstn (S i) kw) /\ forall j, j <= i -> ~ confusing kw j
      | Unsure i => i < length w /\ exists j, j <= S i /\ (i = 0 \/ j = S i) /\ confusing kw j /\
          begins_word (firstn j kw) /\ forall k, k < j -> ~ confusing kw k
      end.
  Proof.
    cbv zeta. apply (blame_spec g sg lay Bg Wr Lay Pd w []); [|intro X; congruence]. exact (goes_nil g Pd).
  Qed.

  (** C129.  What is said to come next can come next, for every grammar. *)
  Theorem C129_expected_sound (value : T -> V) (w : list (Token T V)) :
    exists ks, runs_to (fun fuel => expected lay sg g value fuel w) (Ret ks) /\
      forall k, In k ks -> begins_word (map tk_kind w ++ [k]).
  Proof. exact (expected_sound g sg lay Bg Wr Lay Pd value w). Qed.

  (** C129.  Without confusion. *)
  Section Clear.
    Hypothesis N : ~ lang P S0 [].
    Hypothesis O : no_overlap P S0.

    Theorem C129_attempt (w : list (Token T V)) : exists v, runs_to (fun fuel => attempt lay sg fuel w) (Ret v) /\
      (v = Accepted <-> lang P S0 (map tk_kind w)) /\
      (v = Unfinished <-> ~ lang P S0 (map tk_kind w) /\ begins_word (map tk_kind w)) /\
      (v = Refused <-> ~ begins_word (map tk_kind w)) /\ v <> Confused.
    Proof.
      destruct (attempt_clear g sg lay Bg Wr Lay Pd N O w) as (v & Rv & Pv). exists v. split; [exact Rv|]. cbv zeta in Pv.
      assert (LB : lang P S0 (map tk_kind w) -> begins_word (map tk_kind w)) by (intro L; exists []; rewrite app_nil_r; exact L).
      destruct v; unfold begins_word in *; intuition (try discriminate; try tauto).
    Qed.
    Theorem C129_blame_sure (w : list (Token T V)) : let kw := map tk_kind w in
      exists r, runs_to (fun fuel => blame lay sg fuel [] w) (Ret r) /\
        (r = Fine <-> begins_word kw) /\
        (forall i, r = Bad i <-> i < length w /\ begins_word (firstn i kw) /\ ~ begins_word (firstn (S i) kw)) /\
        forall i, r <> Unsure i.
    Proof.
      cbv zeta. destruct (C129_blame w) as (r & Rr & Pr). exists r. split; [exact Rr|].
      assert (Sh : forall i j, i <= j -> begins_word (firstn j (map tk_kind w)) -> begins_word (firstn i (map tk_kind w))).
      { intros i j L B. apply (goes_shorter g _ (skipn i (firstn j (map tk_kind w)))).
        replace (firstn i (map tk_kind w)) with (firstn i (firstn j (map tk_kind w))) by (rewrite firstn_firstn; f_equal; lia).
        rewrite firstn_skipn. exact B. }
      assert (Al : firstn (length w) (map tk_kind w) = map tk_kind w) by (rewrite <- (map_length tk_kind w); apply firstn_all).
      destruct r as [|i|i].
      - destruct Pr as [B _]. split; [tauto|]. split; [|discriminate]. intro i. split; [discriminate|]. intros (Li & _ & Nb).
        destruct Nb. apply (Sh (S i) (length w)); [lia|]. rewrite Al. exact B.
      - destruct Pr as (Li & B & Nb & _). split; [|split; [|discriminate]].
        + split; [discriminate|]. intro X. destruct Nb. apply (Sh (S i) (length w)); [lia|]. rewrite Al. exact X.
        + intro j. split; [intros [= <-]; auto|]. intros (Lj & Bj & Nj). f_equal. destruct (Nat.lt_total i j) as [X|[X|X]]; [|exact X|].
          * destruct Nb. apply (Sh (S i) j); [lia|exact Bj].
          * destruct Nj. apply (Sh (S j) i); [lia|exact B].
      - destruct Pr as (_ & j & _ & _ & Tr & _). destruct (no_trouble g N O _ _ Tr).
    Qed.

    (** [value] makes up a value for every kind. *)
    Variable value : T -> V.
    Theorem C129_expected (w : list (Token T V)) : exists ks, runs_to (fun fuel => expected lay sg g value fuel w) (Ret ks) /\
      forall k, In k ks <-> begins_word (map tk_kind w ++ [k]).
    Proof. exact (expected_spec g sg lay Bg Wr Lay Pd N O value w). Qed.
    Theorem C129_complete (w : list (Token T V)) :
      exists o, runs_to (fun fuel => complete lay sg g value fuel fuel w [[]]) (Ret o) /\
        match o with
        | Some u => lang P S0 (map tk_kind w ++ u) /\ forall u', lang P S0 (map tk_kind w ++ u') -> length u <= length u'
        | None => ~ begins_word (map tk_kind w)
        end.
    Proof. exact (complete_total g sg lay Bg Wr Lay Pd N O value w). Qed.
    Theorem C129_completions (n : nat) (w : list (Token T V)) :
      exists us, runs_to (fun fuel => completions lay sg g value n fuel w [[]]) (Ret us) /\
        forall u, In u us <-> length u <= n /\ lang P S0 (map tk_kind w ++ u).
    Proof.
      destruct (completions_spec g sg lay Bg Wr Lay Pd N O value w n 0 [[]] (level_nil g w)) as (us & Ru & Pu).
      exists us. split; [exact Ru|]. intro u. rewrite Pu. split; intros [L X]; (split; [lia|exact X]).
    Qed.
  End Clear.
End Props.

(** The grammar in Polish notation of C108 meets the conditions. *)
Example C129_polish_hyps : built ex_pol_g /\ runs_to (wrap_grammar_with_start ex_pol_g) (Ret (Ok (ex_wrap ex_pol_g))) /\
  in_memory (ex_wrap ex_pol_g) ex_slay /\ productive (rhs_of ex_pol_g) 0 /\ ~ lang (rhs_of ex_pol_g) 0 [] /\ no_overlap (rhs_of ex_pol_g) 0.
Proof.
  assert (Wr : runs_to (wrap_grammar_with_start ex_pol_g) (Ret (Ok (ex_wrap ex_pol_g)))) by (apply wrap_vm; vm_compute; reflexivity).
  pose proof (ll1_prefix_free ex_pol_g built_pol ex_pol_ll1) as Pf.
  split; [exact built_pol|]. split; [exact Wr|]. split; [apply ex_slay_mem; vm_compute; reflexivity|]. split; [exact pol_productive|]. split.
  - intro L. destruct (Pf 0 [] [] L) as [X _]. congruence.
  - apply pf_no_overlap. exact Pf.
Qed.
(** seq plus num seq: the second seq is the first wrong token; after seq plus num: num, plus and neg can follow, and the
    shortest completion is num num; after seq num: the completions with at most two tokens. *)
Example C129_polish :
  blame ex_slay (ex_wrap ex_pol_g) 30 [] (map ex_tok [1; 6; 5; 1; 5]) = Ret (Bad 3) /\
  blame ex_slay (ex_wrap ex_pol_g) 30 [] (map ex_tok [1; 6; 5]) = Ret Fine /\
  (exists ks, expected ex_slay (ex_wrap ex_pol_g) ex_pol_g (fun _ => 0) 30 (map ex_tok [1; 6; 5]) = Ret ks /\
     forall k, In k ks <-> k = 5 \/ k = 6 \/ k = 7) /\
  complete ex_slay (ex_wrap ex_pol_g) ex_pol_g (fun _ => 0) 30 30 (map ex_tok [1; 6; 5]) [[]] = Ret (Some [5; 5]) /\
  complete ex_slay (ex_wrap ex_pol_g) ex_pol_g (fun _ => 0) 30 30 (map ex_tok [5; 5]) [[]] = Ret None /\
  completions ex_slay (ex_wrap ex_pol_g) ex_pol_g (fun _ => 0) 2 30 (map ex_tok [1; 5]) [[]] = Ret [[5]; [0; 5]; [7; 5]].
Proof.
  repeat match goal with |- _ /\ _ => split end; try (vm_compute; reflexivity).
  eexists. split; [vm_compute; reflexivity|]. intro k. cbn. intuition.
Qed.
(** The left-recursive sums lack only the last condition. *)
Lemma expr_hyps : productive (rhs_of ex_expr_g) 0 /\ ~ lang (rhs_of ex_expr_g) 0 [].
Proof.
  assert (Inv : forall A rhs, rhs_of ex_expr_g A rhs -> rhs <> [] /\ forall B, In (NonTerm B) rhs -> B = 0 \/ B = 1).
  { intros A rhs Pr. apply prod_list_rhs in Pr. destruct Pr as (k & Pr). vm_compute in Pr.
    repeat match type of Pr with _ \/ _ => destruct Pr as [Pr|Pr] | False => destruct Pr end; injection Pr as <- _ <-;
      (split; [discriminate|intros B I; in_cases; auto]). }
  assert (P1 : rhs_of ex_expr_g 1 [Term 0]) by (apply prod_list_rhs; exists 12; vm_compute; auto 10).
  assert (P2 : rhs_of ex_expr_g 0 [NonTerm 1]) by (apply prod_list_rhs; exists 11; vm_compute; auto 10).
  assert (G1 : gen (rhs_of ex_expr_g) [NonTerm 1] [0]) by (apply (gen_nonterm _ _ _ _ [0] [] P1); repeat constructor).
  split.
  - intros A R. assert (C : A = 0 \/ A = 1).
    { revert A R. apply (reach_in _ _ (fun A => A = 0 \/ A = 1)); [auto|]. intros A B rhs Pr I. exact (proj2 (Inv A rhs Pr) B I). }
    destruct C as [-> | ->]; exists [0]; [|exact G1]. exact (gen_nonterm _ 0 _ _ [0] [] P2 G1 (gen_nil _)).
  - assert (Ln : forall es u, gen (rhs_of ex_expr_g) es u -> length es <= length u).
    { induction 1 as [|t es w G IH|A rhs es u w Pr G1' IH1 G2 IH2]; cbn [length]; [lia..|]. rewrite app_length.
      destruct rhs; [destruct (proj1 (Inv _ _ Pr)); reflexivity|]. cbn [length] in IH1. lia. }
    intro L. pose proof (Ln _ _ L) as X. cbn in X. lia.
Qed.
(** C129.  Without the condition the answers can be too few: after id + id can follow, but the parser is confused. *)
Theorem C129_expected_all_refuted : exists (g : Grammar nat nat nat nat) sg lay (w : list (Token nat nat)) k,
  built g /\ runs_to (wrap_grammar_with_start g) (Ret (Ok sg)) /\ in_memory sg lay /\
  productive (rhs_of g) (start_nt g) /\ ~ lang (rhs_of g) (start_nt g) [] /\ lang (rhs_of g) (start_nt g) (map tk_kind w ++ [k]) /\
  (exists ks, runs_to (fun fuel => expected lay sg g (fun _ => 0) fuel w) (Ret ks) /\ ~ In k ks) /\
  runs_to (fun fuel => blame lay sg fuel [] (w ++ [Build_Token k 0])) (Ret (Unsure 2)).
Proof.
  exists ex_expr_g, (ex_wrap ex_expr_g), ex_slay, (map ex_tok [0; 1]), 0.
  assert (Wr : runs_to (wrap_grammar_with_start ex_expr_g) (Ret (Ok (ex_wrap ex_expr_g)))) by exact wrap_expr.
  split; [exact built_expr|]. split; [exact Wr|]. split; [apply ex_slay_mem; vm_compute; reflexivity|].
  split; [exact (proj1 expr_hyps)|]. split; [exact (proj2 expr_hyps)|]. split; [|split].
  - assert (P1 : rhs_of ex_expr_g 1 [Term 0]) by (eexists; split; [eexists; split; [right; left; reflexivity|left; reflexivity]|reflexivity]).
    assert (P2 : rhs_of ex_expr_g 0 [NonTerm 1]) by (eexists; split; [eexists; split; [left; reflexivity|right; left; reflexivity]|reflexivity]).
    assert (P3 : rhs_of ex_expr_g 0 [NonTerm 0; Term 1; NonTerm 1]) by (eexists; split; [eexists; split; [left; reflexivity|left; reflexivity]|reflexivity]).
    assert (G1 : gen (rhs_of ex_expr_g) [NonTerm 1] [0]) by (apply (gen_nonterm _ _ _ _ [0] [] P1); repeat constructor).
    apply (gen_nonterm _ 0 _ [] [0; 1; 0] [] P3); [|constructor]. apply (gen_nonterm _ 0 _ _ [0] [1; 0] P2 G1). constructor. exact G1.
  - exists [2]. split; [apply (runs_to_mono _ 20); [apply expected_mono|vm_compute; reflexivity|discriminate]|]. intros [X|[]]. discriminate.
  - apply (runs_to_mono _ 20); [apply blame_mono|vm_compute; reflexivity|discriminate].
Qed.

Print Assumptions C129_blame.
Print Assumptions C129_expected_sound.
Print Assumptions C129_attempt.
Print Assumptions C129_blame_sure.
Print Assumptions C129_expected.
Print Assumptions C129_complete.
Print Assumptions C129_completions.
Print Assumptions C129_expected_all_refuted.
