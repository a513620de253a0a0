(** C133: a program that tests a grammar with the library's own passes and loops, and what its yes is worth
    (src/grammar/passes/nullable.rs, firsts.rs, src/utils.rs:151-180, 234-252, src/grammar/base.rs:410-449). *)
From Coq Require Import String List Arith NArith Lia Bool.
From Verif.Model Require Import Ord BTree Outcome Utils Grammar StartGrammar Tokens Tree State Nullable Firsts Earley.
From Verif.Spec Require Import Reach Cfg BuildSpec NullSpec TreeSpec EarleySpec LL1Spec GrammarTestSpec WalkSpec BlameSpec RepairSpec Examples.
From Verif.Proofs Require Import OrdFacts BTreeFacts LoopFacts GrammarFacts StartFacts BuildMore CfgFacts TreeHist EarleyMore ExampleFacts
  LL1Facts Overlaps NullableFacts NullableMore FirstsFacts FirstsMore GrammarTestFacts.
From Verif.Properties Require Import NullableProps FirstsProps EarleyProps LL1Props BlameProps RepairProps.
Import ListNotations.
Local Open Scope list_scope.

Section Test.
  Context {T NT AK AV : Type} `{OrdEq T} `{OrdEq NT}.
  Variable lay : layout NT.
  Variable g : Grammar T NT AK AV.
  Hypothesis Li : lay_inj g lay.
  Hypothesis Bg : built g.

  (** C133.  The nonterminals that derive words are found, for every grammar. *)
  Theorem C133_usable : exists s, runs_to (usable g) (Ret s) /\ forall A, In A s <-> exists u, lang (rhs_of g) A u.
  Proof. exact (usable_spec g Bg). Qed.
  (** C133.  Whether everything reachable derives a word is found out, for every grammar. *)
  Theorem C133_productive : exists b, runs_to (all_useful g) (Ret b) /\ (b = true <-> productive (rhs_of g) (start_nt g)).
  Proof. exact (all_useful_spec g Bg). Qed.
  (** C133.  The test ends with the right answer, for every grammar. *)
  Theorem C133_test : exists b, runs_to (test_grammar g lay) (Ret b) /\ (b = true <-> ll1 g /\ productive (rhs_of g) (start_nt g)).
  Proof.
    destruct (C07_nullable_decides lay g Li Bg) as (r & Rn & Ni). destruct (C14_firsts lay g Li Bg) as (f & Rf & Fi).
    destruct C133_productive as (u & Ru & Pu).
    assert (No : null_ambiguous g -> ~ ll1 g).
    { intros (A & i & j & p & q & Np & _ & _ & Dp & _) [N _]. apply (N A). apply (lang_intro _ _ (body p)); [|exact Dp].
      exists p. split; [|reflexivity]. destruct Np as (r0 & I & J). exists r0. split; [exact I|exact (nth_error_In _ _ J)]. }
    destruct r as [info|e]; [destruct f as [m|e]|].
    - pose proof (C108_test_by_passes lay g info m Li Bg Rn Rf) as E.
      exists (match get_nullable_set info with [] => true | _ => false end && forallb (fun r => pairs_differ m (r_prods r)) (rules g) && u).
      split.
      + apply (runs_to_bind _ (fun fuel r => match r with Err _ => Ret false | Ok info =>
            f <- calculate_firsts lay g fuel ;;
            match f with Err _ => Ret false | Ok m => u <- all_useful g fuel ;;
              Ret (match get_nullable_set info with [] => true | _ => false end && forallb (fun r => pairs_differ m (r_prods r)) (rules g) && u) end end) _ _ Rn).
        apply (runs_to_bind _ (fun fuel f => match f with Err _ => Ret false | Ok m => u <- all_useful g fuel ;;
              Ret (match get_nullable_set info with [] => true | _ => false end && forallb (fun r => pairs_differ m (r_prods r)) (rules g) && u) end) _ _ Rf).
        exact (runs_to_bind _ (fun _ u => Ret (match get_nullable_set info with [] => true | _ => false end && forallb (fun r => pairs_differ m (r_prods r)) (rules g) && u)) _ _ Ru (runs_to_ret _)).
      + rewrite E, !andb_true_iff, (starts_differ_iff g Bg), Pu. destruct (get_nullable_set info); [tauto|]. split; [intros [[X _] _]; discriminate|intros [[X _] _]; discriminate].
    - exists false. split; [|split; [discriminate|intros [L _]; destruct (No (proj2 Fi) L)]].
      apply (runs_to_bind _ (fun fuel r => match r with Err _ => Ret false | Ok info =>
            f <- calculate_firsts lay g fuel ;;
            match f with Err _ => Ret false | Ok m => u <- all_useful g fuel ;;
              Ret (match get_nullable_set info with [] => true | _ => false end && forallb (fun r => pairs_differ m (r_prods r)) (rules g) && u) end end) _ _ Rn).
      exact (runs_to_bind _ (fun fuel f => match f with Err _ => Ret false | Ok m => u <- all_useful g fuel ;;
              Ret (match get_nullable_set info with [] => true | _ => false end && forallb (fun r => pairs_differ m (r_prods r)) (rules g) && u) end) _ _ Rf (runs_to_ret _)).
    - exists false. split; [|split; [discriminate|intros [L _]; exfalso; apply No; [|exact L]]].
      + exact (runs_to_bind _ (fun fuel r => match r with Err _ => Ret false | Ok info =>
            f <- calculate_firsts lay g fuel ;;
            match f with Err _ => Ret false | Ok m => u <- all_useful g fuel ;;
              Ret (match get_nullable_set info with [] => true | _ => false end && forallb (fun r => pairs_differ m (r_prods r)) (rules g) && u) end end) _ _ Rn (runs_to_ret _)).
      + destruct (C08_nullable_verdict lay g Li Bg) as (X & _). destruct e. apply X. exact Rn.
  Qed.
End Test.

(** C133.  A yes is worth all this, for every input. *)
Section Yes.
  Context {T NT AK AV V : Type} `{OrdEq T} `{OrdEq NT} `{OrdEq AK} `{OrdEq V}.
  Variable lay0 : layout NT.
  Variable g : Grammar T NT AK AV.
  Variable sg : StartGrammar T NT AK AV.
  Variable lay : layout (StartNonTerminal NT).
  Hypothesis Li : lay_inj g lay0.
  Hypothesis Bg : built g.
  Hypothesis Wr : runs_to (wrap_grammar_with_start g) (Ret (Ok sg)).
  Hypothesis Lay : lay_inj sg lay.
  Hypothesis Yes : runs_to (test_grammar g lay0) (Ret true).
  Local Notation P := (rhs_of g).
  Local Notation S0 := (start_nt g).

  Theorem C133_conditions : productive P S0 /\ ~ lang P S0 [] /\ no_overlap P S0 /\ one_cut P S0.
  Proof.
    destruct (C133_test lay0 g Li Bg) as (b & Rb & E). pose proof (runs_to_fun _ _ _ Yes Rb) as X. injection X as <-.
    destruct (proj1 E eq_refl) as [L Pd]. pose proof (ll1_prefix_free g Bg L) as Pf.
    split; [exact Pd|]. split; [apply (pf_no_empty P Pf)|]. split; [apply pf_no_overlap; exact Pf|apply pf_one_cut; exact Pf].
  Qed.
  (** Words have one tree, which is read from the result; proper beginnings give [None]; the rest is a syntax error. *)
  Theorem C133_parse (w : list (Token T V)) t0 : api_tree t0 ->
    (lang P S0 (map tk_kind w) ->
      exists tr m t, dtree g (NonTerm S0) w tr /\ runs_to (fun fuel => parse lay sg w t0 fuel) (Ret (Some m, t)) /\
        forall tr', reads t m tr' <-> tr' = tr) /\
    (forall v, lang P S0 (map tk_kind w ++ v) -> v <> [] ->
      exists t, runs_to (fun fuel => parse lay sg w t0 fuel) (Ret (None, t))) /\
    ((forall v, ~ lang P S0 (map tk_kind w ++ v)) ->
      runs_to (fun fuel => parse lay sg w t0 fuel) (Panic "assertion failed: !new_state.is_empty()")).
  Proof.
    intro A. destruct (C133_test lay0 g Li Bg) as (b & Rb & E). pose proof (runs_to_fun _ _ _ Yes Rb) as X. injection X as <-.
    destruct (proj1 E eq_refl) as [L Pd]. exact (C108_ll1_parse g sg lay Bg Wr Lay w t0 L Pd A).
  Qed.
  (** The first wrong token, the tokens that can follow, and the nearest word (C129, C132) are found. *)
  Theorem C133_blame (w : list (Token T V)) : let kw := map tk_kind w in
    exists r, runs_to (fun fuel => blame lay sg fuel [] w) (Ret r) /\
      (r = Fine <-> begins_word g kw) /\
      (forall i, r = Bad i <-> i < length w /\ begins_word g (firstn i kw) /\ ~ begins_word g (firstn (S i) kw)) /\
      forall i, r <> Unsure i.
  Proof. destruct C133_conditions as (Pd & N & O & _). exact (C129_blame_sure g sg lay Bg Wr Lay Pd N O w). Qed.
  Theorem C133_expected (value : T -> V) (w : list (Token T V)) : exists ks, runs_to (fun fuel => expected lay sg g value fuel w) (Ret ks) /\
    forall k, In k ks <-> begins_word g (map tk_kind w ++ [k]).
  Proof. destruct C133_conditions as (Pd & N & O & _). exact (C129_expected g sg lay Bg Wr Lay Pd N O value w). Qed.
  Theorem C133_nearest (value : T -> V) (w : list (Token T V)) : exists u n, runs_to (fun fuel => correct lay sg g value fuel fuel [w]) (Ret u) /\
    lang P S0 (map tk_kind u) /\ near n w u /\ forall m v, near m (map tk_kind w) v -> lang P S0 v -> n <= m.
  Proof. destruct C133_conditions as (Pd & N & O & _). exact (C132_nearest g sg lay Bg Wr Lay Pd value w N O). Qed.
End Yes.

(** The grammar in Polish notation passes the test; the left-recursive sums do not, although they are productive, nor does
    the optional part of C114; in 0 -> 7 | 1, 1 -> 8 1 the rule for 1 derives nothing. *)
Definition ex_useless : list (gb_call nat nat nat nat) :=
  [AddRule 0 [AddProd 10 0 [AddTerm 7]; AddProd 11 0 [AddNonterm 1]]; AddRule 1 [AddProd 12 0 [AddTerm 8; AddNonterm 1]]].
Definition ex_useless_g : Grammar nat nat nat nat := match build 0 ex_useless 20 with Ret (Ok g) => g | _ => Build_Grammar 0 [] end.
Lemma built_useless : built ex_useless_g.
Proof. exists 0, ex_useless. apply (build_vm _ _ 20); [vm_compute; reflexivity | discriminate]. Qed.
Example C133_examples :
  (lay_inj ex_pol_g ex_lay /\ test_grammar ex_pol_g ex_lay 20 = Ret true /\ usable ex_pol_g 20 = Ret [0; 1]) /\
  (all_useful ex_expr_g 20 = Ret true /\ test_grammar ex_expr_g ex_lay 20 = Ret false) /\
  (built ex_useless_g /\ usable ex_useless_g 20 = Ret [0] /\ all_useful ex_useless_g 20 = Ret false /\ test_grammar ex_useless_g ex_lay 20 = Ret false).
Proof.
  split; [split; [apply ex_lay_inj; vm_compute; reflexivity|split; vm_compute; reflexivity]|]. split; [split; vm_compute; reflexivity|].
  split; [exact built_useless|]. repeat split; vm_compute; reflexivity.
Qed.

Print Assumptions C133_usable.
Print Assumptions C133_productive.
Print Assumptions C133_test.
Print Assumptions C133_conditions.
Print Assumptions C133_parse.
Print Assumptions C133_blame.
Print Assumptions C133_expected.
Print Assumptions C133_nearest.
