(** C135: cleaning a grammar (src/grammar/base/builder.rs, src/grammar/base.rs, src/utils.rs:151-180, 234-252). *)
From Coq Require Import String List Arith NArith Lia Bool.
From Verif.Model Require Import Ord BTree Outcome Utils Grammar StartGrammar Nullable Firsts Tokens Tree State Earley.
From Verif.Spec Require Import Reach Cfg BuildSpec NullSpec TreeSpec EarleySpec LL1Spec TrimSpec GrammarTestSpec CleanSpec Examples.
From Verif.Proofs Require Import OrdFacts BTreeFacts LoopFacts GrammarFacts StartFacts BuildMore CfgFacts ExampleFacts NullableFacts
  TreeFacts TreeHist EarleyMore LL1Facts Overlaps GrammarTestFacts CleanFacts.
From Verif.Properties Require Import EarleyProps LL1Props PipelineProps OptionalProps GrammarTestProps.
Import ListNotations.
Local Open Scope list_scope.

Section Clean.
  Context {T NT AK AV : Type} `{OrdEq T} `{OrdEq NT}.
  Variable g : Grammar T NT AK AV.
  Hypothesis Bg : built g.
  Local Notation P := (rhs_of g).
  Local Notation S0 := (start_nt g).

  (** C135.  The program ends for every accepted grammar: with [None] exactly if there is no word at all, and otherwise
      with a grammar that [build] accepts. *)
  Theorem C135_ends :
    (runs_to (clean g) (Ret None) <-> forall u, ~ lang P S0 u) /\
    ((exists u, lang P S0 u) <-> exists g', runs_to (clean g) (Ret (Some (Ok g')))).
  Proof.
    destruct (clean_runs g Bg) as (s & _ & _ & [[N R]|(k & g' & (u & L) & _ & _ & R)]).
    - split; split.
      + intros _ u L. destruct N. exists u. exact L.
      + intros _. exact R.
      + intro X. destruct (N X).
      + intros (g' & R'). pose proof (runs_to_fun _ _ _ R R') as X. discriminate.
    - split; split.
      + intro R'. pose proof (runs_to_fun _ _ _ R R') as X. discriminate.
      + intro X. destruct (X u L).
      + intros _. exists g'. exact R.
      + intros _. exists u. exact L.
  Qed.

  Variable g' : Grammar T NT AK AV.
  Hypothesis R : runs_to (clean g) (Ret (Some (Ok g'))).
  Lemma clean_inv : exists s k, (forall A, In A s <-> exists u, lang P A u) /\ (exists u, lang P S0 u) /\ (forall B, In B k <-> keep g B) /\
    runs_to (build S0 (kept_calls g s k)) (Ret (Ok g')).
  Proof.
    destruct (clean_runs g Bg) as (s & _ & Us & [[N R']|(k & g2 & Ne & Uk & Rb & R')]);
      pose proof (runs_to_fun _ _ _ R R') as X; [discriminate|]. injection X as <-. exists s, k. auto.
  Qed.

  (** C135.  The productions of the result are exactly those used in some derivation of a word, and those of a rule
      stay in their order. *)
  Theorem C135_content : built g' /\ start_nt g' = S0 /\
    (forall A p, prod_of g' A p <-> used g A p) /\
    (forall A r', In (A, r') (rule_set g') -> exists r f, In (A, r) (rule_set g) /\ r_prods r' = map p_inner (filter f (rule_prods r))).
  Proof.
    destruct clean_inv as (s & k & Us & Ne & Uk & Rb). split; [exact (clean_built g s k g' Rb)|]. split; [exact (clean_start g s k g' Rb)|].
    split; [exact (clean_prod g Bg s Us k Uk g' Rb)|]. intros A r' I. apply (clean_rule g Bg s k Uk g' Rb) in I as (r & I & _ & ->).
    exists r. eexists. split; [exact I|]. reflexivity.
  Qed.
  (** C135.  Everything in the result is of use: every rule is reached from the start symbol and derives a word. *)
  Theorem C135_useful : productive (rhs_of g') S0 /\
    forall A r, In (A, r) (rule_set g') -> (exists u, lang (rhs_of g') A u) /\
      star (fun X Y => exists rhs, rhs_of g' X rhs /\ In (NonTerm Y) rhs) S0 A.
  Proof.
    destruct clean_inv as (s & k & Us & Ne & Uk & Rb).
    assert (Pd : productive (rhs_of g') S0).
    { intros A St. apply (clean_keep g Bg s Us k Uk g' Rb) in St. destruct (keep_words g Ne A St) as (u & L). exists u.
      apply (clean_lang g Bg s Us k Uk g' Rb); assumption. }
    split; [exact Pd|]. intros A r I. apply (clean_rule g Bg s k Uk g' Rb) in I as (_ & _ & Ka & _).
    apply (clean_keep g Bg s Us k Uk g' Rb) in Ka. split; [exact (Pd A Ka)|exact Ka].
  Qed.
  (** C135.  Nothing is lost: the words and the derivation trees are those of the grammar as the user wrote it. *)
  Theorem C135_words u : lang (rhs_of g') S0 u <-> lang P S0 u.
  Proof. destruct clean_inv as (s & k & Us & Ne & Uk & Rb). apply (clean_lang g Bg s Us k Uk g' Rb). constructor. Qed.
  Theorem C135_trees {V} (w : list (Token T V)) tr : dtree g' (NonTerm S0) w tr <-> dtree g (NonTerm S0) w tr.
  Proof.
    destruct clean_inv as (s & k & Us & Ne & Uk & Rb). split.
    - apply (clean_dtree_sub g Bg s Us k Uk g' Rb).
    - intro D. apply (clean_dtree g Bg s Us k Uk g' Rb); [exact D|]. intros A [= <-]. constructor.
  Qed.
  (** C135.  On the result the test of C133 is about nothing but one token deciding between productions. *)
  Theorem C135_test lay0 : lay_inj g' lay0 -> exists b, runs_to (test_grammar g' lay0) (Ret b) /\ (b = true <-> ll1 g').
  Proof.
    intro Li. destruct C135_content as (B' & E & _). destruct C135_useful as (Pd & _). rewrite <- E in Pd.
    destruct (C133_test lay0 g' Li B') as (b & Rb & X). exists b. split; [exact Rb|]. rewrite X. tauto.
  Qed.
  (** C135.  Cleaning what is clean changes nothing. *)
  Theorem C135_again : exists g2, runs_to (clean g') (Ret (Some (Ok g2))) /\ start_nt g2 = start_nt g' /\
    forall A p, prod_of g2 A p <-> prod_of g' A p.
  Proof.
    destruct clean_inv as (s & k & Us & (u & L) & Uk & Rb). pose proof (clean_built g s k g' Rb) as B'. pose proof (clean_start g s k g' Rb) as E.
    destruct (clean_runs g' B') as (s2 & _ & Us2 & [[N _]|(k2 & g2 & _ & Uk2 & Rb2 & R2)]).
    - destruct N. exists u. rewrite E. apply C135_words. exact L.
    - exists g2. split; [exact R2|]. split; [exact (clean_start g' s2 k2 g2 Rb2)|]. intros A p.
      rewrite (clean_prod g' B' s2 Us2 k2 Uk2 g2 Rb2). split; [intros [X _]; exact X|]. exact (clean_again g Bg s Us k Uk g' Rb A p).
  Qed.
End Clean.

Section Parse.
  Context {T NT AK AV V : Type} `{OrdEq T} `{OrdEq NT} `{OrdEq AK} `{OrdEq V}.
  Variable g g' : Grammar T NT AK AV.
  Variable sg : StartGrammar T NT AK AV.
  Variable lay : layout (StartNonTerminal NT).
  Hypothesis Bg : built g.
  Hypothesis R : runs_to (clean g) (Ret (Some (Ok g'))).
  Hypothesis Wr : runs_to (wrap_grammar_with_start g') (Ret (Ok sg)).
  Hypothesis Lay : lay_inj sg lay.
  Local Notation P := (rhs_of g).
  Local Notation S0 := (start_nt g).

  (** C135.  The parser on the cleaned grammar: no rule that derives nothing is in the way any more, so one condition on
      the result decides whether all words of the original grammar are parsed ... *)
  Theorem C135_all_words (v0 : V) :
    ((forall (w : list (Token T V)) t0, api_tree t0 -> lang P S0 (map tk_kind w) ->
        exists m t, runs_to (fun fuel => parse lay sg w t0 fuel) (Ret (Some m, t))) <->
     ~ lang P S0 [] /\ no_overlap (rhs_of g') S0).
  Proof.
    destruct (C135_content g Bg g' R) as (B' & E & _). destruct (C135_useful g Bg g' R) as (Pd & _).
    pose proof (C110_all_words g' sg lay B' Wr Lay v0) as X. rewrite E in X. specialize (X Pd).
    rewrite (C135_words g Bg g' R) in X. rewrite <- X.
    split; intros Y w t0 A L; apply Y; try exact A; apply (C135_words g Bg g' R); exact L.
  Qed.
  (** ... and then every input gets the right answer about the original grammar. *)
  Theorem C135_verdict (w : list (Token T V)) t0 : ~ lang P S0 [] -> no_overlap (rhs_of g') S0 -> api_tree t0 ->
    (lang P S0 (map tk_kind w) -> exists m t, runs_to (fun fuel => parse lay sg w t0 fuel) (Ret (Some m, t)) /\
       (one_cut (rhs_of g') S0 -> forall tr, reads t m tr <-> dtree g (NonTerm S0) w tr)) /\
    (forall v, lang P S0 (map tk_kind w ++ v) -> ~ lang P S0 (map tk_kind w) ->
       exists t, runs_to (fun fuel => parse lay sg w t0 fuel) (Ret (None, t))) /\
    ((forall v, ~ lang P S0 (map tk_kind w ++ v)) ->
       runs_to (fun fuel => parse lay sg w t0 fuel) (Panic "assertion failed: !new_state.is_empty()")).
  Proof.
    intros N O A. destruct (C135_content g Bg g' R) as (B' & E & _). destruct (C135_useful g Bg g' R) as (Pd & _).
    pose proof (C110_verdict g' sg lay B' Wr Lay w t0) as X. rewrite E in X.
    destruct X as (X1 & X2 & X3); [intro L; apply N; now apply (C135_words g Bg g' R)|exact O|exact Pd|exact A|].
    split; [|split].
    - intro L. apply (C135_words g Bg g' R) in L. destruct (X1 L) as (m & t & Rp & X). exists m, t. split; [exact Rp|].
      intros C tr. rewrite (X C tr). apply (C135_trees g Bg g' R).
    - intros v L Nl. apply (X2 v); [now apply (C135_words g Bg g' R)|]. intro L'. apply Nl. now apply (C135_words g Bg g' R).
    - intro F. apply X3. intros v L. apply (F v). now apply (C135_words g Bg g' R).
  Qed.
End Parse.

(** 0 -> 7 | 1, 1 -> 8 1 loses its second production and the rule for 1; 0 -> 1, 1 -> 8 1 has no word at all; with nonterminals
    as letters (0 = S), S -> 7 B | 8 A B, A -> 9 A | E C, C -> C 5, B -> 6 | D B, D -> 9, E -> 4 loses A, C and E (which
    derives a word but is only used by A) and then passes the test of C133. *)
Definition ex_void : list (gb_call nat nat nat nat) :=
  [AddRule 0 [AddProd 10 0 [AddNonterm 1]]; AddRule 1 [AddProd 12 0 [AddTerm 8; AddNonterm 1]]].
Definition ex_void_g : Grammar nat nat nat nat := match build 0 ex_void 20 with Ret (Ok g) => g | _ => Build_Grammar 0 [] end.
Lemma built_void : built ex_void_g.
Proof. exists 0, ex_void. apply (build_vm _ _ 20); [vm_compute; reflexivity | discriminate]. Qed.
Definition ex_messy : list (gb_call nat nat nat nat) :=
  [AddRule 0 [AddProd 10 0 [AddTerm 7; AddNonterm 2]; AddProd 11 0 [AddTerm 8; AddNonterm 1; AddNonterm 2]];
   AddRule 1 [AddProd 12 0 [AddTerm 9; AddNonterm 1]; AddProd 13 0 [AddNonterm 5; AddNonterm 3]];
   AddRule 3 [AddProd 14 0 [AddNonterm 3; AddTerm 5]];
   AddRule 2 [AddProd 15 0 [AddTerm 6]; AddProd 16 0 [AddNonterm 4; AddNonterm 2]];
   AddRule 4 [AddProd 17 0 [AddTerm 9]]; AddRule 5 [AddProd 18 0 [AddTerm 4]]].
Definition ex_messy_g : Grammar nat nat nat nat := match build 0 ex_messy 20 with Ret (Ok g) => g | _ => Build_Grammar 0 [] end.
Lemma built_messy : built ex_messy_g.
Proof. exists 0, ex_messy. apply (build_vm _ _ 20); [vm_compute; reflexivity | discriminate]. Qed.
Definition ex_tidy_g : Grammar nat nat nat nat := match clean ex_messy_g 20 with Ret (Some (Ok g)) => g | _ => Build_Grammar 0 [] end.
Definition shown (g : Grammar nat nat nat nat) : list (nat * nat) := map (fun p => (p_head p, action_key p)) (prods g).
Example C135_examples :
  clean ex_void_g 20 = Ret None /\
  match clean ex_useless_g 20 with Ret (Some (Ok g)) => shown g = [(0, 10)] | _ => False end /\
  clean ex_messy_g 20 = Ret (Some (Ok ex_tidy_g)) /\ shown ex_tidy_g = [(0, 10); (2, 15); (2, 16); (4, 17)] /\
  all_useful ex_messy_g 20 = Ret false /\ test_grammar ex_tidy_g ex_lay 20 = Ret true.
Proof. repeat split; vm_compute; reflexivity. Qed.

Print Assumptions C135_ends.
Print Assumptions C135_content.
Print Assumptions C135_useful.
Print Assumptions C135_words.
Print Assumptions C135_trees.
Print Assumptions C135_test.
Print Assumptions C135_again.
Print Assumptions C135_all_words.
Print Assumptions C135_verdict.
