(** C114: grammars with optional parts are parsed after the null-removing transformation
    (src/grammar/transform/nonnull.rs, src/start_grammar.rs, src/parsers/earley.rs used together). *)
From Coq Require Import String List Arith NArith Lia.
From Verif.Model Require Import Ord BTree Outcome Utils Grammar StartGrammar Nullable NonNull Tokens Tree State Earley.
From Verif.Spec Require Import Reach Cfg BuildSpec NullSpec NonNullSpec TreeSpec EarleySpec LL1Spec TrimSpec Examples.
From Verif.Proofs Require Import OrdFacts BTreeFacts LoopFacts GrammarFacts StartFacts BuildMore CfgFacts NullableFacts NullableMore
  NonNullFacts NonNullMore TreeFacts TreeHist EarleyItems EarleyMore TrimFacts ExampleFacts Overlaps.
From Verif.Properties Require Import EarleyProps LL1Props PipelineProps.
Import ListNotations.

Section Props.
  Context {T NT AK AV V : Type} `{OrdEq T} `{OrdEq NT} `{OrdEq AK} `{OrdEq V}.
  (** A grammar, transformed, then wrapped with a start rule; productions at any different addresses. *)
  Variable lay0 : layout NT.
  Variable g : Grammar T NT AK AV.
  Variable g' : NonNullGrammar T NT AK AV.
  Variable sg : StartGrammar T NT (NNActionKey AK) (NNActionValue NT AK AV).
  Variable lay : layout (StartNonTerminal NT).
  Hypothesis Inj : lay_inj g lay0.
  Hypothesis B : built g.
  Hypothesis R : runs_to (transform_to_nonnull lay0 g) (Ret (Ok g')).
  Hypothesis Wr : runs_to (wrap_grammar_with_start g') (Ret (Ok sg)).
  Hypothesis Lay : lay_inj sg lay.
  (** Productions that derive the empty word derive nothing else. *)
  Hypothesis Pure : null_prods_pure g.
  (** Everything reachable in the result derives a word. *)
  Hypothesis Pd : productive (rhs_of g') (start_nt g').
  Local Notation L := (lang (rhs_of g) (start_nt g)).

  Let B' : built g' := proj1 (transform_nonempty lay0 g Inj B g' R).
  Let St : start_nt g' = start_nt g := proj1 (transform_shape lay0 g Inj B g' R).
  Lemma lang' u : lang (rhs_of g') (start_nt g') u <-> u <> [] /\ L u.
  Proof. rewrite St. apply (transform_lang_pure lay0 g Inj B g' R Pure). Qed.
  Lemma no_empty' : ~ lang (rhs_of g') (start_nt g') [].
  Proof. rewrite lang'. intros [X _]. exact (X eq_refl). Qed.

  (** C114.  All nonempty words of the original grammar are accepted exactly if in the transformed grammar no
      beginning of a body derives a word that a longer beginning derives too. *)
  Theorem C114_all_words (v0 : V) :
    (forall (w : list (Token T V)) t0, api_tree t0 -> w <> [] -> L (map tk_kind w) ->
       exists m t, runs_to (fun fuel => parse lay sg w t0 fuel) (Ret (Some m, t))) <->
    no_overlap (rhs_of g') (start_nt g').
  Proof.
    assert (E : forall w : list (Token T V), w <> [] <-> map tk_kind w <> []) by (intros [|x w]; cbn; split; congruence).
    pose proof (C110_all_words g' sg lay B' Wr Lay v0 Pd) as X. split.
    - intro Y. apply X. intros w t0 A Lw. apply lang' in Lw. destruct Lw as [Ne Lw]. apply E in Ne. exact (Y w t0 A Ne Lw).
    - intros O w t0 A Ne Lw. apply (proj2 X (conj no_empty' O) w t0 A). apply lang'. split; [apply E; exact Ne|exact Lw].
  Qed.

  (** C114.  Then the parser accepts the nonempty words, rejects what only begins a word, and panics on what begins
      no word.  When pieces are cut in one way, the trees of the forest are the trimmed trees of the input in the
      original grammar, and when the keys of a rule are distinct each comes from exactly one of them. *)
  Theorem C114_verdict (w : list (Token T V)) t0 : no_overlap (rhs_of g') (start_nt g') -> api_tree t0 ->
    (w <> [] -> L (map tk_kind w) -> exists m t, runs_to (fun fuel => parse lay sg w t0 fuel) (Ret (Some m, t)) /\
       (one_cut (rhs_of g') (start_nt g') ->
          (forall tr', reads t m tr' <-> exists tr, dtree g (NonTerm (start_nt g)) w tr /\ trim tr = tr') /\
          (keys_distinct g -> forall tr', reads t m tr' -> exists! tr, dtree g (NonTerm (start_nt g)) w tr /\ trim tr = tr'))) /\
    (forall v, L (map tk_kind w ++ v) -> map tk_kind w ++ v <> [] -> w = [] \/ ~ L (map tk_kind w) ->
       exists t, runs_to (fun fuel => parse lay sg w t0 fuel) (Ret (None, t))) /\
    ((forall v, map tk_kind w ++ v <> [] -> ~ L (map tk_kind w ++ v)) ->
       runs_to (fun fuel => parse lay sg w t0 fuel) (Panic "assertion failed: !new_state.is_empty()")).
  Proof.
    intros O A. destruct (C110_verdict g' sg lay B' Wr Lay w t0 no_empty' O Pd A) as (Y & N & Er). split; [|split].
    - intros Ne Lw. destruct Y as (m & t & Rn & Tr); [apply lang'; split; [destruct w; [congruence|discriminate]|exact Lw]|].
      exists m, t. split; [exact Rn|]. intro C. specialize (Tr C).
      assert (Q : forall tr', reads t m tr' <-> exists tr, dtree g (NonTerm (start_nt g)) w tr /\ trim tr = tr').
      { intro tr'. rewrite Tr, St, (C88_trees_all lay0 g g' Inj B R _ _ _ Pure). split; [intros [_ X]; exact X|intro X; split; [exact Ne|exact X]]. }
      split; [exact Q|]. intros K tr' Rd. apply Q in Rd. destruct Rd as (tr & D & E). exists tr. split; [auto|]. intros tr2 [D2 E2].
      apply (C88_trees_recoverable lay0 g g' Inj B R (start_nt g) w w tr tr2 K); [exact (proj1 (pure_stree g Pure) _ _ _ D)|exact (proj1 (pure_stree g Pure) _ _ _ D2)|congruence].
    - intros v Lv Ne Nw. apply (N v); [apply lang'; auto|]. rewrite lang'. intros [N1 N2]. destruct Nw as [->|Nw]; [exact (N1 eq_refl)|exact (Nw N2)].
    - intro Nv. apply Er. intros v Lv. apply lang' in Lv. exact (Nv v (proj1 Lv) (proj2 Lv)).
  Qed.
End Props.

Print Assumptions C114_all_words.
Print Assumptions C114_verdict.

(** The hypotheses can be met: "7 9" with an optional "8" between, which cannot be parsed as it is.
    0 -> 7 1 9, 1 -> | 8. *)
Definition ex_opt : list (gb_call nat nat nat nat) :=
  [AddRule 0 [AddProd 10 5 [AddTerm 7; AddNonterm 1; AddTerm 9]]; AddRule 1 [AddProd 11 6 []; AddProd 12 6 [AddTerm 8]]].
Definition ex_opt_g : Grammar nat nat nat nat := match build 0 ex_opt 20 with Ret (Ok g) => g | _ => Build_Grammar 0 [] end.
Definition ex_opt_nn : NonNullGrammar nat nat nat nat :=
  match transform_to_nonnull ex_lay ex_opt_g 10 with Ret (Ok g) => g | _ => Build_Grammar 0 [] end.
Definition ex_opt_sg : StartGrammar nat nat (NNActionKey nat) (NNActionValue nat nat nat) :=
  match wrap_grammar_with_start ex_opt_nn 20 with Ret (Ok sg) => sg | _ => Build_Grammar Start [] end.
Lemma built_opt : built ex_opt_g.
Proof. exists 0, ex_opt. apply (build_vm _ _ 20); [vm_compute; reflexivity | discriminate]. Qed.
Lemma opt_nn1 u : lang (rhs_of ex_opt_nn) 1 u <-> u = [8].
Proof.
  split; [intro L; apply lang_inv in L as (rhs & Pr & G); prods Pr; inv_gen; reflexivity|]. intros ->.
  apply (lang_intro _ _ [Term 8]); [is_prod|repeat constructor].
Qed.
Lemma opt_nn0 u : lang (rhs_of ex_opt_nn) 0 u <-> u = [7; 9] \/ u = [7; 8; 9].
Proof.
  split.
  - intro L. apply lang_inv in L as (rhs & Pr & G). prods Pr; inv_gen; auto.
    match goal with X : lang _ 1 _ |- _ => apply opt_nn1 in X; subst end. auto.
  - intros [-> | ->].
    + apply (lang_intro _ _ [Term 7; Term 9]); [is_prod|repeat constructor].
    + apply (lang_intro _ _ [Term 7; NonTerm 1; Term 9]); [is_prod|]. constructor. apply (gen_nt _ _ _ [8] [9]); [apply opt_nn1; reflexivity|repeat constructor].
Qed.
Lemma opt_nn_nts A u : lang (rhs_of ex_opt_nn) A u -> A = 0 \/ A = 1.
Proof. intro L. apply lang_inv in L as (rhs & Pr & G). prods Pr; auto. Qed.
Lemma opt_pf : prefix_free (rhs_of ex_opt_nn).
Proof.
  intros A u v L. destruct (opt_nn_nts _ _ L) as [-> | ->].
  - apply opt_nn0 in L as [-> | ->]; (split; [discriminate|]); intro L'; apply opt_nn0 in L' as [E|E]; inversion E; reflexivity.
  - apply opt_nn1 in L as ->. split; [discriminate|]. intro L'. apply opt_nn1 in L'. inversion L'. reflexivity.
Qed.
Example ex_opt_hyps : lay_inj ex_opt_g ex_lay /\ built ex_opt_g /\ runs_to (transform_to_nonnull ex_lay ex_opt_g) (Ret (Ok ex_opt_nn)) /\
  runs_to (wrap_grammar_with_start ex_opt_nn) (Ret (Ok ex_opt_sg)) /\ lay_inj ex_opt_sg ex_slay /\ null_prods_pure ex_opt_g /\
  productive (rhs_of ex_opt_nn) (start_nt ex_opt_nn) /\ no_overlap (rhs_of ex_opt_nn) (start_nt ex_opt_nn) /\
  one_cut (rhs_of ex_opt_nn) (start_nt ex_opt_nn) /\ keys_distinct ex_opt_g /\
  lang (rhs_of ex_opt_g) (start_nt ex_opt_g) [7; 9] /\ lang (rhs_of ex_opt_g) (start_nt ex_opt_g) [7; 8; 9].
Proof.
  split; [apply ex_lay_inj; vm_compute; reflexivity|]. split; [exact built_opt|]. split.
  { apply (transform_vm _ _ 10); [vm_compute; reflexivity|discriminate]. }
  split. { apply (runs_to_mono _ 20); [apply build_mono|vm_compute; reflexivity|discriminate]. }
  split; [apply ex_slay_inj; vm_compute; reflexivity|]. split.
  { intros A p w (r & J & K) D G. vm_compute in J. destruct J as [J|[J|[]]]; injection J as <- <-; vm_compute in K;
    repeat (destruct K as [<-|K]); try destruct K; unfold body_derives_empty in D; cbn in D, G; inversion D; inversion G; reflexivity. }
  split.
  { intros A R. assert (A = 0 \/ A = 1) as C.
    { revert A R. apply reach_in; [auto|]. intros A B rhs Pr I. prods Pr; in_cases; auto. }
    destruct C as [-> | ->]; [exists [7; 9]; apply opt_nn0; auto|exists [8]; apply opt_nn1; reflexivity]. }
  split; [apply pf_no_overlap; exact opt_pf|]. split; [apply pf_one_cut; exact opt_pf|]. split.
  { intros A r E. vm_compute in E. destruct E as [E|[E|[]]]; injection E as <- <-; simpl; repeat constructor; simpl; intuition discriminate. }
  assert (L1 : forall u, u = [] \/ u = [8] -> lang (rhs_of ex_opt_g) 1 u).
  { intros u [-> | ->]; [apply (lang_intro _ _ [])|apply (lang_intro _ _ [Term 8])]; try is_prod; repeat constructor. }
  split; (apply (lang_intro _ _ [Term 7; NonTerm 1; Term 9]); [is_prod|]); constructor.
  - apply (gen_nt _ _ _ [] [9]); [auto|repeat constructor].
  - apply (gen_nt _ _ _ [8] [9]); [auto|repeat constructor].
Qed.
Example ex_opt_direct_panics : exists msg,
  runs_to (fun fuel => parse ex_slay (ex_wrap ex_opt_g) (map ex_tok [7; 9]) in_new fuel) (Panic msg).
Proof. eexists. apply (parse_vm _ _ _ _ 20); [vm_compute; reflexivity|discriminate]. Qed.
