(** Assembly of the facts about [transform_to_nonnull]. *)
From Coq Require Import String List Arith Lia Bool NArith.
From Verif.Model Require Import Ord BTree Outcome Utils Grammar Nullable NonNull.
From Verif.Spec Require Import Reach Cfg BuildSpec NullSpec NonNullSpec Examples.
From Verif.Proofs Require Import OrdFacts BTreeFacts LoopFacts UtilsFacts GrammarFacts BuildMore
  NullableFacts NullableMore NonNullFacts.
Import ListNotations.

Lemma concat_keys_NoDup {T NT AK AV} (g : Grammar T NT AK AV) ps vss :
  Forall2 (variants g) ps vss -> NoDup (map pi_action_key ps) -> NoDup (map pi_action_key (concat vss)).
Proof.
  intro F. assert (O : forall q, In q (concat vss) ->
     In (nk_action (pi_action_key q)) (map pi_action_key ps)).
  { intros q I. apply in_concat in I. destruct I as (vs & Iv & I).
    induction F as [|p v ps vss V F IH]; [destruct Iv|]. destruct Iv as [<-|Iv].
    - left. destruct V as [[_ ->]|(_ & _ & _ & V)]; [destruct I|]. apply V in I.
      destruct I as (fl & k & d & _ & _ & E & _). rewrite E. reflexivity.
    - right. auto. }
  induction F as [|p v ps vss V F IH]; simpl; intro N; [constructor|].
  inversion N as [|? ? NI N']; subst.
  assert (O' : forall q, In q (concat vss) -> In (nk_action (pi_action_key q)) (map pi_action_key ps)).
  { clear -F. intros q I. apply in_concat in I. destruct I as (vs & Iv & I).
    induction F as [|p v ps vss V F IH]; [destruct Iv|]. destruct Iv as [<-|Iv].
    - left. destruct V as [[_ ->]|(_ & _ & _ & V)]; [destruct I|]. apply V in I.
      destruct I as (fl & k & d & _ & _ & E & _). rewrite E. reflexivity.
    - right. auto. }
  rewrite map_app. apply NoDup_app_intro.
  - destruct V as [[_ ->]|(_ & ND & Ex & V)]; [constructor|].
    assert (K : forall q1 q2, In q1 v -> In q2 v -> pi_action_key q1 = pi_action_key q2 -> q1 = q2).
    { intros q1 q2 I1 I2 E. pose proof (proj1 (V q1) I1) as (fl & k & d & C & _ & E1 & _).
      destruct (Ex fl k d C) as (q & _ & _ & Un).
      rewrite (Un q1 I1) by (rewrite E1; reflexivity). rewrite (Un q2 I2) by (rewrite <- E, E1; reflexivity).
      reflexivity. }
    clear -ND K. induction ND as [|x l NI ND IH]; simpl; constructor.
    + intro I. apply in_map_iff in I. destruct I as (y & E & I).
      rewrite (K y x (or_intror I) (or_introl eq_refl) E) in I. exact (NI I).
    + apply IH. intros q1 q2 I1 I2. apply K; right; assumption.
  - apply IH; [exact O'|exact N'].
  - intros x I J. apply in_map_iff in I, J. destruct I as (q & <- & I), J as (q' & E & J).
    apply O' in J. rewrite E in J. apply NI.
    destruct V as [[_ ->]|(_ & _ & _ & V)]; [destruct I|]. apply V in I.
    destruct I as (fl & k & d & _ & _ & E' & _). rewrite E' in J. exact J.
Qed.

Section Final.
  Context {T NT AK AV : Type} `{OrdEq NT}.
  Variable lay : layout NT.
  Variable g : Grammar T NT AK AV.
  Hypothesis Inj : lay_inj g lay.
  Hypothesis B : built g.

  Let Acc := built_accepted g B.

  Lemma transform_spec :
    (null_ambiguous g /\ runs_to (transform_to_nonnull lay g) (Ret (Err (NNNullable Ambiguity)))) \/
    (~ null_ambiguous g /\ nonnull_rejected g /\ runs_to (transform_to_nonnull lay g) (Ret (Err NNBuild))) \/
    (~ null_ambiguous g /\ ~ nonnull_rejected g /\ exists info,
       let g' := calls_grammar (start_symbol g) (map (nn_rule_call info) (rule_set g)) in
       runs_to (transform_to_nonnull lay g) (Ret (Ok g')) /\ accepted g' /\ built g' /\
       (forall A, is_nullable info A = true <-> derives_empty g A) /\
       (forall A i p, nth_prod g A i p ->
          (is_prod_nullable info (Build_Prod A i p) = true <-> body_derives_empty g p)) /\
       (forall A t, get_nullable_action info A = Some t <-> null_tree g A t)).
  Proof.
    destruct (nullable_final lay g Inj B) as [[Am R]|(U & info & R & _ & N & _ & P & Tr)].
    - left. split; [exact Am|]. unfold transform_to_nonnull.
      apply (runs_to_bind (calculate_nullables lay g) _ (Err Ambiguity)); [exact R|apply runs_to_ret].
    - right. destruct (nn_build g Acc info N P Tr) as [[Rj (e & Rb)]|[Rj Rb]].
      + left. split; [exact U|]. split; [exact Rj|]. unfold transform_to_nonnull.
        apply (runs_to_bind (calculate_nullables lay g) _ (Ok info)); [exact R|].
        apply (runs_to_bind (build (start_nt g) _) (fun _ r => Ret (match r with Ok g' => Ok g' | Err _ => Err NNBuild end)) (Err e)); [exact Rb|apply runs_to_ret].
      + right. split; [exact U|]. split; [exact Rj|]. exists info. cbn zeta.
        split; [|split; [exact (proj1 (proj2 (build_Ok_inv _ _ _ Rb)))|
                 split; [exists (start_symbol g), (map (nn_rule_call info) (rule_set g)); exact Rb|auto]]].
        unfold transform_to_nonnull.
        apply (runs_to_bind (calculate_nullables lay g) _ (Ok info)); [exact R|].
        apply (runs_to_bind (build (start_nt g) _) (fun _ r => Ret (match r with Ok g' => Ok g' | Err _ => Err NNBuild end)) (Ok (calls_grammar (start_symbol g) (map (nn_rule_call info) (rule_set g))))); [exact Rb|apply runs_to_ret].
  Qed.

  Lemma transform_verdict :
    (null_ambiguous g /\ runs_to (transform_to_nonnull lay g) (Ret (Err (NNNullable Ambiguity)))) \/
    (~ null_ambiguous g /\ nonnull_rejected g /\ runs_to (transform_to_nonnull lay g) (Ret (Err NNBuild))) \/
    (~ null_ambiguous g /\ ~ nonnull_rejected g /\
       exists g', runs_to (transform_to_nonnull lay g) (Ret (Ok g'))).
  Proof.
    destruct transform_spec as [L|[L|(U & R & info & X & _)]]; [left; exact L|right; left; exact L|].
    right. right. split; [exact U|]. split; [exact R|]. eexists. exact X.
  Qed.

  Variable g' : NonNullGrammar T NT AK AV.
  Hypothesis R : runs_to (transform_to_nonnull lay g) (Ret (Ok g')).

  Lemma transform_ok_inv : exists info,
    g' = calls_grammar (start_symbol g) (map (nn_rule_call info) (rule_set g)) /\ built g' /\
       (forall A, is_nullable info A = true <-> derives_empty g A) /\
       (forall A i p, nth_prod g A i p ->
          (is_prod_nullable info (Build_Prod A i p) = true <-> body_derives_empty g p)) /\
       (forall A t, get_nullable_action info A = Some t <-> null_tree g A t).
  Proof.
    destruct transform_spec as [[_ R']|[(_ & _ & R')|(_ & _ & info & R' & _ & X & Y)]];
      pose proof (runs_to_fun _ _ _ R R') as E; try discriminate.
    injection E as ->. exists info. split; [reflexivity|]. split; [exact X|exact Y].
  Qed.

  Lemma transform_nonempty :
    built g' /\
    (forall A p, prod_of g' A p -> pi_elements p <> []) /\ (forall A, ~ derives_empty g' A).
  Proof.
    destruct transform_ok_inv as (info & E & Bg' & N & P & Tr). split; [exact Bg'|].
    assert (X : forall A, ~ derives_empty g' A).
    { intros A D. rewrite E in D. exact (gen'_nonempty g Acc info N P Tr A [] D eq_refl). }
    split; [|exact X]. intros A p Pp Ep. apply (X A). apply lang_iff. exists []. split; [|constructor].
    exists p. rewrite Ep. auto.
  Qed.

  Lemma transform_lang_exact A w :
    lang (rhs_of g') A w <-> w <> [] /\ strict g [NonTerm A] w.
  Proof.
    destruct transform_ok_inv as (info & -> & _ & N & P & Tr). exact (nn_lang_exact g Acc info N P Tr A w).
  Qed.

  Lemma transform_lang_sound A w : lang (rhs_of g') A w -> w <> [] /\ lang (rhs_of g) A w.
  Proof.
    intro L. apply transform_lang_exact in L. destruct L as [Ne S]. split; [exact Ne|]. exact (strict_gen g _ _ S).
  Qed.

  Lemma transform_lang_pure : null_prods_pure g ->
    forall A w, lang (rhs_of g') A w <-> w <> [] /\ lang (rhs_of g) A w.
  Proof.
    intros Pu A w. destruct transform_ok_inv as (info & _ & _ & N & P & Tr). rewrite transform_lang_exact.
    split; intros [Ne S]; (split; [exact Ne|]); [exact (strict_gen g _ _ S)|exact (pure_strict g info P Pu _ _ S)].
  Qed.

  Lemma transform_shape :
    start_symbol g' = start_symbol g /\
    Forall2 (fun e e' => fst e' = fst e /\ r_head (snd e') = fst e /\
      exists vss, Forall2 (variants g) (r_prods (snd e)) vss /\ r_prods (snd e') = concat vss)
    (rule_set g) (rule_set g').
  Proof.
    destruct transform_ok_inv as (info & -> & _ & N & P & Tr). split; [reflexivity|].
    exact (nn_shape g Acc info N P Tr).
  Qed.

  Lemma transform_keys A r r' : In (A, r) (rule_set g) -> In (A, r') (rule_set g') ->
    NoDup (map pi_action_key (r_prods r)) -> NoDup (map pi_action_key (r_prods r')).
  Proof.
    intros I I' N. destruct transform_shape as [_ F].
    assert (U : forall r2, In (A, r2) (rule_set g') -> r2 = r').
    { intros r2 I2. destruct transform_nonempty as (Bg & _). pose proof (acc_wf g' (built_accepted g' Bg)) as [S _].
      apply bt_get_iff in I2, I'; try exact S. congruence. }
    assert (X : exists r2, In (A, r2) (rule_set g') /\ exists vss, Forall2 (variants g) (r_prods r) vss /\ r_prods r2 = concat vss).
    { clear U I'. revert I. induction F as [|e e' l l' (E1 & _ & E3) F IH]; intro I; [destruct I|].
      destruct I as [->|I].
      - exists (snd e'). split; [|exact E3]. left. simpl in E1. destruct e'; simpl in *; congruence.
      - destruct (IH I) as (r2 & I2 & Y). exists r2. split; [right; exact I2|exact Y]. }
    destruct X as (r2 & I2 & vss & Fv & E). rewrite <- (U r2 I2), E. exact (concat_keys_NoDup g _ _ Fv N).
  Qed.
End Final.

Lemma transform_mono {T NT AK AV : Type} `{OrdEq NT} lay (g : Grammar T NT AK AV) : fuel_mono (transform_to_nonnull lay g).
Proof.
  unfold transform_to_nonnull. apply (fuel_mono_bind (calculate_nullables lay g)); [apply calculate_nullables_mono|].
  intros [info|e]; [|apply fuel_mono_const].
  apply (fuel_mono_bind (build (start_nt g) _) (fun _ r => _)); [apply build_mono|]. intro r. apply fuel_mono_const.
Qed.
Lemma transform_vm {T AK AV : Type} lay (g : Grammar T nat AK AV) n r :
  transform_to_nonnull lay g n = r -> r <> NoFuel -> runs_to (transform_to_nonnull lay g) r.
Proof. intros E N. exact (runs_to_mono _ n r (transform_mono lay g) E N). Qed.

Lemma built_nn : built ex_nn_g.
Proof. exists 0, ex_nn. apply (build_vm _ _ 10); [vm_compute; reflexivity | discriminate]. Qed.
Lemma built_doc : built ex_doc_g.
Proof. exists 0, ex_doc. apply (build_vm _ _ 10); [vm_compute; reflexivity | discriminate]. Qed.
Lemma built_pure : built ex_pure_g.
Proof. exists 0, ex_pure. apply (build_vm _ _ 10); [vm_compute; reflexivity | discriminate]. Qed.

Lemma nn_loses_word : exists (g : Grammar nat nat nat nat) g' w,
  built g /\ in_memory g ex_lay /\ runs_to (transform_to_nonnull ex_lay g) (Ret (Ok g')) /\
  w <> [] /\ lang (rhs_of g) (start_nt g) w /\ ~ lang (rhs_of g') (start_nt g') w.
Proof.
  exists ex_nn_g. eexists. exists [9; 7]. split; [exact built_nn|]. split; [apply ex_lay_mem; vm_compute; reflexivity|].
  split; [apply (transform_vm _ _ 10); [vm_compute; reflexivity|discriminate]|].
  split; [discriminate|]. split.
  - apply lang_iff. exists [NonTerm 1; Term 7]. split.
    + eexists. split; [eexists; split; [left; reflexivity|left; reflexivity]|reflexivity].
    + apply (gen_nonterm _ 1 [NonTerm 2] [Term 7] [9] [7]).
      * eexists. split; [eexists; split; [right; left; reflexivity|left; reflexivity]|reflexivity].
      * apply (gen_nonterm _ 2 [Term 9] [] [9] []).
        -- eexists. split; [eexists; split; [right; right; left; reflexivity|right; left; reflexivity]|reflexivity].
        -- repeat constructor.
        -- constructor.
      * repeat constructor.
  - match goal with |- ~ lang (rhs_of ?g') _ _ => set (gg := g') end.
    assert (X : forall es w, gen (rhs_of gg) es w -> In 9 w -> In (Term 9) es \/ In (NonTerm 2) es).
    { intros es w G. induction G as [|t es w G IH|A rhs es u w Pr Gu IHu G IH]; intro I.
      - destruct I.
      - destruct I as [->|I]; [left; left; reflexivity|]. destruct (IH I); [left|right]; right; assumption.
      - apply in_app_or in I. destruct I as [I|I]; [|destruct (IH I); [left|right]; right; assumption].
        specialize (IHu I). destruct Pr as (p & (r & J & K) & ->). simpl in J.
        repeat (destruct J as [J|J]; [injection J as <- <-; simpl in K;
          repeat (destruct K as [<-|K]; [simpl in IHu; intuition (try discriminate); right; left; reflexivity|]); destruct K|]).
        destruct J. }
    intro L. destruct (X _ _ L (or_introl eq_refl)) as [[Y|[]]|[Y|[]]]; discriminate.
Qed.

Lemma doc_example_fails : built ex_doc_g /\ in_memory ex_doc_g ex_lay /\ runs_to (transform_to_nonnull ex_lay ex_doc_g) (Ret (Err NNBuild)).
Proof. split; [exact built_doc|]. split; [apply ex_lay_mem; vm_compute; reflexivity|]. apply (transform_vm _ _ 10); [vm_compute; reflexivity|discriminate]. Qed.

Lemma ex_pure_pure : null_prods_pure ex_pure_g.
Proof.
  intros A p w (r & J & K) D G. simpl in J.
  repeat (destruct J as [J|J]; [injection J as <- <-; simpl in K;
    repeat (destruct K as [<-|K]; [|]); try destruct K|]); try destruct J; unfold body_derives_empty in D; simpl in *.
  - exfalso. rewrite gen_cons_nt in D. destruct D as (u & v & E & _ & D).
    symmetry in E. apply app_eq_nil in E. destruct E as [_ ->]. inversion D.
  - inversion D.
  - inversion G. reflexivity.
  - inversion D.
Qed.
