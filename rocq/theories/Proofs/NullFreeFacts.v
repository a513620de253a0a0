(** FIRST and FOLLOW of a grammar and of its null-free version. *)
From Coq Require Import List.
From Verif.Model Require Import Ord BTree Outcome Grammar Nullable Firsts NonNull.
From Verif.Spec Require Import Reach Cfg BuildSpec NullSpec NonNullSpec.
From Verif.Proofs Require Import OrdFacts BTreeFacts LoopFacts GrammarFacts BuildMore NullableFacts NullableMore CfgFacts FollowGen FirstsMore NonNullFacts UtilsFacts NonNullMore.
Import ListNotations.

Section S.
  Context {T NT AK AV : Type} `{OrdEq NT}.
  Variable lay : layout NT.
  Variable g : Grammar T NT AK AV.
  Hypothesis Inj : lay_inj g lay.
  Hypothesis B : built g.
  Variable g' : NonNullGrammar T NT AK AV.
  Hypothesis R : runs_to (transform_to_nonnull lay g) (Ret (Ok g')).

  Lemma tr_rhs A rhs : rhs_of g' A rhs <->
    exists p fl k d, prod_of g A p /\ ~ body_derives_empty g p /\ choice g (pi_elements p) fl k d /\ rhs = map pe_elem k.
  Proof. destruct (transform_ok_inv lay g Inj B g' R) as (info & -> & _ & N & P & Tr). exact (nn_rhs g (built_accepted g B) info N P Tr A rhs). Qed.

  Lemma choice_derives es fl k d : choice g es fl k d -> derives_form (rhs_of g) (map pe_elem es) (map pe_elem k).
  Proof.
    induction 1 as [|e t es fl k d E C IH|e X es fl k d E C IH|e X es fl k d E De C IH]; cbn [map].
    - constructor.
    - exact (df_app _ [pe_elem e] [pe_elem e] _ _ (df_refl _ _) IH).
    - exact (df_app _ [pe_elem e] [pe_elem e] _ _ (df_refl _ _) IH).
    - rewrite E. exact (df_app _ [NonTerm X] [] _ _ (gen_derives _ _ _ De) IH).
  Qed.
  Lemma tr_form es es' : derives_form (rhs_of g') es es' -> derives_form (rhs_of g) es es'.
  Proof.
    intro D. induction D as [|x y _ IH S]; [constructor|]. apply (df_trans _ _ _ _ IH). destruct S as [pre A rhs post Pr].
    apply tr_rhs in Pr. destruct Pr as (p & fl & k & d & Pp & _ & C & ->).
    apply (df_app _ pre pre); [apply df_refl|]. apply (df_app _ [NonTerm A] (map pe_elem k) post post); [|apply df_refl].
    apply (df_trans _ _ (map pe_elem (pi_elements p))); [|exact (choice_derives _ _ _ _ C)]. apply df_rule. exists p. auto.
  Qed.

  (** Erasing a nullable part of a body. *)
  Lemma choice_keep es : exists fl, choice g es fl es [].
  Proof. exact (choice_full g es). Qed.
  Lemma choice_app es1 fl1 k1 d1 es2 fl2 k2 d2 : choice g es1 fl1 k1 d1 -> choice g es2 fl2 k2 d2 ->
    choice g (es1 ++ es2) (fl1 ++ fl2) (k1 ++ k2) (d1 ++ d2).
  Proof. intros C1 C2. induction C1; cbn [app]; [exact C2|econstructor; eassumption..]. Qed.
  Lemma choice_erase es : gen (rhs_of g) (map pe_elem es) [] -> exists fl, choice g es fl [] es.
  Proof.
    intro G. rewrite gen_empty in G. induction es as [|e es IH]; [exists []; constructor|].
    destruct (G (pe_elem e) (or_introl eq_refl)) as (A & E & L). destruct IH as (fl & C); [intros x I; apply G; now right|].
    exists (true :: fl). econstructor; eassumption.
  Qed.
  Lemma tr_erase A pre mid post : rhs_of g A (pre ++ mid ++ post) -> ~ gen (rhs_of g) (pre ++ mid ++ post) [] ->
    gen (rhs_of g) mid [] -> rhs_of g' A (pre ++ post).
  Proof.
    intros (p & Pp & E) N G. symmetry in E. apply map_eq_app in E. destruct E as (l1 & l2 & E1 & <- & E2).
    apply map_eq_app in E2. destruct E2 as (l3 & l4 & -> & <- & <-).
    destruct (choice_keep l1) as (f1 & C1), (choice_erase l3 G) as (f2 & C2), (choice_keep l4) as (f3 & C3).
    pose proof (choice_app _ _ _ _ _ _ _ _ C1 (choice_app _ _ _ _ _ _ _ _ C2 C3)) as C. rewrite <- E1 in C.
    apply tr_rhs. eexists p, _, _, _. split; [exact Pp|]. split; [|split; [exact C|cbn [app]; rewrite map_app; reflexivity]].
    unfold body_derives_empty. rewrite E1, !map_app. exact N.
  Qed.

  Hypothesis NE : forall A p, prod_of g A p -> body_derives_empty g p -> pi_elements p = [].
  Lemma kept_body A pre e post : rhs_of g A (pre ++ e :: post) -> ~ gen (rhs_of g) (pre ++ e :: post) [].
  Proof.
    intros (p & Pp & E) G. assert (X : pi_elements p = []) by (apply (NE A p Pp); unfold body_derives_empty; rewrite <- E; exact G).
    rewrite X in E. destruct pre; discriminate.
  Qed.

  Lemma tr_firstR A t : firstR (rhs_of g) A t -> firstR (rhs_of g') A t.
  Proof.
    induction 1 as [A pre t post Pr G|A pre X post t Pr G F IH].
    - apply firstR_t with (pre := []) (post := post); [|constructor]. apply (tr_erase A [] pre (Term t :: post) Pr); [|exact G]. exact (kept_body _ _ _ _ Pr).
    - apply firstR_nt with (pre := []) (B := X) (post := post); [|constructor|exact IH].
      apply (tr_erase A [] pre (NonTerm X :: post) Pr); [|exact G]. exact (kept_body _ _ _ _ Pr).
  Qed.
  Lemma tr_folR A t : folG (rhs_of g) A t -> folR (rhs_of g') A t.
  Proof.
    induction 1 as [D pre A post t Pr F|D pre A post t Pr G F IH].
    - destruct F as (mid & e & post2 & -> & G & Fe).
      apply folR_adj with (H := D) (pre := pre) (e := e) (post := post2).
      + replace (pre ++ NonTerm A :: e :: post2) with ((pre ++ [NonTerm A]) ++ e :: post2) by (rewrite <- app_assoc; reflexivity).
        assert (E : pre ++ NonTerm A :: mid ++ e :: post2 = (pre ++ [NonTerm A]) ++ mid ++ e :: post2) by (rewrite <- app_assoc; reflexivity).
        apply (tr_erase D (pre ++ [NonTerm A]) mid (e :: post2)); [rewrite <- E; exact Pr| |exact G].
        rewrite <- E. exact (kept_body _ _ _ _ Pr).
      + destruct e; [exact Fe|]. apply tr_firstR. exact Fe.
    - apply folR_last with (H := D) (pre := pre); [|exact IH].
      assert (E : pre ++ NonTerm A :: post = (pre ++ [NonTerm A]) ++ post ++ []) by (rewrite <- app_assoc, app_nil_r; reflexivity).
      rewrite <- (app_nil_r (pre ++ [NonTerm A])). apply (tr_erase D (pre ++ [NonTerm A]) post []); [rewrite <- E; exact Pr| |exact G].
      rewrite <- E. exact (kept_body _ _ _ _ Pr).
  Qed.
End S.

Section Passes.
  Context {T NT AK AV : Type} `{OrdEq T} `{OrdEq NT}.
  Variable lay : layout NT.
  Variable g : Grammar T NT AK AV.
  Hypothesis Inj : lay_inj g lay.
  Hypothesis B : built g.
  Variable g' : NonNullGrammar T NT AK AV.
  Hypothesis R : runs_to (transform_to_nonnull lay g) (Ret (Ok g')).

  Lemma tr_has_rule A r : In (A, r) (rule_set g) -> exists rhs, rhs_of g' A rhs.
  Proof.
    intro I. destruct (transform_shape lay g Inj B g' R) as [_ F]. destruct (transform_nonempty lay g Inj B g' R) as (B' & _).
    assert (X : exists r', In (A, r') (rule_set g')).
    { clear -F I. induction F as [|[A1 r1] [A2 r2] l l' (E & _) F IH]; [destruct I|]. destruct I as [E1|I].
      - injection E1 as -> ->. exists r2. left. cbn in E. congruence.
      - destruct (IH I) as (r' & I'). exists r'. now right. }
    destruct X as (r' & I'). pose proof (acc_prods g' (built_accepted g' B') A r' I') as Ne. destruct (r_prods r') as [|q qs] eqn:E; [contradiction|].
    exists (map pe_elem (pi_elements q)), q. split; [|reflexivity]. exists r'. split; [exact I'|]. rewrite E. now left.
  Qed.
  Lemma body_has_word A rhs : productive g -> rhs_of g A rhs -> exists w, gen (rhs_of g) rhs w.
  Proof.
    intros Pd Pr. assert (X : forall e, In e rhs -> exists w, gen (rhs_of g) [e] w).
    { intros [t|X] I; [exists [t]; repeat constructor|]. destruct (accepted_closed g X B) as (r & G & _ & Ne); [right; exists A, rhs; auto|].
      unfold get_rule, try_get_rule in G. destruct (bt_get X (rule_set g)) as [r'|] eqn:E; [|discriminate]. injection G as <-.
      apply bt_get_In in E. destruct (r_prods r') as [|q qs] eqn:Er; [contradiction|]. apply (Pd X (map pe_elem (pi_elements q))).
      exists q. split; [|reflexivity]. exists r'. split; [exact E|]. rewrite Er. now left. }
    clear Pr. induction rhs as [|e rhs IH]; [exists []; constructor|]. destruct (X e (or_introl eq_refl)) as (w & G).
    destruct IH as (v & G'); [intros x I; apply X; now right|]. exists (w ++ v). exact (gen_app _ [e] rhs w v G G').
  Qed.
  Lemma nonempty_word A : productive g -> (exists r, In (A, r) (rule_set g)) -> exists t w, lang (rhs_of g) A (t :: w).
  Proof.
    intros Pd (r & I). destruct (tr_has_rule A r I) as (rhs' & Pr). apply (tr_rhs lay g Inj B g' R) in Pr.
    destruct Pr as (p & fl & k & d & Pp & N & _ & _). assert (Pr : rhs_of g A (map pe_elem (pi_elements p))) by (exists p; auto).
    destruct (body_has_word A _ Pd Pr) as ([|t w] & G); [contradiction|]. exists t, w. apply lang_iff. eexists. split; [exact Pr|exact G].
  Qed.

  (** The condition of [C11_nonnull_language_partial] on grammars without useless symbols. *)
  Lemma pure_condition : productive g -> null_prods_pure g ->
    forall A p, prod_of g A p -> body_derives_empty g p -> pi_elements p = [].
  Proof.
    intros Pd Pu A p Pp E. destruct (pi_elements p) as [|e es] eqn:Ep; [reflexivity|]. exfalso.
    unfold body_derives_empty in E. pose proof E as E0. rewrite gen_empty in E. rewrite Ep in E. destruct (E (pe_elem e) (or_introl eq_refl)) as (X & Ex & _).
    assert (Pr : rhs_of g A (map pe_elem (pi_elements p))) by (exists p; auto).
    destruct (accepted_closed g X B) as (r & G & _ & Ne); [right; exists A; eexists; split; [exact Pr|rewrite Ep; left; exact Ex]|].
    unfold get_rule, try_get_rule in G. destruct (bt_get X (rule_set g)) as [r'|] eqn:Er; [|discriminate]. injection G as <-. apply bt_get_In in Er.
    destruct (nonempty_word X Pd (ex_intro _ r' Er)) as (t & w & L).
    assert (Gs : gen (rhs_of g) (map pe_elem es) []). { apply gen_empty. intros y I. apply E. now right. }
    pose proof (gen_app _ [NonTerm X] _ _ _ L Gs) as Gb. cbn [app] in Gb. rewrite <- Ex, <- map_cons, <- Ep in Gb.
    pose proof (Pu A p _ Pp E0 Gb). discriminate.
  Qed.

  Variable lay' : layout NT.
  Hypothesis Inj' : lay_inj g' lay'.
  Hypothesis NE : forall A p, prod_of g A p -> body_derives_empty g p -> pi_elements p = [].

  Lemma tr_first A t : first_of (rhs_of g') A t <-> first_of (rhs_of g) A t.
  Proof.
    split.
    - intros (rest & D). exists rest. exact (tr_form lay g Inj B g' R _ _ D).
    - rewrite !first_of_iff. exact (tr_firstR lay g Inj B g' R NE A t).
  Qed.
  Lemma tr_follow A t : (exists X, follow_from (rhs_of g') X A t) <-> (exists X, follow_from (rhs_of g) X A t).
  Proof.
    split.
    - intros (X & pre & post & D). exists X, pre, post. exact (tr_form lay g Inj B g' R _ _ D).
    - intros (X & F). apply folG_complete in F. apply (tr_folR lay g Inj B g' R NE) in F. apply folR_sound in F.
      destruct F as (Y & rhs & _ & F). exists Y. exact F.
  Qed.

  Lemma tr_unamb : ~ null_ambiguous g'.
  Proof.
    destruct (transform_nonempty lay g Inj B g' R) as (B' & Ne & NN).
    intros (A & i & j & p & q & Np & _ & _ & Ep & _). destruct Np as (r & I & Hn). apply (NN A). apply lang_iff.
    exists (map pe_elem (pi_elements p)). split; [|exact Ep]. exists p. split; [|reflexivity]. exists r. split; [exact I|]. exact (nth_error_In _ _ Hn).
  Qed.
  Lemma tr_nullables : runs_to (calculate_nullables lay' g') (Ret (Ok [])).
  Proof.
    destruct (transform_nonempty lay g Inj B g' R) as (B' & Ne & NN).
    destruct (nullable_final lay' g' Inj' B') as [[Am _]|(_ & info & Rn & _ & N & _)]; [exfalso; exact (tr_unamb Am)|].
    destruct info as [|[A t] info]; [exact Rn|]. exfalso. apply (NN A). apply N. unfold is_nullable, bt_mem. cbn [bt_get]. rewrite (cmp_refl A). reflexivity.
  Qed.
  Lemma tr_firsts : exists m, runs_to (calculate_firsts lay' g') (Ret (Ok m)) /\
    forall A t, (exists s, firsts_get m A = Some s /\ In t s) <-> first_of (rhs_of g) A t.
  Proof.
    destruct (transform_nonempty lay g Inj B g' R) as (B' & Ne & NN).
    destruct (firsts_result lay' g' Inj' B') as (r & Rf & X). destruct r as [m|e].
    - exists m. split; [exact Rf|]. intros A t. destruct X as [_ X]. rewrite X. apply tr_first.
    - exfalso. exact (tr_unamb (proj2 X)).
  Qed.
  Lemma tr_follows m : runs_to (calculate_follows lay' g') (Ret (Ok m)) ->
    forall A t, (exists s, bt_get A m = Some s /\ In t s) <-> exists X, follow_from (rhs_of g) X A t.
  Proof.
    destruct (transform_nonempty lay g Inj B g' R) as (B' & Ne & NN). intros Rf A t. rewrite <- tr_follow. split.
    - intros (s & G & I). destruct (follows_sound lay' g' Inj' B' m A t s Rf G I) as (X & _ & _ & F). exists X. exact F.
    - intros (X & F). exact (follows_complete lay' g' Inj' B' m X A t Rf (fun _ _ _ Y _ _ => NN Y) F).
  Qed.
  Lemma tr_follows_total : productive g -> exists m, runs_to (calculate_follows lay' g') (Ret (Ok m)).
  Proof.
    intro Pd. destruct (transform_nonempty lay g Inj B g' R) as (B' & Ne & NN).
    apply (follows_verdict lay' g' Inj' B'). split; [exact tr_unamb|].
    intros (D & pre & A & X & post & Pr & F).
    apply (tr_rhs lay g Inj B g' R) in Pr. destruct Pr as (p & fl & k & d & Pp & _ & C & Ek).
    assert (I : In (NonTerm X) (map pe_elem (pi_elements p))).
    { assert (J : In (NonTerm X) (map pe_elem k)) by (rewrite <- Ek; apply in_or_app; right; right; now left).
      apply in_map_iff in J. destruct J as (e & E & J). apply in_map_iff. exists e. split; [exact E|]. exact (choice_kept g _ _ _ _ C e J). }
    destruct (accepted_closed g X B) as (r & G & _ & _); [right; exists D; eexists; split; [exists p; split; [exact Pp|reflexivity]|exact I]|].
    unfold get_rule, try_get_rule in G. destruct (bt_get X (rule_set g)) as [r'|] eqn:Er; [|discriminate]. apply bt_get_In in Er.
    destruct (nonempty_word X Pd (ex_intro _ r' Er)) as (t & w & L).
    assert (Fi : first_of (rhs_of g') X t). { apply tr_first. exists (map Term w). exact (gen_derives _ _ _ L). }
    destruct tr_firsts as (m & Rm & _). destruct (firsts_present lay' g' Inj' B' m X t Rm Fi) as (s & Gs).
    rewrite (proj2 (firsts_absent lay' g' Inj' B' m X Rm) F) in Gs. discriminate.
  Qed.
End Passes.
