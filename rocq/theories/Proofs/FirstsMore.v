(** Proofs of the statements in [Properties/FirstsProps.v]. *)
From Coq Require Import String List Arith Lia Bool NArith.
From Verif.Model Require Import Ord BTree Outcome Utils Grammar Nullable Firsts.
From Verif.Spec Require Import Reach Cfg BuildSpec NullSpec Examples.
From Verif.Proofs Require Import OrdFacts BTreeFacts LoopFacts UtilsFacts GrammarFacts BuildMore NullableFacts NullableMore
  CfgFacts FollowGen FirstsFacts FollowsFacts.
Import ListNotations.

Section Final.
  Context {T NT AK AV : Type} `{OrdEq T} `{OrdEq NT}.
  Variable lay : layout NT.
  Variable g : Grammar T NT AK AV.
  Hypothesis Inj : lay_inj g lay.
  Hypothesis B : built g.
  Let W : rs_wf g := acc_wf g (built_accepted g B).

  Lemma calculate_firsts_mono : fuel_mono (calculate_firsts lay g).
  Proof.
    apply (fuel_mono_bind (calculate_nullables lay g)); [apply calculate_nullables_mono|]. intros [info|e].
    - apply (fuel_mono_bind (fun n => change_loop _ n _)); [apply change_loop_mono|]. intro m. apply fuel_mono_const.
    - apply fuel_mono_const.
  Qed.
  Lemma calculate_follows_mono : fuel_mono (calculate_follows lay g).
  Proof.
    apply (fuel_mono_bind (calculate_firsts lay g)); [apply calculate_firsts_mono|]. intros [info|e].
    - apply (fuel_mono_bind (fun n => change_loop _ n _)); [apply change_loop_mono|]. intro m. apply fuel_mono_const.
    - apply fuel_mono_const.
  Qed.

  Lemma firsts_final :
    (null_ambiguous g /\ runs_to (calculate_firsts lay g) (Ret (Err (FNullableError Ambiguity)))) \/
    (~ null_ambiguous g /\ exists m, runs_to (calculate_firsts lay g) (Ret (Ok m)) /\ cm_wf m /\
       (forall A t, cm_rel m A t <-> firstR (rhs_of g) A t) /\
       (forall A, firsts_get m A = None <-> forall e, can_be_first (rhs_of g) A e -> e = NonTerm A)).
  Proof.
    destruct (nullable_final lay g Inj B) as [[Am R]|(U & info & R & _ & N & _)]; [left|right]; (split; [assumption|]).
    - apply (runs_to_bind (calculate_nullables lay g) _ (Err Ambiguity) _ R). apply runs_to_ret.
    - destruct (calculate_firsts_loop info g W N) as (m & Rm & Wf & Rel & Pn). exists m. split; [|split; [exact Wf|split; [exact Rel|]]].
      + apply (runs_to_bind (calculate_nullables lay g) _ (Ok info) _ R). cbv beta.
        apply (runs_to_bind (fun n => change_loop _ n _) (fun _ f => Ret (Ok (cm_into_inner f))) m _ Rm). apply runs_to_ret.
      + intro A. unfold firsts_get. rewrite Pn. split.
        * intros F e (pre & post & Pr & G). destruct (rhs_prods g W _ _ Pr) as (p & Ip & <- & E).
          apply (F p e Ip eq_refl). apply (visited_iff info g N). exists pre, post. auto.
        * intros F p e Ip <- V. apply F. apply (visited_iff info g N) in V. destruct V as (pre & post & E & G).
          exists pre, post. split; [|exact G]. rewrite <- E. apply prods_rhs; assumption.
  Qed.

  Lemma firsts_result :
    exists r, runs_to (calculate_firsts lay g) (Ret r) /\
      match r with
      | Err e => e = FNullableError Ambiguity /\ null_ambiguous g
      | Ok m => ~ null_ambiguous g /\
          forall A t, (exists s, firsts_get m A = Some s /\ In t s) <-> first_of (rhs_of g) A t
      end.
  Proof.
    destruct firsts_final as [[Am R]|(U & m & R & _ & Rel & _)].
    - eexists. split; [exact R|]. split; [reflexivity|exact Am].
    - eexists. split; [exact R|]. split; [exact U|]. intros A t. rewrite first_of_iff. apply Rel.
  Qed.

  Lemma firsts_ok_inv m : runs_to (calculate_firsts lay g) (Ret (Ok m)) ->
    ~ null_ambiguous g /\ cm_wf m /\
       (forall A t, cm_rel m A t <-> firstR (rhs_of g) A t) /\
       (forall A, firsts_get m A = None <-> forall e, can_be_first (rhs_of g) A e -> e = NonTerm A).
  Proof.
    intro R. destruct firsts_final as [[Am R']|(U & m' & R' & Q)]; pose proof (runs_to_fun _ _ _ R R') as E;
      [discriminate|]. injection E as ->. split; [exact U|]. exact Q.
  Qed.

  Lemma firsts_absent m A : runs_to (calculate_firsts lay g) (Ret (Ok m)) ->
    (firsts_get m A = None <-> forall e, can_be_first (rhs_of g) A e -> e = NonTerm A).
  Proof. intro R. apply (firsts_ok_inv m R). Qed.

  Lemma firsts_present m A t : runs_to (calculate_firsts lay g) (Ret (Ok m)) ->
    first_of (rhs_of g) A t -> exists s, firsts_get m A = Some s.
  Proof.
    intros R F. destruct (firsts_ok_inv m R) as (_ & _ & Rel & _). apply first_of_iff, Rel in F.
    destruct F as (s & G & _). exists s. exact G.
  Qed.

  Lemma adjacent_follow_iff A t : adjacent_follow (rhs_of g) A t <-> folR (rhs_of g) A t.
  Proof.
    split; intro F.
    - induction F as [H' pre A t post Pr|H' pre A X post t Pr Fi|H' pre A t Pr _ IH].
      + eapply folR_adj; [exact Pr|reflexivity].
      + eapply folR_adj; [exact Pr|]. simpl. apply first_of_iff. exact Fi.
      + eapply folR_last; eassumption.
    - induction F as [H' pre A e post t Pr Fi|H' pre A t Pr _ IH].
      + destruct e as [t'|X]; simpl in Fi.
        * subst t'. eapply af_term. exact Pr.
        * eapply af_nonterm; [exact Pr|]. apply first_of_iff. exact Fi.
      + eapply af_last; eassumption.
  Qed.

  Definition follows_undefined : Prop :=
    exists H' pre A X post, rhs_of g H' (pre ++ NonTerm A :: NonTerm X :: post) /\
      forall e, can_be_first (rhs_of g) X e -> e = NonTerm X.

  Lemma follows_final :
    (null_ambiguous g /\ runs_to (calculate_follows lay g) (Ret (Err (FoFirst (FNullableError Ambiguity))))) \/
    (~ null_ambiguous g /\ follows_undefined /\ exists s, runs_to (calculate_follows lay g) (Panic s)) \/
    (~ null_ambiguous g /\ ~ follows_undefined /\ exists m, runs_to (calculate_follows lay g) (Ret (Ok m)) /\
       cm_wf m /\ forall A t, cm_rel m A t <-> folR (rhs_of g) A t).
  Proof.
    destruct firsts_final as [[Am R]|(U & fm & R & Wf & Rel & Pn)].
    - left. split; [exact Am|].
      apply (runs_to_bind (calculate_firsts lay g) _ (Err (FNullableError Ambiguity)) _ R). apply runs_to_ret.
    - assert (Bd : some_bad fm g <-> follows_undefined).
      { split.
        - intros (p & Ip & A & X & (pre & post & E) & G). exists (p_head p), pre, A, X, post.
          split; [rewrite <- E; apply prods_rhs; assumption|]. apply Pn. exact G.
        - intros (H' & pre & A & X & post & Pr & F). destruct (rhs_prods g W _ _ Pr) as (p & Ip & _ & E).
          exists p. split; [exact Ip|]. exists A, X. split; [exists pre, post; exact E|]. apply Pn. exact F. }
      destruct (follows_loop fm g W Rel) as (r & Rr & Q). destruct r as [m|s|]; [| |destruct Q].
      + right. right. split; [exact U|]. destruct Q as (NB & Wm & Rm).
        split; [rewrite <- Bd; exact NB|]. exists m. split; [|auto].
        apply (runs_to_bind (calculate_firsts lay g) _ (Ok fm) _ R). cbv beta.
        apply (runs_to_bind (fun n => change_loop _ n _) (fun _ f => Ret (Ok (cm_into_inner f))) m _ Rr). apply runs_to_ret.
      + right. left. split; [exact U|]. split; [apply Bd; exact Q|]. exists s.
        apply (runs_to_bind (calculate_firsts lay g) _ (Ok fm) _ R). cbv beta.
        apply (runs_to_bind_panic (fun n => change_loop _ n _) (fun _ f => Ret (Ok (cm_into_inner f))) s Rr).
  Qed.

  Lemma follows_ok_inv m : runs_to (calculate_follows lay g) (Ret (Ok m)) ->
    forall A t, (exists s, bt_get A m = Some s /\ In t s) <-> folR (rhs_of g) A t.
  Proof.
    intro R. destruct follows_final as [[Am R']|[(U & _ & s & R')|(U & _ & m' & R' & _ & Q)]];
      pose proof (runs_to_fun _ _ _ R R') as E; try discriminate. injection E as ->. exact Q.
  Qed.
  Lemma follows_sound m A t s : runs_to (calculate_follows lay g) (Ret (Ok m)) ->
    bt_get A m = Some s -> In t s -> exists H' rhs, rhs_of g H' rhs /\ follow_from (rhs_of g) H' A t.
  Proof.
    intros R G I. apply folR_sound. apply (follows_ok_inv m R). exists s. auto.
  Qed.
  Lemma follows_exact m : runs_to (calculate_follows lay g) (Ret (Ok m)) ->
    forall A t, (exists s, bt_get A m = Some s /\ In t s) <-> adjacent_follow (rhs_of g) A t.
  Proof. intros R A t. rewrite adjacent_follow_iff. apply (follows_ok_inv m R). Qed.
  Lemma follows_complete m H' A t : runs_to (calculate_follows lay g) (Ret (Ok m)) ->
    (forall Y pre B X post, rhs_of g Y (pre ++ NonTerm B :: NonTerm X :: post) -> ~ derives_empty g X) ->
    follow_from (rhs_of g) H' A t -> exists s, bt_get A m = Some s /\ In t s.
  Proof.
    intros R NF F. apply (follows_ok_inv m R). apply (folG_folR (rhs_of g) NF). exact (folG_complete (rhs_of g) H' A t F).
  Qed.
  Lemma follows_verdict :
    (runs_to (calculate_follows lay g) (Ret (Err (FoFirst (FNullableError Ambiguity)))) <-> null_ambiguous g) /\
    ((exists s, runs_to (calculate_follows lay g) (Panic s)) <-> ~ null_ambiguous g /\ follows_undefined) /\
    ((exists m, runs_to (calculate_follows lay g) (Ret (Ok m))) <-> ~ null_ambiguous g /\ ~ follows_undefined).
  Proof.
    destruct follows_final as [[Am R]|[(U & Ud & s & R)|(U & Ud & m & R & _)]];
      (split; [|split]); split; intro Q; try tauto;
      try (pose proof (runs_to_fun _ _ _ R Q); discriminate);
      try (destruct Q as (x & Q)); try (pose proof (runs_to_fun _ _ _ R Q); discriminate); eauto.
  Qed.
End Final.

Lemma built_follow : built ex_follow_g.
Proof. exists 0, ex_follow. apply (build_vm _ _ 10); [vm_compute; reflexivity | discriminate]. Qed.
Lemma built_follow_panic : built ex_follow_panic_g.
Proof. exists 0, ex_follow_panic. apply (build_vm _ _ 10); [vm_compute; reflexivity | discriminate]. Qed.

Lemma firsts_absent_example : exists (g : Grammar nat nat nat nat) m A r,
  built g /\ in_memory g ex_lay /\ runs_to (calculate_firsts ex_lay g) (Ret (Ok m)) /\ try_get_rule g A = Some r /\ firsts_get m A = None.
Proof.
  exists ex_null_g. eexists. exists 1. eexists. split; [exact built_null|]. split; [apply ex_lay_mem; vm_compute; reflexivity|]. split; [|split; [reflexivity|]].
  - apply (runs_to_mono _ 10); [apply calculate_firsts_mono|vm_compute; reflexivity|discriminate].
  - vm_compute. reflexivity.
Qed.

Lemma follows_incomplete_example : exists (g : Grammar nat nat nat nat) m,
  built g /\ in_memory g ex_lay /\ runs_to (calculate_follows ex_lay g) (Ret (Ok m)) /\
  follow_from (rhs_of g) (start_nt g) 1 7 /\ ~ exists s, bt_get 1 m = Some s /\ In 7 s.
Proof.
  exists ex_follow_g. eexists. split; [exact built_follow|]. split; [apply ex_lay_mem; vm_compute; reflexivity|]. split; [|split].
  - apply (runs_to_mono _ 10); [apply calculate_follows_mono|vm_compute; reflexivity|discriminate].
  - exists [], []. simpl.
    apply (df_trans _ _ [NonTerm 1; NonTerm 2; Term 7]).
    + apply df_rule. exists (Build_ProdInner 10 0 [Build_ProdElement None (NonTerm 1);
                                                  Build_ProdElement None (NonTerm 2);
                                                  Build_ProdElement None (Term 7)]).
      split; [|reflexivity]. eexists. split; [left; reflexivity|]. left. reflexivity.
    + apply (df_app _ [NonTerm 1] [NonTerm 1] [NonTerm 2; Term 7] [Term 7]); [apply df_refl|].
      apply (df_app _ [NonTerm 2] [] [Term 7] [Term 7]); [|apply df_refl].
      apply df_rule. exists (Build_ProdInner 12 0 []). split; [|reflexivity]. eexists.
      split; [right; right; left; reflexivity|]. left. reflexivity.
  - intros (s & G & I). vm_compute in G. injection G as <-. simpl in I. destruct I as [I|[]]. discriminate.
Qed.

Lemma follows_panic_example : exists (g : Grammar nat nat nat nat) s,
  built g /\ in_memory g ex_lay /\ runs_to (calculate_follows ex_lay g) (Panic s).
Proof.
  exists ex_follow_panic_g. eexists. split; [exact built_follow_panic|]. split; [apply ex_lay_mem; vm_compute; reflexivity|].
  apply (runs_to_mono _ 10); [apply calculate_follows_mono|vm_compute; reflexivity|discriminate].
Qed.

(** A grammar without empty bodies has no nullable nonterminals; the expression grammar is one. *)
Lemma no_empty_body_nullfree {T NT AK AV} (g : Grammar T NT AK AV) :
  (forall A, ~ rhs_of g A []) -> forall A, ~ derives_empty g A.
Proof.
  intros N A D. unfold derives_empty, lang in D.
  assert (X : forall es w, gen (rhs_of g) es w -> w = [] -> es = []).
  { induction 1 as [|t es w G IH|A' rhs es u w P G1 IH1 G2 IH2]; intro E; [reflexivity | discriminate|].
    apply app_eq_nil in E. destruct E as [E1 E2]. rewrite (IH1 E1) in P. destruct (N A' P). }
  discriminate (X _ _ D eq_refl).
Qed.
Lemma ex_expr_nullfree A : ~ derives_empty ex_expr_g A.
Proof.
  revert A. apply no_empty_body_nullfree. intros A (p & (r & Ir & Ip) & E).
  destruct Ir as [[= <- <-]|[[= <- <-]|[]]]; simpl in Ip; destruct Ip as [<-|[<-|[]]]; discriminate.
Qed.
