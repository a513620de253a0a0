(** Facts about [Model/StartGrammar.v]. *)
From Coq Require Import String List Arith Lia Bool.
From Verif.Model Require Import Ord BTree Outcome Utils Grammar StartGrammar.
From Verif.Spec Require Import Reach Cfg BuildSpec.
From Verif.Proofs Require Import OrdFacts BTreeFacts LoopFacts UtilsFacts GrammarFacts.
Import ListNotations.

#[export] Instance TotalPre_StreamTerminal {T} `{TotalPre T} : TotalPre (StreamTerminal T).
Proof.
  constructor; unfold cmp, Ord_StreamTerminal.
  - intros [|x]; [reflexivity | apply cmp_refl].
  - intros [|x] [|y]; try reflexivity; apply cmp_sym.
  - intros [|x] [|y] [|z]; try congruence; apply cmp_lt_trans.
  - intros [|x] [|y] [|z] E; try discriminate; try reflexivity; apply cmp_eq_compat; exact E.
Qed.
#[export] Instance OrdEq_StreamTerminal {T} `{OrdEq T} : OrdEq (StreamTerminal T).
Proof.
  constructor; [exact _|]. intros [|x] [|y] E; unfold cmp, Ord_StreamTerminal in E; try discriminate;
    [reflexivity|]. apply cmp_eq in E; subst; reflexivity.
Qed.
#[export] Instance TotalPre_StartNonTerminal {T} `{TotalPre T} : TotalPre (StartNonTerminal T).
Proof.
  constructor; unfold cmp, Ord_StartNonTerminal.
  - intros [|x]; [reflexivity | apply cmp_refl].
  - intros [|x] [|y]; try reflexivity; apply cmp_sym.
  - intros [|x] [|y] [|z]; try congruence; apply cmp_lt_trans.
  - intros [|x] [|y] [|z] E; try discriminate; try reflexivity; apply cmp_eq_compat; exact E.
Qed.
#[export] Instance OrdEq_StartNonTerminal {T} `{OrdEq T} : OrdEq (StartNonTerminal T).
Proof.
  constructor; [exact _|]. intros [|x] [|y] E; unfold cmp, Ord_StartNonTerminal in E; try discriminate;
    [reflexivity|]. apply cmp_eq in E; subst; reflexivity.
Qed.
#[export] Instance TotalPre_StartActionKey {T} `{TotalPre T} : TotalPre (StartActionKey T).
Proof.
  constructor; unfold cmp, Ord_StartActionKey.
  - intros [|x]; [reflexivity | apply cmp_refl].
  - intros [|x] [|y]; try reflexivity; apply cmp_sym.
  - intros [|x] [|y] [|z]; try congruence; apply cmp_lt_trans.
  - intros [|x] [|y] [|z] E; try discriminate; try reflexivity; apply cmp_eq_compat; exact E.
Qed.
#[export] Instance OrdEq_StartActionKey {T} `{OrdEq T} : OrdEq (StartActionKey T).
Proof.
  constructor; [exact _|]. intros [|x] [|y] E; unfold cmp, Ord_StartActionKey in E; try discriminate;
    [reflexivity|]. apply cmp_eq in E; subst; reflexivity.
Qed.

Section Wrap.
  Context {T NT AK AV : Type} `{OrdEq NT}.
  Variable g : Grammar T NT AK AV.
  Hypothesis Bg : accepted g.

  Let calls := wrap_start_call g :: map wrap_rule_call (rules g).
  Let g' : StartGrammar T NT AK AV := calls_grammar Start calls.

  Definition wrap_prod (p : ProdInner T NT AK AV)
    : ProdInner (StreamTerminal T) (StartNonTerminal NT) (StartActionKey AK) (StartActionValue AV) :=
    Build_ProdInner (ActionKey (pi_action_key p)) (ActionValue (pi_action_value p))
      (map wrap_elem (pi_elements p)).
  Definition start_prod_inner
    : ProdInner (StreamTerminal T) (StartNonTerminal NT) (StartActionKey AK) (StartActionValue AV) :=
    Build_ProdInner StartKey StartValue
      [Build_ProdElement (Some "start"%string) (NonTerm (NTerm (start_nt g)));
       Build_ProdElement None (Term EndOfStream)].

  Lemma wrap_rule_spec r :
    spec_rule (wrap_rule_call r) = Build_RuleInner (NTerm (r_head r)) (map wrap_prod (r_prods r)).
  Proof.
    unfold wrap_rule_call, spec_rule. f_equal. rewrite map_map. unfold rule_prods.
    generalize 0. induction (r_prods r) as [|p ps IH]; intro n; simpl; [reflexivity|].
    rewrite IH. reflexivity.
  Qed.

  Lemma rules_sorted : sorted (map r_head (rules g)).
  Proof.
    assert (E : map r_head (rules g) = bt_keys (rule_set g)).
    { unfold rules, bt_values, bt_keys. rewrite map_map. apply map_ext_in. intros [A r] I. simpl.
      exact (proj2 (acc_wf g Bg) A r I). }
    rewrite E. exact (proj1 (acc_wf g Bg)).
  Qed.

  Lemma wrap_last A rcs :
    last_rule calls A rcs <->
    match A with
    | Start => AddRule Start rcs = wrap_start_call g
    | NTerm B => exists r, In (B, r) (rule_set g) /\ AddRule A rcs = wrap_rule_call r
    end.
  Proof.
    unfold calls. split.
    - intros (pre & post & E & F).
      assert (I : In (AddRule A rcs) (wrap_start_call g :: map wrap_rule_call (rules g))).
      { rewrite E. apply in_or_app. right. left. reflexivity. }
      destruct I as [I|I].
      + unfold wrap_start_call in I. injection I as <- <-. reflexivity.
      + apply in_map_iff in I. destruct I as (r & E' & I). apply (rules_In g r (acc_wf g Bg)) in I.
        unfold wrap_rule_call in E'. injection E' as E1 E2. subst A. exists r. split; [exact I|].
        unfold wrap_rule_call. rewrite E2. reflexivity.
    - destruct A as [|B].
      + intros E. exists [], (map wrap_rule_call (rules g)). split; [rewrite E; reflexivity|].
        intros rcs' I. apply in_map_iff in I. destruct I as (r & E' & _). discriminate.
      + intros (r & I & E). assert (Hr : r_head r = B) by exact (proj2 (acc_wf g Bg) B r I).
        subst B. apply (rules_In g r (acc_wf g Bg)) in I. apply in_split in I.
        destruct I as (l1 & l2 & S). rewrite S, map_app. simpl. rewrite <- E.
        exists (wrap_start_call g :: map wrap_rule_call l1), (map wrap_rule_call l2).
        split; [reflexivity|]. intros rcs' I. apply in_map_iff in I. destruct I as (r' & E' & I).
        unfold wrap_rule_call in E'. injection E' as E1 _.
        pose proof rules_sorted as Sd. rewrite S, map_app in Sd. simpl in Sd.
        apply sorted_NoDup in Sd. apply NoDup_remove_2 in Sd. apply Sd. apply in_or_app. right.
        rewrite <- E1. apply in_map. exact I.
  Qed.

  Lemma wrap_In A r :
    In (A, r) (rule_set g') <->
    match A with
    | Start => r = Build_RuleInner Start [start_prod_inner]
    | NTerm B => exists r0, In (B, r0) (rule_set g) /\
                   r = Build_RuleInner (NTerm B) (map wrap_prod (r_prods r0))
    end.
  Proof.
    unfold g'. rewrite calls_In. destruct A as [|B].
    - split.
      + intros (rcs & L & ->). apply wrap_last in L. injection L as ->. reflexivity.
      + intros ->. exists [AddProd StartKey StartValue
         [AddNamedNonterm "start"%string (NTerm (start_nt g)); AddTerm EndOfStream]].
        split; [|reflexivity]. apply wrap_last. reflexivity.
    - split.
      + intros (rcs & L & ->). apply wrap_last in L. destruct L as (r0 & I & E). exists r0.
        split; [exact I|]. pose proof (wrap_rule_spec r0) as S. rewrite <- E in S. simpl in S.
        rewrite S. f_equal. f_equal. exact (proj2 (acc_wf g Bg) B r0 I).
      + intros (r0 & I & ->). pose proof (wrap_rule_spec r0) as S.
        destruct (wrap_rule_call r0) as [h rcs] eqn:E.
        assert (Hh : h = NTerm (r_head r0)) by (unfold wrap_rule_call in E; congruence).
        rewrite (proj2 (acc_wf g Bg) B r0 I) in Hh. subst h.
        exists rcs. split.
        * apply wrap_last. exists r0. auto.
        * simpl in S. injection S as _ S. rewrite S. reflexivity.
  Qed.

  Lemma wrap_elems_nt p B : In (NonTerm B) (elements_iter (wrap_prod p)) <->
    exists B0, B = NTerm B0 /\ In (NonTerm B0) (elements_iter p).
  Proof.
    unfold elements_iter, wrap_prod. simpl. rewrite map_map. simpl. split.
    - intro I. apply in_map_iff in I. destruct I as (e & E & I).
      destruct (pe_elem e) as [t|n] eqn:Q; simpl in E; [discriminate|]. injection E as <-.
      exists n. split; [reflexivity|]. rewrite <- Q. apply in_map. exact I.
    - intros (B0 & -> & I). apply in_map_iff in I. destruct I as (e & E & I).
      apply in_map_iff. exists e. rewrite E. auto.
  Qed.

  Lemma wrap_mentions A B :
    gmentions g' A B <->
    match A with
    | Start => B = NTerm (start_nt g)
    | NTerm A0 => exists B0, B = NTerm B0 /\ gmentions g A0 B0
    end.
  Proof.
    unfold gmentions at 1. destruct A as [|A0].
    - split.
      + intros (r & p & I & J & K). apply wrap_In in I. subst r. destruct J as [<-|[]].
        simpl in K. destruct K as [K|[K|[]]]; congruence.
      + intros ->. exists (Build_RuleInner Start [start_prod_inner]), start_prod_inner.
        split; [apply wrap_In; reflexivity|]. split; [left; reflexivity|]. left. reflexivity.
    - split.
      + intros (r & p & I & J & K). apply wrap_In in I. destruct I as (r0 & I & ->). simpl in J.
        apply in_map_iff in J. destruct J as (p0 & <- & J). apply wrap_elems_nt in K.
        destruct K as (B0 & -> & K). exists B0. split; [reflexivity|]. exists r0, p0. auto.
      + intros (B0 & -> & r0 & p0 & I & J & K).
        exists (Build_RuleInner (NTerm A0) (map wrap_prod (r_prods r0))), (wrap_prod p0).
        split; [apply wrap_In; exists r0; auto|]. split; [apply in_map; exact J|].
        apply wrap_elems_nt. exists B0. auto.
  Qed.

  Lemma wrap_defined A :
    gdefined g' A <-> match A with Start => True | NTerm A0 => gdefined g A0 end.
  Proof.
    unfold gdefined, bt_keys. rewrite in_map_iff. split.
    - intros ([A' r] & <- & I). apply wrap_In in I. simpl. destruct A' as [|A0]; [exact Logic.I|].
      destruct I as (r0 & I & _). apply (in_map fst) in I. exact I.
    - destruct A as [|A0].
      + intros _. exists (Start, Build_RuleInner Start [start_prod_inner]). split; [reflexivity|].
        apply wrap_In. reflexivity.
      + intro D. apply in_map_iff in D. destruct D as ([A1 r0] & <- & I).
        exists (NTerm A1, Build_RuleInner (NTerm A1) (map wrap_prod (r_prods r0))). split; [reflexivity|].
        apply wrap_In. exists r0. auto.
  Qed.

  Lemma wrap_star A B : star (gmentions g) A B -> star (gmentions g') (NTerm A) (NTerm B).
  Proof.
    intro S. induction S as [|y z _ IH M]; [apply star_refl|]. apply (star_step _ _ (NTerm y)); [exact IH|].
    apply wrap_mentions. exists z. auto.
  Qed.

  Lemma wrap_accepted : accepted g'.
  Proof.
    constructor.
    - apply calls_rs_wf.
    - apply wrap_defined. exact Logic.I.
    - intros A B M. apply wrap_mentions in M. apply wrap_defined. destruct A as [|A0].
      + subst B. exact (acc_start g Bg).
      + destruct M as (B0 & -> & M). exact (acc_mentioned g Bg _ _ M).
    - intros A B M.
      assert (S0 : star (gmentions g') Start (NTerm (start_nt g))).
      { apply (star_step _ _ Start); [apply star_refl|]. apply wrap_mentions. reflexivity. }
      apply wrap_mentions in M. destruct A as [|A0].
      + subst B. exists Start. split; [apply star_refl | apply wrap_mentions; reflexivity].
      + destruct M as (B0 & -> & M). destruct (acc_reach g Bg _ _ M) as (C & S & M').
        exists (NTerm C). split.
        * apply (star_trans _ _ (NTerm (start_nt g))); [exact S0|]. apply wrap_star. exact S.
        * apply wrap_mentions. exists B0. auto.
    - intros A r I E. apply wrap_In in I. destruct A as [|A0].
      + subst r. discriminate.
      + destruct I as (r0 & I & ->). simpl in E. apply map_eq_nil in E. exact (acc_prods g Bg _ _ I E).
  Qed.

  Lemma wrap_runs : runs_to (wrap_grammar_with_start g) (Ret (Ok g')).
  Proof.
    destruct (accepted_check g' wrap_accepted) as [_ [n R]]. split; [discriminate|].
    exists n. intros fuel L. unfold wrap_grammar_with_start. rewrite build_unfold.
    fold calls. fold g'. rewrite (R fuel L). reflexivity.
  Qed.

  (** ** Languages *)
  Definition wrap_sym (e : Elem T NT) : Elem (StreamTerminal T) (StartNonTerminal NT) :=
    base_elem_to_start_elem e.

  Lemma wrap_rhs A rhs :
    rhs_of g' A rhs <->
    match A with
    | Start => rhs = [NonTerm (NTerm (start_nt g)); Term EndOfStream]
    | NTerm A0 => exists rhs0, rhs_of g A0 rhs0 /\ rhs = map wrap_sym rhs0
    end.
  Proof.
    unfold rhs_of, prod_of. destruct A as [|A0].
    - split.
      + intros (p & (r & I & J) & ->). apply wrap_In in I. subst r. destruct J as [<-|[]]. reflexivity.
      + intros ->. exists start_prod_inner. split; [|reflexivity].
        exists (Build_RuleInner Start [start_prod_inner]). split; [apply wrap_In; reflexivity|left; reflexivity].
    - split.
      + intros (p & (r & I & J) & ->). apply wrap_In in I. destruct I as (r0 & I & ->). simpl in J.
        apply in_map_iff in J. destruct J as (p0 & <- & J).
        exists (map pe_elem (pi_elements p0)). split.
        * exists p0. split; [exists r0; auto | reflexivity].
        * simpl. rewrite !map_map. reflexivity.
      + intros (rhs0 & (p0 & (r0 & I & J) & ->) & ->). exists (wrap_prod p0). split.
        * exists (Build_RuleInner (NTerm A0) (map wrap_prod (r_prods r0))).
          split; [apply wrap_In; exists r0; auto | apply in_map; exact J].
        * simpl. rewrite !map_map. reflexivity.
  Qed.

  Lemma wrap_gen_fwd es w : gen (rhs_of g) es w -> gen (rhs_of g') (map wrap_sym es) (map STerm w).
  Proof.
    intro G. induction G as [|t es w _ IH|A rhs es u w Pr _ IH1 _ IH2]; simpl.
    - constructor.
    - constructor. exact IH.
    - rewrite map_app. apply gen_nonterm with (rhs := map wrap_sym rhs); [|exact IH1|exact IH2].
      apply wrap_rhs. exists rhs. auto.
  Qed.
  Lemma wrap_gen_bwd es' w' : gen (rhs_of g') es' w' -> forall es, es' = map wrap_sym es ->
    exists w, w' = map STerm w /\ gen (rhs_of g) es w.
  Proof.
    intro G. induction G as [|t es' w' _ IH|A rhs es' u w' Pr _ IH1 _ IH2]; intros es E.
    - symmetry in E. apply map_eq_nil in E. subst. exists []. split; [reflexivity|constructor].
    - destruct es as [|e es]; [discriminate|]. simpl in E. injection E as E1 E2.
      destruct e as [t0|n]; simpl in E1; [|discriminate]. injection E1 as ->.
      destruct (IH es E2) as (w & -> & G). exists (t0 :: w). split; [reflexivity|]. constructor. exact G.
    - destruct es as [|e es]; [discriminate|]. simpl in E. injection E as E1 E2.
      destruct e as [t0|n]; simpl in E1; [discriminate|]. injection E1 as ->.
      apply wrap_rhs in Pr. destruct Pr as (rhs0 & Pr & ->).
      destruct (IH1 rhs0 eq_refl) as (u0 & -> & G1). destruct (IH2 es E2) as (w0 & -> & G2).
      exists (u0 ++ w0). split; [rewrite map_app; reflexivity|].
      exact (gen_nonterm _ n rhs0 es u0 w0 Pr G1 G2).
  Qed.

  Lemma wrap_lang_nt A w' :
    lang (rhs_of g') (NTerm A) w' <-> exists w, w' = map STerm w /\ lang (rhs_of g) A w.
  Proof.
    split.
    - intro G. exact (wrap_gen_bwd _ _ G [NonTerm A] eq_refl).
    - intros (w & -> & G). exact (wrap_gen_fwd _ _ G).
  Qed.
  Lemma wrap_lang_start w' :
    lang (rhs_of g') Start w' <->
    exists w, w' = map STerm w ++ [EndOfStream] /\ lang (rhs_of g) (start_nt g) w.
  Proof.
    unfold lang at 1. split.
    - intro G. inversion G as [| |A rhs es u w Pr Gr Gn]; subst. apply wrap_rhs in Pr. subst rhs.
      inversion Gn; subst. rewrite app_nil_r.
      inversion Gr as [| |A rhs es u1 w1 Pr1 Gr1 Gn1]; subst.
      inversion Gn1 as [|t es w2 Gn2|]; subst. inversion Gn2; subst.
      assert (L : lang (rhs_of g') (NTerm (start_nt g)) u1).
      { unfold lang. rewrite <- (app_nil_r u1). apply gen_nonterm with (rhs := rhs); [exact Pr1|exact Gr1|constructor]. }
      apply wrap_lang_nt in L. destruct L as (w & -> & L). exists w. auto.
    - intros (w & -> & L). rewrite <- (app_nil_r (map STerm w ++ [EndOfStream])).
      apply gen_nonterm with (rhs := [NonTerm (NTerm (start_nt g)); Term EndOfStream]).
      + apply wrap_rhs. reflexivity.
      + assert (L' : lang (rhs_of g') (NTerm (start_nt g)) (map STerm w)) by (apply wrap_lang_nt; exists w; auto).
        inversion L' as [| |A rhs es u w1 Pr Gr Gn]; subst. inversion Gn; subst. rewrite app_nil_r.
        apply gen_nonterm with (rhs := rhs); [exact Pr|exact Gr|]. constructor. constructor.
      + constructor.
  Qed.

  Lemma wrap_start_rule : start_rule g' = Ret (Build_RuleInner Start [start_prod_inner]).
  Proof.
    unfold start_rule, get_rule, try_get_rule.
    assert (G : bt_get Start (rule_set g') = Some (Build_RuleInner Start [start_prod_inner])).
    { apply bt_get_iff; [apply calls_rs_wf|]. apply wrap_In. reflexivity. }
    rewrite G. reflexivity.
  Qed.
  Lemma wrap_start_prod :
    start_prod g' = Ret (Build_Prod Start 0 start_prod_inner).
  Proof. unfold start_prod. rewrite wrap_start_rule. reflexivity. Qed.
End Wrap.

(** A grammar produced by the wrapper. *)
Definition wrapped {T NT AK AV} `{Ord NT} (g : Grammar T NT AK AV) (sg : StartGrammar T NT AK AV) : Prop :=
  runs_to (wrap_grammar_with_start g) (Ret (Ok sg)).

Section Wrapped.
  Context {T NT AK AV : Type} `{OrdEq NT}.
  Lemma wrapped_eq (g : Grammar T NT AK AV) sg : accepted g -> wrapped g sg ->
    sg = calls_grammar Start (wrap_start_call g :: map wrap_rule_call (rules g)).
  Proof.
    intros A W. pose proof (runs_to_fun _ _ _ W (wrap_runs g A)) as E. injection E as ->. reflexivity.
  Qed.
End Wrapped.
