(** Proofs about the meaning of parse states (C102). *)
From Coq Require Import String List Arith Lia Permutation NArith Sorted.
From Verif.Model Require Import Ord BTree Outcome Grammar Nullable Firsts State Lalr.
From Verif.Spec Require Import Reach Cfg NullSpec BuildSpec StateSpec LalrSpec LalrMeaning NonNullSpec.
From Verif.Proofs Require Import OrdFacts BTreeFacts LoopFacts GrammarFacts BuildMore CfgFacts NullableFacts NullableMore FirstsMore
  StateFacts StateSets LalrFacts LalrMore LalrMain LalrActions NullFreeFacts.
Import ListNotations.

Section Forms.
  Context {T NT : Type}.
  Variable P : NT -> list (Elem T NT) -> Prop.
  (** Derivations of forms, tree by tree. *)
  Inductive fg : list (Elem T NT) -> list (Elem T NT) -> Prop :=
  | fg_nil : fg [] []
  | fg_keep e es f : fg es f -> fg (e :: es) (e :: f)
  | fg_rule A rhs es u f : P A rhs -> fg rhs u -> fg es f -> fg (NonTerm A :: es) (u ++ f).
  Lemma fg_refl es : fg es es.
  Proof. induction es; constructor; auto. Qed.
  Lemma fg_app a a' b b' : fg a a' -> fg b b' -> fg (a ++ b) (a' ++ b').
  Proof. induction 1; simpl; intro B; [exact B|constructor; auto|]. rewrite <- app_assoc. econstructor; eauto. Qed.
  Lemma fg_app_inv a : forall b f, fg (a ++ b) f -> exists f1 f2, f = f1 ++ f2 /\ fg a f1 /\ fg b f2.
  Proof.
    induction a as [|e a IH]; simpl; intros b f F; [exists [], f; split; [reflexivity|split; [constructor|exact F]]|].
    inversion F as [|e' es f' F'|A rhs es u f' Pr Fr F']; subst.
    - destruct (IH _ _ F') as (f1 & f2 & -> & A1 & A2). exists (e :: f1), f2. split; [reflexivity|]. split; [constructor; exact A1|exact A2].
    - destruct (IH _ _ F') as (f1 & f2 & -> & A1 & A2). exists (u ++ f1), f2. split; [apply app_assoc|]. split; [econstructor; eauto|exact A2].
  Qed.
  Lemma fg_sound es f : fg es f -> derives_form P es f.
  Proof.
    induction 1 as [|e es f F IH|A rhs es u f Pr F IH F' IH']; [apply df_refl|apply (df_app P [e] [e]); [apply df_refl|exact IH]|].
    apply (df_app P [NonTerm A] u); [|exact IH']. eapply df_trans; [apply df_rule; exact Pr|exact IH].
  Qed.
  Lemma fg_step a b c : sstep P a b -> fg b c -> fg a c.
  Proof.
    intros [pre A rhs post Pr] F. apply fg_app_inv in F. destruct F as (f1 & f2 & -> & F1 & F2). apply fg_app_inv in F2. destruct F2 as (f2' & f3 & -> & F2 & F3).
    apply fg_app; [exact F1|]. econstructor; eauto.
  Qed.
  Lemma fg_complete es f : derives_form P es f -> fg es f.
  Proof.
    intro D. enough (X : forall c, fg f c -> fg es c) by (apply X, fg_refl). induction D as [|b c D IH S]; [auto|]. intros d F. apply IH. eapply fg_step; eauto.
  Qed.
  Lemma fg_empty es : fg es [] -> gen P es [].
  Proof. intro F. apply gen_iff_derives. exact (fg_sound _ _ F). Qed.
End Forms.

Section Lr1.
  Context {T NT AK AV : Type} `{OrdEq T} `{OrdEq NT}.
  Variable g : Grammar T NT AK AV.
  Hypothesis B : built g.
  Variable items : list (ProdState T NT AK AV * list T).
  Local Notation item := (fun s ts => In (s, ts) items).
  Hypothesis Good : forall s ts, In (s, ts) items -> In (ps_prod s) (prods g).

  Lemma start_todo (p : Prod T NT AK AV) : todo (Build_ProdState p 0) = elements p.
  Proof. reflexivity. Qed.

  Lemma lr1_in s t : lr1 g item s t -> In (ps_prod s) (prods g).
  Proof. destruct 1 as [s ts t I It|s t X rest p b more L Et Ip Eh D]; [eapply Good; eauto|exact Ip]. Qed.
  Lemma lr1_form s t : lr1 g item s t -> exists s0 ts t0 more, In (s0, ts) items /\ In t0 ts /\
    derives_form (rhs_of g) (todo s0 ++ [Term t0]) (todo s ++ Term t :: more).
  Proof.
    induction 1 as [s ts t I It|s t X rest p b more L IH Et Ip Eh D].
    - exists s, ts, t, []. split; [exact I|]. split; [exact It|apply df_refl].
    - destruct IH as (s0 & ts & t0 & m & I & It & D0). exists s0, ts, t0, (more ++ m). split; [exact I|]. split; [exact It|].
      eapply df_trans; [exact D0|]. rewrite Et, start_todo. cbn [app].
      replace (rest ++ Term t :: m) with ((rest ++ [Term t]) ++ m) by (rewrite <- app_assoc; reflexivity).
      change (Term b :: more ++ m) with ((Term b :: more) ++ m).
      apply (df_app (rhs_of g) [NonTerm X] (elements p)); [apply df_rule; subst X; apply prods_rhs; [apply built_accepted; exact B|exact Ip]|].
      apply df_app; [exact D|apply df_refl].
  Qed.
  Lemma lr1_expects s t : lr1 g item s t -> (exists ts, In (s, ts) items /\ In t ts) \/ (In (ps_prod s) (prods g) /\ ps_index s = 0 /\ expects g items (p_head (ps_prod s)) t).
  Proof.
    destruct 1 as [s ts t I It|s t X rest p b more L Et Ip Eh D]; [left; eauto|right]. split; [exact Ip|]. split; [reflexivity|].
    destruct (lr1_form _ _ L) as (s0 & ts & t0 & m & I & It & D0). exists s0, ts, t0, (more ++ m). split; [exact I|]. split; [exact It|].
    eapply df_trans; [exact D0|]. rewrite Et. cbn [app ps_prod]. subst X.
    replace (rest ++ Term t :: m) with ((rest ++ [Term t]) ++ m) by (rewrite <- app_assoc; reflexivity).
    change (Term b :: more ++ m) with ((Term b :: more) ++ m).
    apply (df_app (rhs_of g) [NonTerm (p_head p)] [NonTerm (p_head p)]); [apply df_refl|]. apply df_app; [exact D|apply df_refl].
  Qed.

  Hypothesis NF : forall A, ~ derives_empty g A.
  Hypothesis Pd : productive g.
  Lemma nf_nil es : gen (rhs_of g) es [] -> es = [].
  Proof. intro G. apply (nullfree_gen (rhs_of g)) in G; [exact G|]. exact NF. Qed.
  Lemma todo_word s : In (ps_prod s) (prods g) -> exists w, gen (rhs_of g) (todo s) w.
  Proof.
    intro I. destruct (body_has_word g B (p_head (ps_prod s)) (elements (ps_prod s)) Pd) as (w & G); [apply prods_rhs; [apply built_accepted; exact B|exact I]|].
    rewrite <- (firstn_skipn (ps_index s) (elements (ps_prod s))) in G. apply gen_app_inv in G. destruct G as (w1 & w2 & _ & _ & G). eauto.
  Qed.

  Lemma lr1_reach es f : fg (rhs_of g) es f -> forall s t0, lr1 g item s t0 -> todo s = es ->
    (forall A t more, f = NonTerm A :: Term t :: more -> forall p, In p (prods g) -> p_head p = A -> lr1 g item (Build_ProdState p 0) t) /\
    (forall A, f = [NonTerm A] -> forall p, In p (prods g) -> p_head p = A -> lr1 g item (Build_ProdState p 0) t0).
  Proof.
    induction 1 as [|e es f F _|X rhs es u f Pr Fr IH F _]; intros s t0 L Et.
    - split; intros; discriminate.
    - split.
      + intros A t more [= -> ->] p Ip Eh. eapply lr1_step; [exact L|exact Et|exact Ip|exact Eh|].
        apply (df_app (rhs_of g) es (Term t :: more) [Term t0] [Term t0]); [apply fg_sound; exact F|apply df_refl].
      + intros A [= -> ->] p Ip Eh. apply fg_empty, nf_nil in F. subst es. eapply lr1_step; [exact L|exact Et|exact Ip|exact Eh|apply df_refl].
    - destruct (rhs_prods g (built_rs_wf g B) X rhs Pr) as (p' & Ip' & Eh' & Ee').
      assert (Ne : u <> []).
      { intros ->. apply (NF X). apply lang_iff. exists rhs. split; [exact Pr|]. apply fg_empty. exact Fr. }
      assert (New : forall b more, derives_form (rhs_of g) (es ++ [Term t0]) (Term b :: more) -> lr1 g item (Build_ProdState p' 0) b)
        by (intros b more D; eapply lr1_step; [exact L|exact Et|exact Ip'|exact Eh'|exact D]).
      destruct u as [|a u]; [contradiction|]. split.
      + intros A t more E p Ip Eh. injection E as -> E. destruct u as [|x u].
        * simpl in E. subst f. assert (N : lr1 g item (Build_ProdState p' 0) t).
          { apply (New t (more ++ [Term t0])). apply (df_app (rhs_of g) es (Term t :: more) [Term t0] [Term t0]); [apply fg_sound; exact F|apply df_refl]. }
          exact (proj2 (IH _ _ N Ee') A eq_refl p Ip Eh).
        * injection E as -> E. destruct (todo_word s (lr1_in _ _ L)) as (w & G). rewrite Et in G. apply (gen_app_inv _ [NonTerm X] es) in G. destruct G as (w1 & w2 & _ & _ & G).
          assert (N : exists b, lr1 g item (Build_ProdState p' 0) b).
          { apply gen_derives in G. destruct w2 as [|b w2].
            - exists t0. apply (New t0 []). apply (df_app (rhs_of g) es [] [Term t0] [Term t0]); [exact G|apply df_refl].
            - exists b. apply (New b (map Term w2 ++ [Term t0])). apply (df_app (rhs_of g) es (map Term (b :: w2)) [Term t0] [Term t0]); [exact G|apply df_refl]. }
          destruct N as (b & N). exact (proj1 (IH _ _ N Ee') A t u eq_refl p Ip Eh).
      + intros A E p Ip Eh. injection E as -> E. apply app_eq_nil in E. destruct E as [-> ->]. apply fg_empty, nf_nil in F. subst es.
        exact (proj2 (IH _ _ (New t0 [] (df_refl _ _)) Ee') A eq_refl p Ip Eh).
  Qed.
  Lemma expects_lr1 p t : In p (prods g) -> expects g items (p_head p) t -> lr1 g item (Build_ProdState p 0) t.
  Proof.
    intros Ip (s & ts & t0 & more & I & It & D). apply fg_complete in D. apply fg_app_inv in D. destruct D as (f1 & f2 & E & F1 & F2).
    inversion F2 as [|e es f F3|]; subst. inversion F3; subst. pose proof (lr1_item g item s ts t0 I It) as L.
    destruct (lr1_reach _ _ F1 s t0 L eq_refl) as [R1 R2]. destruct f1 as [|a [|b f1]].
    - discriminate.
    - injection E as <- ->. exact (R2 _ eq_refl p Ip eq_refl).
    - injection E as <- <- ->. exact (R1 _ _ _ eq_refl p Ip eq_refl).
  Qed.

  Lemma nf_unamb : ~ null_ambiguous g.
  Proof.
    intros (A & i & j & p & q & Np & _ & _ & Ep & _). destruct Np as (r & I & Hn). apply (NF A). apply lang_iff.
    exists (map pe_elem (pi_elements p)). split; [|exact Ep]. exists p. split; [|reflexivity]. exists r. split; [exact I|]. exact (nth_error_In _ _ Hn).
  Qed.
  Lemma nf_defined (lay : layout NT) : lay_inj g lay -> forall s, In (ps_prod s) (prods g) -> ~ undefined g s.
  Proof.
    intros Inj s Is (A & C & rest & Et & F).
    destruct (firsts_result lay g Inj B) as (r & Rf & X). destruct r as [m|e]; [|exact (nf_unamb (proj2 X))].
    assert (Wd : exists t w, lang (rhs_of g) C (t :: w)).
    { destruct (todo_word s Is) as (w & G). rewrite Et in G. apply (gen_app_inv _ [NonTerm A]) in G. destruct G as (w1 & w2 & _ & _ & G).
      apply (gen_app_inv _ [NonTerm C]) in G. destruct G as ([|t u] & w3 & _ & G & _); [destruct (NF C G)|]. exists t, u. exact G. }
    destruct Wd as (t & w & L). assert (Fi : first_of (rhs_of g) C t) by (exists (map Term w); exact (gen_derives _ _ _ L)).
    destruct (firsts_present lay g Inj B m C t Rf Fi) as (s' & Gs). rewrite (proj2 (firsts_absent lay g Inj B m C Rf) F) in Gs. discriminate.
  Qed.
End Lr1.

Section Shift.
  Context {T NT AK AV : Type} `{OrdEq T} `{OrdEq NT}.
  Variable g : Grammar T NT AK AV.
  Hypothesis B : built g.
  Variable items : list (ProdState T NT AK AV * list T).

  Lemma todo_next (s : ProdState T NT AK AV) e rest : todo s = e :: rest -> todo (Build_ProdState (ps_prod s) (S (ps_index s))) = rest.
  Proof.
    unfold todo. cbn [ps_prod ps_index]. generalize (elements (ps_prod s)) as l. generalize (ps_index s) as n.
    induction n as [|n IH]; intros [|a l] E; simpl in *; try discriminate; [congruence|]. apply IH. exact E.
  Qed.
  Lemma continues_shift x s t rest : continues g items x s -> todo s = Term t :: rest -> continues g items (x ++ [t]) (Build_ProdState (ps_prod s) (S (ps_index s))).
  Proof.
    intros (s0 & ts0 & I & C) Et. exists s0, ts0. split; [exact I|]. pose proof (todo_next s _ _ Et) as En. destruct C as [(Ep & Ei & E0)|(y & z & more & -> & Ei & Ee & D)].
    - left. split; [exact Ep|]. split; [cbn [ps_index]; rewrite app_length; simpl; lia|]. rewrite En, E0, Et, map_app, <- app_assoc. reflexivity.
    - right. exists y, (z ++ [t]), more. split; [symmetry; apply app_assoc|]. split; [cbn [ps_index]; rewrite app_length; simpl; lia|]. split; [|exact D].
      rewrite En. cbn [ps_prod]. rewrite Ee, Et, map_app, <- app_assoc. reflexivity.
  Qed.
  Lemma continues_new x s X rest p : continues g items x s -> In (ps_prod s) (prods g) -> todo s = NonTerm X :: rest -> p_head p = X -> continues g items x (Build_ProdState p 0).
  Proof.
    intros (s0 & ts0 & I & C) Is Et Eh. exists s0, ts0. split; [exact I|]. right. destruct C as [(Ep & Ei & E0)|(y & z & more & -> & Ei & Ee & D)].
    - exists x, [], rest. split; [symmetry; apply app_nil_r|]. split; [reflexivity|]. split; [reflexivity|]. cbn [ps_prod]. rewrite E0, Et, Eh. apply df_refl.
    - exists (y ++ z), [], (rest ++ more). split; [symmetry; apply app_nil_r|]. split; [reflexivity|]. split; [reflexivity|]. cbn [ps_prod].
      eapply df_trans; [exact D|]. rewrite map_app, <- app_assoc. apply df_app; [apply df_refl|].
      replace (map Term z ++ NonTerm (p_head p) :: rest ++ more) with (elements (ps_prod s) ++ more) by (rewrite Ee, Et, Eh, <- app_assoc; reflexivity).
      apply (df_app (rhs_of g) [NonTerm (p_head (ps_prod s))] (elements (ps_prod s))); [|apply df_refl]. apply df_rule, prods_rhs; [apply built_accepted; exact B|exact Is].
  Qed.
  Lemma continues_closure x (item : ProdState T NT AK AV -> list T -> Prop) :
    (forall s ts, item s ts -> continues g items x s /\ In (ps_prod s) (prods g)) -> forall s, present g item s -> continues g items x s /\ In (ps_prod s) (prods g).
  Proof.
    intro It.
    destruct (closure_mut T NT AK AV g item
      (fun p t _ => (exists s ts, item s ts /\ ps_prod s = p) \/ (continues g items x (Build_ProdState p 0) /\ In p (prods g)))
      (fun s _ => continues g items x s /\ In (ps_prod s) (prods g)) (fun _ _ _ => True)) as (_ & X & _).
    - intros s ts t I _. left. eauto.
    - intros s X rest p t Pr [C Is] Et Ip Eh _ _. right. split; [|exact Ip]. eapply continues_new; eauto.
    - intros s ts I. exact (It s ts I).
    - intros p t C [(s & ts & I & E)|Y] N; [destruct (N s ts I E)|exact Y].
    - auto.
    - auto.
    - auto.
    - exact X.
  Qed.
End Shift.

Section Words.
  Context {T NT AK AV : Type} `{OrdEq T} `{OrdEq NT}.
  Variable g : Grammar T NT AK AV.
  Hypothesis B : built g.
  Hypothesis Pd : productive g.
  Definition wordy (es : list (Elem T NT)) : Prop := forall e, In e es -> exists w, gen (rhs_of g) [e] w.
  Lemma wordy_gen es : wordy es -> exists w, gen (rhs_of g) es w.
  Proof.
    induction es as [|e es IH]; intro X; [exists []; constructor|]. destruct (X e (or_introl eq_refl)) as (w & G).
    destruct IH as (v & G'); [intros x I; apply X; now right|]. exists (w ++ v). exact (gen_app _ [e] es w v G G').
  Qed.
  Lemma wordy_body A rhs : rhs_of g A rhs -> wordy rhs.
  Proof.
    intros Pr e I. destruct (body_has_word g B A rhs Pd Pr) as (w & G). apply in_split in I. destruct I as (a & b & ->).
    apply gen_app_inv in G. destruct G as (w1 & w2 & _ & _ & G). apply (gen_app_inv _ [e] b) in G. destruct G as (w3 & w4 & _ & G & _). eauto.
  Qed.
  Lemma wordy_form es f : derives_form (rhs_of g) es f -> wordy es -> wordy f.
  Proof.
    intro D. induction D as [|b c D IH S]; [auto|]. intro W. specialize (IH W). destruct S as [pre A rhs post Pr]. intros e I.
    apply in_app_or in I. destruct I as [I|I]; [apply IH; apply in_or_app; now left|]. apply in_app_or in I. destruct I as [I|I]; [exact (wordy_body A rhs Pr e I)|].
    apply IH. apply in_or_app. right. now right.
  Qed.
  Lemma gen_map_inv x : forall es w, gen (rhs_of g) (map Term x ++ es) w -> exists v, w = x ++ v.
  Proof. induction x as [|t x IH]; simpl; intros es w G; [eauto|]. inversion G as [|t' es' w' G'|]; subst. destruct (IH _ _ G') as (v & ->). eauto. Qed.
  Lemma form_prefix A rhs x more : rhs_of g A rhs -> derives_form (rhs_of g) rhs (map Term x ++ more) -> exists v, lang (rhs_of g) A (x ++ v).
  Proof.
    intros Pr D. destruct (wordy_gen _ (wordy_form _ _ D (wordy_body A rhs Pr))) as (w & G). destruct (gen_map_inv _ _ _ G) as (v & ->). exists v.
    apply lang_iff. exists rhs. split; [exact Pr|]. exact (derives_gen _ _ _ _ D G).
  Qed.
  Lemma continues_form items x s : continues g items x s -> In (ps_prod s) (prods g) -> exists s0 ts0 more, In (s0, ts0) items /\
    derives_form (rhs_of g) (todo s0) (map Term x ++ todo s ++ more).
  Proof.
    intros (s0 & ts0 & I & C) Ip. destruct C as [(Ep & Ei & E0)|(y & z & more & -> & Ei & Ee & D)].
    - exists s0, ts0, []. split; [exact I|]. rewrite E0, app_nil_r. apply df_refl.
    - exists s0, ts0, more. split; [exact I|]. eapply df_trans; [exact D|]. rewrite map_app, <- app_assoc. apply df_app; [apply df_refl|].
      rewrite app_assoc, <- Ee. apply (df_app (rhs_of g) [NonTerm (p_head (ps_prod s))] (elements (ps_prod s))); [|apply df_refl].
      apply df_rule, prods_rhs; [exact (built_rs_wf g B)|exact Ip].
  Qed.
End Words.
