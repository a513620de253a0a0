(** The derivation trees of the result of [transform_to_nonnull] are the trimmed derivation trees of the
    original. *)
From Coq Require Import String List Arith Lia Bool.
From Verif.Model Require Import Ord BTree Outcome Utils Grammar Nullable NonNull Tokens.
From Verif.Spec Require Import Reach Cfg BuildSpec NullSpec NonNullSpec EarleySpec TrimSpec.
From Verif.Proofs Require Import OrdFacts BTreeFacts LoopFacts UtilsFacts GrammarFacts BuildMore CfgFacts
  NullableFacts NullableMore NonNullFacts NonNullMore EarleyItems EarleyMore.
Import ListNotations.

#[export] Instance TotalPre_NNActionKey {AK} `{TotalPre AK} : TotalPre (NNActionKey AK).
Proof.
  constructor.
  - intros [a f]. exact (cmp_refl (a, f)).
  - intros [a f] [b h]. exact (cmp_sym (a, f) (b, h)).
  - intros [a f] [b h] [c k]. exact (cmp_lt_trans (a, f) (b, h) (c, k)).
  - intros [a f] [b h] [c k]. exact (cmp_eq_compat (a, f) (b, h) (c, k)).
Qed.
#[export] Instance OrdEq_NNActionKey {AK} `{OrdEq AK} : OrdEq (NNActionKey AK).
Proof.
  constructor; [exact _|]. intros [a f] [b h] E. pose proof (cmp_eq (a, f) (b, h) E) as X. congruence.
Qed.

Scheme stree_mind := Minimality for stree Sort Prop
with strees_mind := Minimality for strees Sort Prop.
Combined Scheme stree_strees_ind from stree_mind, strees_mind.

Section ETree.
  Context {T AK V : Type}.
  Lemma empty_tree_iff {K} (t : ptree T K V) : empty_tree t = true <-> yield t = [].
  Proof. unfold empty_tree. destruct (yield t); split; congruence. Qed.
  Lemma empty_tree_false {K} (t : ptree T K V) : empty_tree t = false <-> yield t <> [].
  Proof. unfold empty_tree. destruct (yield t); split; congruence. Qed.
  Lemma yield_trim : forall t : ptree T AK V, yield (trim t) = yield t.
  Proof.
    fix IH 1. intros [k v|a cs]; [reflexivity|]. cbn [trim yield].
    induction cs as [|c cs IHc]; [reflexivity|]. cbn [flat_map]. rewrite flat_map_app, IHc. f_equal.
    destruct (empty_tree c) eqn:E; [apply empty_tree_iff in E; rewrite E; reflexivity|]. cbn [flat_map]. rewrite app_nil_r. apply IH.
  Qed.
End ETree.

Section Trees.
  Context {T NT AK AV V : Type}.
  Variable g : Grammar T NT AK AV.

  Lemma stree_dtree :
    (forall e ts (t : ptree T AK V), stree g e ts t -> dtree g e ts t) /\
    (forall es ts (cs : list (ptree T AK V)), strees g es ts cs -> dtrees g es ts cs).
  Proof.
    apply stree_strees_ind; econstructor; eauto.
  Qed.
  Lemma stree_yield e ts (t : ptree T AK V) : stree g e ts t -> yield t = ts.
  Proof. intro D. apply (proj1 (dtree_yield g) e). apply stree_dtree. exact D. Qed.

  Lemma empty_stree :
    (forall e ts (t : ptree T AK V), dtree g e ts t -> ts = [] -> stree g e ts t) /\
    (forall es ts (cs : list (ptree T AK V)), dtrees g es ts cs -> ts = [] -> strees g es ts cs).
  Proof.
    apply dtree_dtrees_ind.
    - discriminate.
    - intros A p ts cs Pr _ IH E. constructor; auto.
    - constructor.
    - intros e es ts us c cs _ IH1 _ IH2 E. apply app_eq_nil in E. destruct E. constructor; auto.
  Qed.
End Trees.

Section NN.
  Context {T NT AK AV V : Type} `{OrdEq NT}.
  Variable lay : layout NT.
  Variable g : Grammar T NT AK AV.
  Hypothesis Inj : lay_inj g lay.
  Hypothesis B : built g.
  Variable g' : NonNullGrammar T NT AK AV.
  Hypothesis R : runs_to (transform_to_nonnull lay g) (Ret (Ok g')).

  Lemma unambiguous : ~ null_ambiguous g.
  Proof.
    intro X. destruct (transform_spec lay g Inj B) as [[_ R']|[(N & _)|(N & _)]]; [|exact (N X)|exact (N X)].
    pose proof (runs_to_fun _ _ _ R R') as E. discriminate.
  Qed.

  Lemma F2_r {X Y} (Q : X -> Y -> Prop) l l' : Forall2 Q l l' -> forall y, In y l' -> exists x, In x l /\ Q x y.
  Proof.
    intro F. induction F as [|x y l l' Qx F IH]; intros z [].
    - subst z. exists x. split; [left; reflexivity|exact Qx].
    - destruct (IH z) as (x' & I & Q'); [assumption|]. exists x'. split; [right|]; assumption.
  Qed.
  Lemma F2_l {X Y} (Q : X -> Y -> Prop) l l' : Forall2 Q l l' -> forall x, In x l -> exists y, In y l' /\ Q x y.
  Proof.
    intro F. induction F as [|x y l l' Qx F IH]; intros z [].
    - subst z. exists y. split; [left; reflexivity|exact Qx].
    - destruct (IH z) as (x' & I & Q'); [assumption|]. exists x'. split; [right|]; assumption.
  Qed.

  (** The productions of the result. *)
  Lemma prod_variant A q : prod_of g' A q -> exists p, prod_of g A p /\ ~ body_derives_empty g p /\ is_variant g p q.
  Proof.
    intros (r' & I & J). destruct (transform_shape lay g Inj B g' R) as [_ F].
    destruct (F2_r _ _ _ F _ I) as ([A0 r] & I0 & E1 & _ & vss & Fv & Ec). simpl in E1, Ec, Fv. subst A0. rewrite Ec in J.
    apply in_concat in J. destruct J as (vs & Iv & J). destruct (F2_r _ _ _ Fv _ Iv) as (p & Ip & [[_ ->]|(N & _ & _ & V0)]); [destruct J|].
    exists p. split; [exists r; auto|]. split; [exact N|]. apply V0, J.
  Qed.
  Lemma variant_prod A p fl k d : prod_of g A p -> ~ body_derives_empty g p -> choice g (pi_elements p) fl k d ->
    exists q, prod_of g' A q /\ pi_elements q = k /\ pi_action_key q = Build_NNActionKey (pi_action_key p) fl.
  Proof.
    intros (r & I & J) N C. destruct (transform_shape lay g Inj B g' R) as [_ F].
    destruct (F2_l _ _ _ F _ I) as ([A0 r'] & I0 & E1 & _ & vss & Fv & Ec). simpl in E1, Ec, Fv. subst A0.
    destruct (F2_l _ _ _ Fv _ J) as (vs & Iv & [[X _]|(_ & _ & Ex & V0)]); [contradiction|].
    destruct (Ex _ _ _ C) as (q & Iq & Efl & _). exists q. split.
    { exists r'. split; [exact I0|]. rewrite Ec. apply in_concat. eauto. }
    destruct (proj1 (V0 q) Iq) as (fl' & k' & d' & C' & Ek & Ea & _). rewrite Ea in Efl. simpl in Efl. subst fl'.
    destruct (choice_fun g _ _ _ _ _ _ C C') as [-> _]. auto.
  Qed.

  Lemma empty_tree_exists A : derives_empty g A -> exists t : ptree T AK V, stree g (NonTerm A) [] t.
  Proof.
    intro D. destruct (gen_dtrees (V := V) g [NonTerm A] [] D [] eq_refl) as (cs & Ds). inversion Ds as [|e es ts us c cs' Dc Dn E1 E2 E3]; subst.
    exists c. apply app_eq_nil in E2. destruct E2 as [-> ->]. apply (proj1 (empty_stree g) _ _ _ Dc eq_refl).
  Qed.
  Lemma stree_empty_derives A (t : ptree T AK V) : stree g (NonTerm A) [] t -> derives_empty g A.
  Proof. intro D. exact (proj1 (dtree_gen g) _ _ _ (proj1 (stree_dtree g) _ _ _ D)). Qed.

  Local Notation flags := (flat_map (fun c : ptree T AK V => match c with PLeaf _ _ => [] | PBranch _ _ => [empty_tree c] end)).
  Local Notation trims := (flat_map (fun c : ptree T AK V => if empty_tree c then [] else [trim c])).

  (** From the original to the result. *)
  Lemma trim_sound :
    (forall e ts (t : ptree T AK V), stree g e ts t -> ts <> [] -> dtree g' e ts (trim t)) /\
    (forall es ts (cs : list (ptree T AK V)), strees g es ts cs -> forall pes, es = map pe_elem pes ->
       exists fl k d, choice g pes fl k d /\ flags cs = fl /\ dtrees g' (map pe_elem k) ts (trims cs)).
  Proof.
    apply stree_strees_ind.
    - intros k v _. constructor.
    - intros A p ts cs Pr Em _ IH Ne. destruct (IH _ eq_refl) as (fl & k & d & C & Efl & D).
      assert (Nb : ~ body_derives_empty g p) by (intro X; exact (Ne (Em X))).
      destruct (variant_prod A p fl k d Pr Nb C) as (q & Pq & Ek & Ea). cbn [trim]. rewrite Efl, <- Ea. constructor; [exact Pq|]. rewrite Ek. exact D.
    - intros [|]; [|discriminate]. intros _. exists [], [], []. repeat split; constructor.
    - intros e es ts us c cs Sc IHc _ IH [|[id e'] pes] E; [discriminate|]. simpl in E. injection E as <- E.
      destruct (IH pes E) as (fl & k & d & C & Efl & D). pose proof (stree_yield g _ _ _ Sc) as Y.
      destruct e as [t|A].
      + inversion Sc; subst. exists (flags cs), (Build_ProdElement id (Term t) :: k), d.
        split; [econstructor; [reflexivity|exact C]|]. split; [reflexivity|]. cbn [flat_map].
        change (empty_tree (PLeaf t v)) with false. cbn [map app trim pe_elem].
        apply (dtrees_cons g' (Term t) (map pe_elem k) [Build_Token t v] us); [constructor|exact D].
      + assert (Eb : exists a cs0, c = PBranch a cs0) by (inversion Sc; eauto). destruct Eb as (a & cs0 & ->).
        cbn [flat_map]. destruct (empty_tree (PBranch a cs0)) eqn:Ee.
        * apply empty_tree_iff in Ee. rewrite Ee in Y. subst ts.
          exists (true :: fl), k, (Build_ProdElement id (NonTerm A) :: d). split; [|split; [cbn; rewrite Efl; reflexivity|exact D]].
          apply (ch_drop _ _ A); [reflexivity|exact (stree_empty_derives _ _ Sc)|exact C].
        * apply empty_tree_false in Ee. rewrite Y in Ee.
          exists (false :: fl), (Build_ProdElement id (NonTerm A) :: k), d. split; [|split; [cbn; rewrite Efl; reflexivity|]].
          -- apply (ch_keep _ _ A); [reflexivity|exact C].
          -- cbn [map pe_elem app]. constructor; [exact (IHc Ee)|exact D].
  Qed.

  Lemma nn_tokens A ts (t : ptree T (NNActionKey AK) V) : dtree g' (NonTerm A) ts t -> ts <> [].
  Proof.
    intros D ->. destruct (transform_nonempty lay g Inj B g' R) as (_ & _ & X). apply (X A).
    exact (proj1 (dtree_gen g') _ _ _ D).
  Qed.
  Lemma nn_tokens_e e ts (t : ptree T (NNActionKey AK) V) : dtree g' e ts t -> ts <> [].
  Proof. destruct e; [intro D; inversion D; discriminate|apply nn_tokens]. Qed.

  (** The dropped children can be put back. *)
  Lemma choice_put_back es fl k d : choice g es fl k d -> forall ts (cs : list (ptree T AK V)),
    strees g (map pe_elem k) ts cs -> Forall (fun c => yield c <> []) cs ->
    exists cs', strees g (map pe_elem es) ts cs' /\ flags cs' = fl /\ trims cs' = map trim cs.
  Proof.
    intro C. induction C as [|e t es fl k d E C IH|e A es fl k d E C IH|e A es fl k d E D C IH]; intros ts cs Ss N.
    - exists cs. inversion Ss; subst. repeat split; constructor.
    - simpl in Ss. rewrite E in Ss. inversion Ss as [|? ? t1 us c cs1 Sc Sr]; subst. inversion N as [|? ? Nc Nr]; subst.
      destruct (IH _ _ Sr Nr) as (cs' & S' & F & Tr). exists (c :: cs'). simpl. rewrite E. inversion Sc; subst. simpl.
      split; [|auto using f_equal]. apply (strees_cons g (Term t) (map pe_elem es) [Build_Token t v] us); [constructor|exact S'].
    - simpl in Ss. rewrite E in Ss. inversion Ss as [|? ? t1 us c cs1 Sc Sr]; subst. inversion N as [|? ? Nc Nr]; subst.
      destruct (IH _ _ Sr Nr) as (cs' & S' & F & Tr). exists (c :: cs'). simpl. rewrite E.
      split; [constructor; assumption|]. apply empty_tree_false in Nc.
      assert (Eb : exists a cs0, c = PBranch a cs0) by (inversion Sc; eauto). destruct Eb as (a & cs0 & ->). rewrite Nc, F, Tr. auto.
    - destruct (IH _ _ Ss N) as (cs' & S' & F & Tr). destruct (empty_tree_exists A D) as (t & St). exists (t :: cs'). simpl. rewrite E.
      assert (Et : empty_tree t = true) by (apply empty_tree_iff, (stree_yield g _ _ _ St)).
      assert (Eb : exists a cs0, t = PBranch a cs0) by (inversion St; eauto). destruct Eb as (a & cs0 & ->). rewrite Et, F, Tr.
      split; [|auto]. apply (strees_cons g (NonTerm A) (map pe_elem es) [] ts); [exact St|exact S'].
  Qed.

  Lemma trim_onto :
    (forall e ts (t : ptree T (NNActionKey AK) V), dtree g' e ts t -> exists t0, stree g e ts t0 /\ trim t0 = t) /\
    (forall es ts (cs : list (ptree T (NNActionKey AK) V)), dtrees g' es ts cs ->
       exists cs0, strees g es ts cs0 /\ Forall (fun c => yield c <> []) cs0 /\ map trim cs0 = cs).
  Proof.
    apply dtree_dtrees_ind.
    - intros k v. exists (PLeaf k v). split; [constructor|reflexivity].
    - intros A q ts cs Pq _ (cs0 & Ss & N & Em). destruct (prod_variant A q Pq) as (p & Pp & Nb & fl & k & d & C & Ek & Ea & _).
      rewrite Ek in Ss. destruct (choice_put_back _ _ _ _ C ts cs0 Ss N) as (cs' & S' & F & Tr).
      exists (PBranch (pi_action_key p) cs'). split; [constructor; [exact Pp|intro X; destruct (Nb X)|exact S']|].
      cbn [trim]. rewrite F, Tr, Em, Ea. reflexivity.
    - exists []. repeat split; constructor.
    - intros e es ts us c cs Dc (c0 & Sc & Ec) _ (cs0 & Ss & N & Em). exists (c0 :: cs0). split; [constructor; assumption|].
      split; [|simpl; congruence]. constructor; [|exact N]. rewrite (stree_yield g _ _ _ Sc). exact (nn_tokens_e _ _ _ Dc).
  Qed.

  Lemma trim_trees A ts (t : ptree T (NNActionKey AK) V) :
    dtree g' (NonTerm A) ts t <-> ts <> [] /\ exists t0, stree g (NonTerm A) ts t0 /\ trim t0 = t.
  Proof.
    split.
    - intro D. split; [exact (nn_tokens _ _ _ D)|]. apply trim_onto, D.
    - intros (N & t0 & S0 & <-). apply trim_sound; assumption.
  Qed.

  (** An empty tree of a nonterminal is unique. *)
  Lemma empty_unique :
    (forall e ts (t : ptree T AK V), stree g e ts t -> ts = [] -> forall u, stree g e [] u -> u = t) /\
    (forall es ts (cs : list (ptree T AK V)), strees g es ts cs -> ts = [] -> forall us, strees g es [] us -> us = cs).
  Proof.
    apply stree_strees_ind.
    - discriminate.
    - intros A p ts cs Pp _ Ss IH -> u Su. inversion Su as [|A' q ts' ds Pq _ Sd E1 E2 E3]; subst.
      assert (p = q).
      { assert (Gp : body_derives_empty g p) by (exact (proj2 (dtree_gen g) _ _ _ (proj2 (stree_dtree g) _ _ _ Ss))).
        assert (Gq : body_derives_empty g q) by (exact (proj2 (dtree_gen g) _ _ _ (proj2 (stree_dtree g) _ _ _ Sd))).
        apply prod_of_nth in Pp, Pq. destruct Pp as (i & Ni), Pq as (j & Nj).
        destruct (Nat.eq_dec i j) as [<-|Nij]; [|destruct unambiguous; exists A, i, j, p, q; auto].
        destruct Ni as (r & I & E), Nj as (r2 & I2 & E2). pose proof (acc_wf g (built_accepted g B)) as [Sd' _].
        apply bt_get_iff in I, I2; try exact Sd'. congruence. }
      subst q. rewrite (IH eq_refl _ Sd). reflexivity.
    - intros _ us Su. inversion Su. reflexivity.
    - intros e es ts us c cs _ IHc _ IH E vs Sv. apply app_eq_nil in E. destruct E as [-> ->].
      inversion Sv as [|? ? t1 u1 c1 cs1 Sc1 Sr1 E1 E2 E3]; subst. apply app_eq_nil in E2. destruct E2 as [-> ->].
      rewrite (IHc eq_refl _ Sc1), (IH eq_refl _ Sr1). reflexivity.
  Qed.

  (** Nothing is lost when productions of a rule have different keys. *)
  Lemma trim_inj : keys_distinct g ->
    (forall e ts (t : ptree T AK V), stree g e ts t -> forall us u, stree g e us u -> trim t = trim u -> t = u) /\
    (forall es ts (cs : list (ptree T AK V)), strees g es ts cs -> forall us ds, strees g es us ds ->
       flags cs = flags ds -> trims cs = trims ds -> cs = ds).
  Proof.
    intro K. apply stree_strees_ind.
    - intros k v us u Su E. inversion Su; subst. simpl in E. congruence.
    - intros A p ts cs Pp _ Ss IH us u Su E. inversion Su as [|A' q ts' ds Pq _ Sd E1 E2 E3]; subst. cbn [trim] in E. injection E as Ea Ef Et.
      assert (p = q).
      { destruct Pp as (r & I & J), Pq as (r2 & I2 & J2). pose proof (acc_wf g (built_accepted g B)) as [Sd' _].
        assert (r = r2) by (apply bt_get_iff in I, I2; try exact Sd'; congruence). subst r2.
        exact (nn_map_inj _ _ _ _ (K A r I) J J2 Ea). }
      subst q. rewrite (IH _ _ Sd Ef Et). reflexivity.
    - intros us ds Sd _ _. inversion Sd. reflexivity.
    - intros e es ts us c cs Sc IHc _ IH us' ds Sd Ef Et. inversion Sd as [|? ? t1 u1 d ds1 Sc1 Sr1 E1 E2 E3]; subst.
      destruct e as [k|A].
      + inversion Sc; subst. inversion Sc1; subst. simpl in Ef, Et. injection Et as Ev Et. subst. f_equal. exact (IH _ _ Sr1 Ef Et).
      + assert (Eb : exists a cs0, c = PBranch a cs0) by (inversion Sc; eauto). destruct Eb as (a & cs0 & Ec).
        assert (Eb : exists a cs0, d = PBranch a cs0) by (inversion Sc1; eauto). destruct Eb as (a1 & cs1 & Ed).
        assert (Ef' : [empty_tree c] ++ flags cs = [empty_tree d] ++ flags ds1).
        { simpl in Ef. rewrite Ec in Ef |- *. rewrite Ed in Ef |- *. exact Ef. }
        simpl in Ef'. injection Ef' as Ee Efr. cbn [flat_map] in Et. rewrite <- Ee in Et. destruct (empty_tree c) eqn:Em.
        * symmetry in Ee. apply empty_tree_iff in Em, Ee. rewrite (stree_yield g _ _ _ Sc) in Em. rewrite (stree_yield g _ _ _ Sc1) in Ee. subst ts t1.
          rewrite (proj1 empty_unique _ _ _ Sc eq_refl _ Sc1). f_equal. exact (IH _ _ Sr1 Efr Et).
        * simpl in Et. injection Et as Eh Et. rewrite (IHc _ _ Sc1 Eh). f_equal. exact (IH _ _ Sr1 Efr Et).
  Qed.

  (** Without other uses of productions deriving the empty word, all trees are meant. *)
  Lemma pure_stree : null_prods_pure g ->
    (forall e ts (t : ptree T AK V), dtree g e ts t -> stree g e ts t) /\
    (forall es ts (cs : list (ptree T AK V)), dtrees g es ts cs -> strees g es ts cs).
  Proof.
    intro Pu. apply dtree_dtrees_ind; try solve [constructor; auto].
    intros A p ts cs Pp D IH. constructor; [exact Pp| |exact IH]. intro Bd.
    pose proof (Pu A p _ Pp Bd (proj2 (dtree_gen g) _ _ _ D)) as E. apply map_eq_nil in E. exact E.
  Qed.
End NN.
