(** Facts about [Model/Nullable.v]. *)
From Coq Require Import String List Arith Lia Bool NArith.
From Verif.Model Require Import Ord BTree Outcome Utils Grammar Nullable.
From Verif.Spec Require Import Reach Cfg BuildSpec NullSpec.
From Verif.Proofs Require Import OrdFacts BTreeFacts LoopFacts UtilsFacts GrammarFacts.
Import ListNotations.

Section Gen.
  Context {T NT : Type}.
  Variable P : NT -> list (Elem T NT) -> Prop.

  Lemma gen_app es1 es2 w1 w2 : gen P es1 w1 -> gen P es2 w2 -> gen P (es1 ++ es2) (w1 ++ w2).
  Proof.
    intros G1 G2. induction G1 as [|t es w _ IH|A rhs es u w Pr G _ _ IH]; simpl.
    - exact G2.
    - constructor. exact IH.
    - rewrite <- app_assoc. exact (gen_nonterm P A rhs _ u _ Pr G IH).
  Qed.
  Lemma gen_app_inv es1 es2 w : gen P (es1 ++ es2) w ->
    exists w1 w2, w = w1 ++ w2 /\ gen P es1 w1 /\ gen P es2 w2.
  Proof.
    revert w. induction es1 as [|e es1 IH]; simpl; intros w G.
    - exists [], w. split; [reflexivity|]. split; [constructor|exact G].
    - inversion G as [|t es w' G'|A rhs es u w' Pr Gr G']; subst.
      + destruct (IH _ G') as (w1 & w2 & -> & G1 & G2). exists (t :: w1), w2.
        split; [reflexivity|]. split; [constructor; exact G1|exact G2].
      + destruct (IH _ G') as (w1 & w2 & -> & G1 & G2). exists (u ++ w1), w2.
        split; [rewrite app_assoc; reflexivity|]. split; [|exact G2].
        exact (gen_nonterm P A rhs es1 u w1 Pr Gr G1).
  Qed.
  Lemma lang_iff A w : lang P A w <-> exists rhs, P A rhs /\ gen P rhs w.
  Proof.
    unfold lang. split.
    - intro G. inversion G as [| |A' rhs es u w' Pr Gr G']; subst. inversion G'; subst.
      rewrite app_nil_r. exists rhs. auto.
    - intros (rhs & Pr & Gr). rewrite <- (app_nil_r w). exact (gen_nonterm P A rhs [] w [] Pr Gr (gen_nil P)).
  Qed.
  Lemma gen_cons_nt A es w : gen P (NonTerm A :: es) w <->
    exists u v, w = u ++ v /\ lang P A u /\ gen P es v.
  Proof.
    split.
    - intro G. apply (gen_app_inv [NonTerm A] es) in G. destruct G as (u & v & E & G1 & G2).
      exists u, v. auto.
    - intros (u & v & -> & G1 & G2). exact (gen_app [NonTerm A] es u v G1 G2).
  Qed.
  Lemma gen_cons_t t es w : gen P (Term t :: es) w <-> exists v, w = t :: v /\ gen P es v.
  Proof.
    split.
    - intro G. inversion G; subst. eexists. split; [reflexivity|assumption].
    - intros (v & -> & G). constructor. exact G.
  Qed.

  Lemma gen_empty es : gen P es [] <-> forall e, In e es -> exists A, e = NonTerm A /\ lang P A [].
  Proof.
    induction es as [|e es IH].
    - split; [intros _ e []|constructor].
    - destruct e as [t|A].
      + rewrite gen_cons_t. split.
        * intros (v & E & _). discriminate.
        * intro F. destruct (F (Term t) (or_introl eq_refl)) as (A & E & _). discriminate.
      + rewrite gen_cons_nt. split.
        * intros (u & v & E & G1 & G2). symmetry in E. apply app_eq_nil in E. destruct E as [-> ->].
          intros e [<-|I]; [exists A; auto|]. apply IH; assumption.
        * intro F. exists [], []. split; [reflexivity|]. split.
          -- destruct (F (NonTerm A) (or_introl eq_refl)) as (A' & E & G). injection E as ->. exact G.
          -- apply IH. intros e I. apply F. right. exact I.
  Qed.

  (** Induction on derivations of the empty word, with a rank. *)
  Lemma gen_empty_rank (Q : NT -> Prop) :
    (forall A rhs, P A rhs -> gen P rhs [] -> (forall B, In (NonTerm B) rhs -> Q B) -> Q A) ->
    forall es, gen P es [] -> forall B, In (NonTerm B) es -> Q B.
  Proof.
    intros Step es G. assert (X : forall w, gen P es w -> w = [] -> forall B, In (NonTerm B) es -> Q B);
      [|exact (X [] G eq_refl)]. clear G. intros w G.
    induction G as [|t es w _ IH|A rhs es u w Pr G IH1 _ IH2]; intro Ew.
    - intros B [].
    - discriminate.
    - apply app_eq_nil in Ew. destruct Ew as [-> ->]. intros B [E|I].
      + injection E as <-. apply (Step A rhs Pr G). apply IH1. reflexivity.
      + apply IH2; auto.
  Qed.
End Gen.

Section Prods.
  Context {T NT AK AV : Type} `{OrdEq NT}.
  Variable g : Grammar T NT AK AV.
  Hypothesis W : rs_wf g.

  Lemma prods_In p : In p (prods g) <-> nth_prod g (p_head p) (p_ix p) (p_inner p).
  Proof.
    unfold prods, nth_prod. rewrite in_flat_map. split.
    - intros (r & I & J). apply (rules_In g r W) in I. apply rule_prods_In in J. destruct J as [E J].
      exists r. rewrite E. auto.
    - intros (r & I & J). assert (E : r_head r = p_head p) by exact (proj2 W _ _ I).
      exists r. split.
      + apply (rules_In g r W). rewrite E. exact I.
      + apply rule_prods_In. auto.
  Qed.
  Lemma nth_prod_fun A i p q : nth_prod g A i p -> nth_prod g A i q -> p = q.
  Proof.
    intros (r & I & J) (r' & I' & J').
    apply bt_get_iff in I; [|apply W]. apply bt_get_iff in I'; [|apply W]. congruence.
  Qed.
  Lemma prod_eq p q : In p (prods g) -> In q (prods g) -> p_head p = p_head q -> p_ix p = p_ix q -> p = q.
  Proof.
    intros Ip Iq E1 E2. apply prods_In in Ip, Iq. rewrite <- E1, <- E2 in Iq.
    pose proof (nth_prod_fun _ _ _ _ Ip Iq) as E3. destruct p, q; simpl in *; congruence.
  Qed.
  Lemma prod_of_nth A p : prod_of g A p <-> exists i, nth_prod g A i p.
  Proof.
    unfold prod_of, nth_prod. split.
    - intros (r & I & J). apply In_nth_error in J. destruct J as (i & J). exists i, r. auto.
    - intros (i & r & I & J). exists r. split; [exact I|]. exact (nth_error_In _ _ J).
  Qed.
  Lemma prods_prod_of p : In p (prods g) -> prod_of g (p_head p) (p_inner p).
  Proof. intro I. apply prod_of_nth. exists (p_ix p). apply prods_In. exact I. Qed.
  Lemma prods_rhs p : In p (prods g) -> rhs_of g (p_head p) (elements p).
  Proof. intro I. exists (p_inner p). split; [apply prods_prod_of; exact I|reflexivity]. Qed.
  Lemma rhs_prods A rhs : rhs_of g A rhs -> exists p, In p (prods g) /\ p_head p = A /\ elements p = rhs.
  Proof.
    intros (pi & Pr & ->). apply prod_of_nth in Pr. destruct Pr as (i & N).
    exists (Build_Prod A i pi). split; [apply prods_In; exact N|]. auto.
  Qed.
End Prods.

Section ProdOrd.
  Context {T NT AK AV : Type}.
  Variable lay : layout NT.
  #[export] Instance TotalPre_Prod : @TotalPre (Prod T NT AK AV) (Ord_Prod lay).
  Proof.
    constructor; unfold cmp, Ord_Prod, prod_cmp.
    - intro x. apply N.compare_refl.
    - intros x y. apply N.compare_antisym.
    - intros x y z. rewrite !N.compare_lt_iff. lia.
    - intros x y z E. apply N.compare_eq_iff in E. rewrite E. reflexivity.
  Qed.
End ProdOrd.

Section Nullable.
  Context {T NT AK AV : Type} `{OrdEq NT}.
  Variable lay : layout NT.
  Variable g : Grammar T NT AK AV.
  Hypothesis Inj : lay_inj g lay.
  Hypothesis W : rs_wf g.

  Let OP : Ord (Prod T NT AK AV) := Ord_Prod lay.
  Local Existing Instance OP.

  Lemma prod_cmp_eq p q : In p (prods g) -> In q (prods g) -> @cmp _ OP p q = Eq -> p = q.
  Proof.
    unfold cmp, OP, Ord_Prod, prod_cmp. intros Ip Iq E. apply N.compare_eq_iff in E.
    apply (prods_In g W) in Ip as Np. apply (prods_In g W) in Iq as Nq.
    destruct (Inj _ _ _ _ _ _ Np Nq E) as [E1 E2]. exact (prod_eq g W p q Ip Iq E1 E2).
  Qed.

  Local Notation St := (btmap NT (btset (Prod T NT AK AV))).

  Definition in_nts (p : Prod T NT AK AV) (nts : St) : bool :=
    match bt_get (p_head p) nts with Some s => bs_mem p s | None => false end.

  Definition ninv (nts : St) : Prop :=
    msorted nts /\ forall A s, bt_get A nts = Some s ->
      s <> [] /\ @sorted _ OP s /\
      forall p, In p s -> In p (prods g) /\ p_head p = A /\ gen (rhs_of g) (elements p) [].

  Lemma elems_nullable_iff {V} (nts : btmap NT V) (es : list (Elem T NT)) :
    elems_nullable nts es = true <-> forall e, In e es -> exists A, e = NonTerm A /\ In A (bt_keys nts).
  Proof.
    induction es as [|e es IH]; cbn [elems_nullable].
    - split; [intros _ e []|reflexivity].
    - destruct e as [t|A].
      + split; [discriminate|]. intro F. destruct (F (Term t) (or_introl eq_refl)) as (A & E & _). discriminate.
      + destruct (bt_mem A nts) eqn:M.
        * apply bt_mem_iff in M. rewrite IH. split.
          -- intros F e [<-|I]; [exists A; auto|apply F; exact I].
          -- intros F e I. apply F. right. exact I.
        * split; [discriminate|]. intro F. destruct (F (NonTerm A) (or_introl eq_refl)) as (A' & E & I).
          injection E as <-. apply bt_mem_iff in I. congruence.
  Qed.

  Lemma ninv_sound nts A : ninv nts -> In A (bt_keys nts) -> lang (rhs_of g) A [].
  Proof.
    intros [_ N] I. apply bt_keys_In in I. destruct I as (s & G). destruct (N A s G) as (NE & _ & F).
    destruct s as [|p s]; [congruence|]. destruct (F p (or_introl eq_refl)) as (Ip & Eh & Ge).
    apply lang_iff. exists (elements p). split; [|exact Ge]. rewrite <- Eh. apply prods_rhs; assumption.
  Qed.
  Lemma ninv_prod_sound nts (p : Prod T NT AK AV) : ninv nts -> is_prod_nullable nts p = true -> gen (rhs_of g) (elements p) [].
  Proof.
    intros N E. unfold is_prod_nullable in E. rewrite elems_nullable_iff in E. apply gen_empty. intros e I.
    destruct (E e I) as (A & -> & K). exists A. split; [reflexivity|]. exact (ninv_sound nts A N K).
  Qed.

  Lemma in_nts_iff p nts : ninv nts -> In p (prods g) ->
    (in_nts p nts = true <-> exists s, bt_get (p_head p) nts = Some s /\ In p s).
  Proof.
    intros [S N] Ip. unfold in_nts. destruct (bt_get (p_head p) nts) as [s|] eqn:G.
    - rewrite bs_mem_iff. destruct (N _ _ G) as (_ & _ & F). split.
      + intros (y & Iy & E). destruct (F y Iy) as (Iy' & _). apply (prod_cmp_eq p y Ip Iy') in E. subst y.
        exists s. auto.
      + intros (s' & E & I). injection E as <-. exists p. split; [exact I|apply cmp_refl].
    - split; [discriminate|]. intros (s & E & _). discriminate.
  Qed.

  Definition nmu (nts : St) : nat := length (filter (fun p => negb (in_nts p nts)) (prods g)).

  Lemma nullable_step_spec x nts : In x (prods g) -> ninv nts ->
    match nullable_step lay x nts with
    | Ret (c, s') => ninv s' /\ nmu s' <= nmu nts /\
        match c with Changed => nmu s' < nmu nts | Unchanged => nts = s' end
    | Panic m => False
    | NoFuel => False
    end.
  Proof.
    intros Ix N. unfold nullable_step, InternalNullableInfo. destruct (is_prod_nullable nts x) eqn:E.
    2:{ cbn iota. split; [exact N|]. split; [lia|reflexivity]. }
    cbn zeta. unfold bs_insert. fold OP.
    set (info := match bt_get (p_head x) nts with Some i => i | None => [] end).
    assert (Si : @sorted _ OP info).
    { unfold info. destruct (bt_get (p_head x) nts) as [s|] eqn:G; [|apply sorted_nil].
      apply (proj2 N _ _ G). }
    assert (Fi : forall p, In p info -> In p (prods g) /\ p_head p = p_head x /\ gen (rhs_of g) (elements p) []).
    { unfold info. destruct (bt_get (p_head x) nts) as [s|] eqn:G; [|intros p []].
      apply (proj2 N _ _ G). }
    assert (Mi : in_nts x nts = bs_mem x info).
    { unfold in_nts, info. destruct (bt_get (p_head x) nts); reflexivity. }
    set (nts' := bt_insert (p_head x) (bs_add x info) nts).
    assert (N' : ninv nts').
    { split; [apply bt_insert_sorted; apply N|]. intros A s. unfold nts'. rewrite bt_get_insert.
      destruct (eqb_spec A (p_head x)) as [->|Ne].
      - intro Q. injection Q as <-. split; [|split].
        + intro Q. assert (L : bs_mem x (bs_add x info) = true) by (apply bs_mem_add; left; apply cmp_refl).
          rewrite Q in L. discriminate.
        + apply bs_add_sorted. exact Si.
        + intros p I. apply bs_add_In_inv in I. destruct I as [->|I]; [|apply Fi; exact I].
          split; [exact Ix|]. split; [reflexivity|]. exact (ninv_prod_sound nts x N E).
      - apply N. }
    assert (Mono : forall p, In p (prods g) -> in_nts p nts = true -> in_nts p nts' = true).
    { intros p Ip. unfold in_nts, nts'. rewrite bt_get_insert.
      destruct (eqb_spec (p_head p) (p_head x)) as [Eh|Ne]; [|auto].
      rewrite Eh. intro Q. apply bs_mem_add. right. unfold info.
      destruct (bt_get (p_head x) nts); [exact Q|discriminate]. }
    assert (Le : nmu nts' <= nmu nts).
    { apply filter_length_le. intros p Ip. rewrite !negb_true_iff. intro Q.
      destruct (in_nts p nts) eqn:Q'; [|reflexivity]. rewrite (Mono p Ip Q') in Q. discriminate. }
    split; [exact N'|]. split; [exact Le|]. rewrite <- Mi.
    destruct (in_nts x nts) eqn:Q; cbn [negb from_changed].
    - symmetry. unfold nts'. rewrite Mi in Q. symmetry in Mi. rewrite bs_add_mem_id by assumption.
      apply bt_insert_same; [apply N|]. unfold info in *.
      destruct (bt_get (p_head x) nts) as [s|]; [reflexivity|discriminate].
    - apply (filter_length_lt _ _ _ x).
      + intros p Ip. rewrite !negb_true_iff. intro Q1. destruct (in_nts p nts) eqn:Q'; [|reflexivity].
        rewrite (Mono p Ip Q') in Q1. discriminate.
      + exact Ix.
      + apply negb_false_iff. unfold in_nts, nts'. rewrite bt_get_insert.
        destruct (eqb_spec (p_head x) (p_head x)) as [_|Ne]; [|congruence].
        apply bs_mem_add. left. apply cmp_refl.
      + rewrite Q. reflexivity.
  Qed.

  Definition nullable_prod (p : Prod T NT AK AV) : Prop := In p (prods g) /\ gen (rhs_of g) (elements p) [].

  (** Result of the first fixpoint: exactly the nullable productions, grouped by head. *)
  Lemma inner_spec :
    exists nts, runs_to (inner_calculate_nullables lay g) (Ret nts) /\ ninv nts /\
      (forall A, In A (bt_keys nts) <-> lang (rhs_of g) A []) /\
      (forall A s, bt_get A nts = Some s ->
         forall p, In p s <-> nullable_prod p /\ p_head p = A).
  Proof.
    destruct (saturate (nullable_step lay) (prods g) ninv nmu eq (fun _ => False)) with (s := @nil (NT * btset (Prod T NT AK AV)))
      as (r & R & P).
    - reflexivity.
    - intros s t u E1 E2. congruence.
    - intros x s Ix N. pose proof (nullable_step_spec x s Ix N) as Q.
      destruct (nullable_step lay x s) as [[c s']| |]; exact Q.
    - split; [apply sorted_nil|]. intros A s E. discriminate.
    - destruct r as [nts|m|]; [|destruct P|destruct P]. destruct P as [N C]. unfold InternalNullableInfo in *.
      exists nts. split; [exact R|]. split; [exact N|].
      assert (Cl : forall p, In p (prods g) -> is_prod_nullable nts p = true ->
                   exists s, bt_get (p_head p) nts = Some s /\ In p s).
      { intros p Ip E. destruct (C p Ip) as (s1 & s2 & N1 & -> & _ & F).
        unfold nullable_step, InternalNullableInfo in F. rewrite E in F. cbn zeta in F. unfold bs_insert in F. fold OP in F.
        injection F as F1 F2.
        apply (in_nts_iff p nts N Ip). unfold in_nts.
        destruct (bt_get (p_head p) nts) as [s|] eqn:G.
        - destruct (bs_mem p s) eqn:M; [reflexivity|]. discriminate F1.
        - discriminate F1. }
      assert (Comp : forall es, gen (rhs_of g) es [] -> forall B, In (NonTerm B) es -> In B (bt_keys nts)).
      { apply gen_empty_rank. intros A rhs Pr G F. destruct (rhs_prods g W A rhs Pr) as (p & Ip & <- & <-).
        assert (E : is_prod_nullable nts p = true).
        { unfold is_prod_nullable. apply elems_nullable_iff. intros e I. destruct (proj1 (gen_empty _ _) G e I) as (B & -> & _).
          exists B. auto. }
        destruct (Cl p Ip E) as (s & Gs & _). apply bt_keys_In. exists s. exact Gs. }
      split.
      + intro A. split; [apply ninv_sound; exact N|]. intro L. apply (Comp [NonTerm A] L). left. reflexivity.
      + intros A s G p. destruct (proj2 N A s G) as (_ & _ & F). split.
        * intro I. destruct (F p I) as (Ip & Eh & Ge). split; [split; assumption|exact Eh].
        * intros [[Ip Ge] Eh].
          assert (E : is_prod_nullable nts p = true).
          { unfold is_prod_nullable. apply elems_nullable_iff. intros e I. destruct (proj1 (gen_empty _ _) Ge e I) as (B & -> & L).
            exists B. split; [reflexivity|]. apply (Comp [NonTerm B] L). left. reflexivity. }
          destruct (Cl p Ip E) as (s' & G' & I'). rewrite Eh, G in G'. injection G' as <-. exact I'.
  Qed.

  (** ** The ambiguity check *)
  Definition ambiguous_ : Prop :=
    exists p q, nullable_prod p /\ nullable_prod q /\ p_head p = p_head q /\ p <> q.

  Lemma ambiguous_iff : ambiguous_ <-> null_ambiguous g.
  Proof.
    unfold ambiguous_, null_ambiguous, nullable_prod. split.
    - intros (p & q & [Ip Gp] & [Iq Gq] & Eh & Ne).
      exists (p_head p), (p_ix p), (p_ix q), (p_inner p), (p_inner q).
      split; [apply (prods_In g W); exact Ip|]. split; [rewrite Eh; apply (prods_In g W); exact Iq|].
      split; [|split; assumption]. intro E. apply Ne. exact (prod_eq g W p q Ip Iq Eh E).
    - intros (A & i & j & p & q & Np & Nq & Ne & Gp & Gq).
      exists (Build_Prod A i p), (Build_Prod A j q).
      split; [split; [apply (prods_In g W); exact Np|exact Gp]|].
      split; [split; [apply (prods_In g W); exact Nq|exact Gq]|]. split; [reflexivity|]. congruence.
  Qed.

  Lemma check_infos_spec infos :
    (forall i, In i infos -> i <> []) ->
    (check_infos infos = Ret None /\ forall i, In i infos -> exists p : Prod T NT AK AV, i = [p]) \/
    (check_infos infos = Ret (Some Ambiguity) /\ exists i, In i infos /\ 1 < length i).
  Proof.
    induction infos as [|i infos IH]; intro NE; cbn [check_infos].
    - left. split; [reflexivity|]. intros i [].
    - destruct i as [|p [|q i]].
      + destruct (NE [] (or_introl eq_refl)). reflexivity.
      + destruct IH as [[E F]|[E (j & I & L)]].
        * intros j I. apply NE. right. exact I.
        * left. split; [exact E|]. intros j [<-|I]; [exists p; reflexivity|apply F; exact I].
        * right. split; [exact E|]. exists j. split; [right; exact I|exact L].
      + right. split; [reflexivity|]. exists (p :: q :: i). split; [left; reflexivity|]. simpl. lia.
  Qed.

  (** ** The completion loop *)
  Variable nts : St.
  Hypothesis Nk : forall A, In A (bt_keys nts) <-> lang (rhs_of g) A [].
  Hypothesis Np : forall A s, bt_get A nts = Some s -> forall p, In p s <-> nullable_prod p /\ p_head p = A.
  Hypothesis Ns : msorted nts.
  Hypothesis N1 : forall A s, bt_get A nts = Some s -> exists p, s = [p].

  Definition the_prod (A : NT) (p : Prod T NT AK AV) : Prop := nullable_prod p /\ p_head p = A.

  Lemma the_prod_unique A p q : the_prod A p -> the_prod A q -> p = q.
  Proof.
    intros [Pp Hp] [Pq Hq].
    assert (K : In A (bt_keys nts)).
    { apply Nk. apply lang_iff. exists (elements p). rewrite <- Hp. split; [apply prods_rhs; [exact W|apply Pp]|apply Pp]. }
    apply bt_keys_In in K. destruct K as (s & G). destruct (N1 A s G) as (x & ->).
    assert (Ep : In p [x]) by (apply (Np A [x] G); split; assumption).
    assert (Eq_ : In q [x]) by (apply (Np A [x] G); split; assumption).
    destruct Ep as [<-|[]], Eq_ as [<-|[]]. reflexivity.
  Qed.

  Definition amap_ok (am : btmap NT (Prod T NT AK AV)) (l : list (NT * btset (Prod T NT AK AV))) : Prop :=
    forall A s, In (A, s) l -> exists p, bt_get A am = Some p /\ s = [p].

  Lemma make_action_map_spec l m :
    NoDup (map fst l) -> (forall A s, In (A, s) l -> exists p, s = [p]) ->
    exists am, make_action_map l m = Ret am /\ amap_ok am l /\
      forall A, ~ In A (map fst l) -> bt_get A am = bt_get A m.
  Proof.
    revert m. induction l as [|[A s] l IH]; intros m ND F; cbn [make_action_map].
    - exists m. split; [reflexivity|]. split; [intros A s []|reflexivity].
    - destruct (F A s (or_introl eq_refl)) as (p & ->). cbn [get_only assert_ obind].
      inversion ND as [|? ? Nin ND']; subst.
      destruct (IH (bt_insert A p m) ND') as (am & E & Ok_ & Oth).
      { intros B s I. apply (F B s). right. exact I. }
      exists am. split; [exact E|]. split.
      + intros B s [Q|I]; [|apply Ok_; exact I]. injection Q as <- <-. exists p. split; [|reflexivity].
        rewrite Oth by exact Nin. apply bt_get_insert_eq.
      + intros B NB. simpl in NB. rewrite Oth by tauto. apply bt_get_insert_ne. intros ->. tauto.
  Qed.

  Variable am : btmap NT (Prod T NT AK AV).
  Hypothesis Am : amap_ok am nts.

  Lemma am_get A : lang (rhs_of g) A [] -> exists p, bt_get A am = Some p /\ the_prod A p.
  Proof.
    intro L. apply Nk in L. apply bt_keys_In in L. destruct L as (s & G).
    destruct (Am A s (bt_get_In _ _ _ G)) as (p & Gp & ->). exists p. split; [exact Gp|].
    apply (Np A [p] G). left. reflexivity.
  Qed.

  (** [null_fields] fails iff some named nonterminal has no action yet. *)
  Lemma null_fields_None (infos : GrammarNullableInfo NT AK) es fields :
    null_fields (T := T) infos es fields = None <->
    exists e id B, In e es /\ pe_id e = Some id /\ pe_elem e = NonTerm B /\ bt_get B infos = None.
  Proof.
    revert fields. induction es as [|e es IH]; intro fields; cbn [null_fields].
    - split; [discriminate|]. intros (e & id & B & [] & _).
    - destruct (pe_id e) as [id|] eqn:Eid; [destruct (pe_elem e) as [t|B] eqn:Ee|].
      + rewrite IH. split; intros (e' & id' & B & I & X); exists e', id', B.
        * split; [right; exact I|exact X].
        * destruct I as [<-|I]; [|split; [exact I|exact X]]. destruct X as (_ & X & _). congruence.
      + destruct (bt_get B infos) as [s|] eqn:G.
        * rewrite IH. split; intros (e' & id' & B' & I & X); exists e', id', B'.
          -- split; [right; exact I|exact X].
          -- destruct I as [<-|I]; [|split; [exact I|exact X]]. destruct X as (_ & X & Y). congruence.
        * split; [|reflexivity]. intros _. exists e, id, B. split; [left; reflexivity|]. auto.
      + rewrite IH. split; intros (e' & id' & B & I & X); exists e', id', B.
        * split; [right; exact I|exact X].
        * destruct I as [<-|I]; [|split; [exact I|exact X]]. destruct X as (X & _). congruence.
  Qed.

  Definition extends (i j : GrammarNullableInfo NT AK) : Prop :=
    forall A t, bt_get A i = Some t -> bt_get A j = Some t.

  Lemma null_fields_ext i j es fields r :
    extends i j -> null_fields (T := T) i es fields = Some r -> null_fields (T := T) j es fields = Some r.
  Proof.
    intro X. revert fields. induction es as [|e es IH]; intro fields; cbn [null_fields]; [auto|].
    destruct (pe_id e) as [id|]; [destruct (pe_elem e) as [t|B]|]; auto.
    destruct (bt_get B i) as [s|] eqn:G; [|discriminate]. rewrite (X _ _ G). apply IH.
  Qed.

  (** Invariant of the second loop. *)
  Definition cinv (infos : GrammarNullableInfo NT AK) : Prop :=
    msorted infos /\
    forall A t, bt_get A infos = Some t ->
      exists p fields, the_prod A p /\ null_fields infos (prod_elements p) [] = Some fields /\
        t = TNode (prod_key p) fields.

  Lemma complete_pass_spec rem infos :
    NoDup rem -> (forall A, In A rem -> lang (rhs_of g) A [] /\ bt_get A infos = None) -> cinv infos ->
    exists infos', complete_pass am rem infos = Ret infos' /\ cinv infos' /\ extends infos infos' /\
      (forall A, In A (bt_keys infos') -> In A (bt_keys infos) \/ In A rem) /\
      ((infos' = infos /\ forall A p, In A rem -> the_prod A p ->
          null_fields infos (prod_elements p) [] = None) \/
       exists A, In A rem /\ In A (bt_keys infos')).
  Proof.
    revert infos. induction rem as [|A rem IH]; intros infos ND F C; cbn [complete_pass].
    - exists infos. split; [reflexivity|]. split; [exact C|]. split; [intros B t E; exact E|].
      split; [auto|]. left. split; [reflexivity|]. intros A p [].
    - inversion ND as [|? ? Nin ND']; subst.
      destruct (F A (or_introl eq_refl)) as [LA GA].
      destruct (am_get A LA) as (p & Gp & Tp). rewrite Gp. cbn [expect obind].
      destruct (null_fields infos (prod_elements p) []) as [fields|] eqn:NF.
      + set (infos1 := bt_insert A (TNode (prod_key p) fields) infos).
        assert (X1 : extends infos infos1).
        { intros B t E. unfold infos1. rewrite bt_get_insert_ne; [exact E|]. intros ->. congruence. }
        assert (C1 : cinv infos1).
        { split; [apply bt_insert_sorted; apply C|]. intros B t. unfold infos1. rewrite bt_get_insert.
          destruct (eqb_spec B A) as [->|Ne].
          - intro Q. injection Q as <-. exists p, fields. split; [exact Tp|]. split; [|reflexivity].
            exact (null_fields_ext _ _ _ _ _ X1 NF).
          - intro G. destruct (proj2 C B t G) as (q & fs & Tq & Nq & ->). exists q, fs.
            split; [exact Tq|]. split; [|reflexivity]. exact (null_fields_ext _ _ _ _ _ X1 Nq). }
        destruct (IH infos1 ND') as (infos' & E & C' & X' & K' & D').
        * intros B I. destruct (F B (or_intror I)) as [LB GB]. split; [exact LB|].
          unfold infos1. rewrite bt_get_insert_ne; [exact GB|]. intros ->. contradiction.
        * exact C1.
        * exists infos'. split; [exact E|]. split; [exact C'|].
          split; [intros B t G; apply X', X1; exact G|]. split.
          -- intros B KB. destruct (K' B KB) as [Q|Q]; [|right; right; exact Q].
             unfold infos1 in Q. rewrite bt_keys_insert in Q. apply bs_add_In in Q.
             destruct Q as [->|Q]; [right; left; reflexivity|left; exact Q].
          -- right. exists A. split; [left; reflexivity|]. apply bt_keys_In.
             exists (TNode (prod_key p) fields). apply X'. apply bt_get_insert_eq.
      + destruct (IH infos ND') as (infos' & E & C' & X' & K' & D').
        * intros B I. apply F. right. exact I.
        * exact C.
        * exists infos'. split; [exact E|]. split; [exact C'|]. split; [exact X'|]. split.
          -- intros B KB. destruct (K' B KB); [auto|right; right; assumption].
          -- destruct D' as [[-> D']|(B & I & KB)]; [left|right].
             ++ split; [reflexivity|]. intros B q [<-|I] Tq; [|exact (D' B q I Tq)].
                rewrite (the_prod_unique A q p Tq Tp). exact NF.
             ++ exists B. split; [right; exact I|exact KB].
  Qed.

  Lemma fold_remove_sorted (l : list NT) s : sorted s ->
    sorted (fold_left (fun r nt => bs_remove nt r) l s).
  Proof.
    revert s. induction l as [|y l IH]; intros s S; cbn [fold_left]; [exact S|].
    apply IH. apply bs_remove_sorted. exact S.
  Qed.
  Lemma fold_remove_In x (l : list NT) s : sorted s ->
    (In x (fold_left (fun r nt => bs_remove nt r) l s) <-> In x s /\ ~ In x l).
  Proof.
    revert s. induction l as [|y l IH]; intros s S; cbn [fold_left].
    - simpl. tauto.
    - rewrite (IH (bs_remove y s) (bs_remove_sorted _ _ S)).
      rewrite bs_remove_In by exact S. simpl. intuition congruence.
  Qed.

  Definition rem_ok (rem : btset NT) (infos : GrammarNullableInfo NT AK) : Prop :=
    sorted rem /\ (forall A, In A (bt_keys infos) -> lang (rhs_of g) A []) /\
    forall A, In A rem <-> lang (rhs_of g) A [] /\ bt_get A infos = None.

  Lemma in_dec_keys A (infos : GrammarNullableInfo NT AK) : In A (bt_keys infos) \/ ~ In A (bt_keys infos).
  Proof.
    destruct (bt_mem A infos) eqn:M; [left; apply bt_mem_iff; exact M|right].
    intro I. apply bt_mem_iff in I. congruence.
  Qed.
  Lemma get_None_keys (infos : GrammarNullableInfo NT AK) A : bt_get A infos = None <-> ~ In A (bt_keys infos).
  Proof.
    rewrite bt_keys_In. destruct (bt_get A infos) as [t|]; split; try congruence.
    - intro N. destruct N. exists t. reflexivity.
    - intros _ (t & E). discriminate.
  Qed.

  Lemma complete_loop_spec : forall fuel rem infos,
    length rem < fuel -> rem_ok rem infos -> cinv infos ->
    exists infos', complete_loop am fuel rem infos = Ret infos' /\ cinv infos' /\
      forall A, In A (bt_keys infos') <-> lang (rhs_of g) A [].
  Proof.
    induction fuel as [|fuel IH]; intros rem infos L (Sr & Sk & Rr) C; [lia|]. cbn [complete_loop].
    destruct (complete_pass_spec rem infos (sorted_NoDup _ Sr)) as (infos1 & E & C1 & X1 & K1 & D1).
    { intros A I. apply Rr. exact I. }
    { exact C. }
    rewrite E. cbn [obind]. cbn zeta.
    pose (rem1 := fold_left (fun r nt => bs_remove nt r) (bt_keys infos1) rem). fold rem1.
    assert (M1 : forall A, In A rem1 <-> In A rem /\ ~ In A (bt_keys infos1)).
    { intro A. apply fold_remove_In. exact Sr. }
    assert (Sd1 : forall A, In A (bt_keys infos1) -> lang (rhs_of g) A []).
    { intros A I. destruct (K1 A I) as [Q|Q]; [exact (Sk A Q)|]. apply Rr. exact Q. }
    assert (R1 : rem_ok rem1 infos1).
    { split; [apply fold_remove_sorted; exact Sr|]. split; [exact Sd1|].
      intro A. rewrite M1, Rr, get_None_keys, get_None_keys. split; [tauto|].
      intros [La Na]. split; [split; [exact La|]|exact Na]. intro Ka. apply Na.
      apply bt_keys_In in Ka. destruct Ka as (t & Ga). apply bt_keys_In. exists t. apply X1. exact Ga. }
    destruct D1 as [[-> D]|(A & IA & KA)].
    - (* nothing was added: everything is there already *)
      assert (All : forall es, gen (rhs_of g) es [] -> forall B, In (NonTerm B) es -> In B (bt_keys infos)).
      { apply gen_empty_rank. intros A rhs Pr G F. destruct (rhs_prods g W A rhs Pr) as (p & Ip & Ha & <-).
        assert (Tp : the_prod A p) by (split; [split; assumption|exact Ha]).
        destruct (bt_get A infos) as [t|] eqn:Ga; [apply bt_keys_In; exists t; exact Ga|].
        exfalso.
        assert (Ir : In A rem).
        { apply Rr. split; [|exact Ga]. apply lang_iff. exists (elements p). split; assumption. }
        pose proof (D A p Ir Tp) as NF. apply null_fields_None in NF.
        destruct NF as (e & id & B & Ie & _ & Ee & Nb).
        assert (KB : In B (bt_keys infos)).
        { apply F. unfold elements, elements_iter. rewrite <- Ee. apply in_map. exact Ie. }
        apply bt_keys_In in KB. destruct KB as (t & Gt). congruence. }
      assert (Full : forall A, In A (bt_keys infos) <-> lang (rhs_of g) A []).
      { intro A. split; [apply Sk|]. intro La. apply (All [NonTerm A] La). left. reflexivity. }
      destruct rem1 as [|x rem2] eqn:Er.
      + exists infos. split; [reflexivity|]. split; [exact C|exact Full].
      + exfalso. destruct (proj1 (M1 x) (or_introl eq_refl)) as [Ix Nx]. apply Nx, Full. apply Rr. exact Ix.
    - destruct rem1 as [|x rem2] eqn:Er.
      + exists infos1. split; [reflexivity|]. split; [exact C1|]. intro B. split; [apply Sd1|].
        intro Lb. destruct (in_dec_keys B infos1) as [K|K]; [exact K|]. exfalso.
        apply (proj2 (M1 B)). split; [|exact K].
        apply Rr. split; [exact Lb|]. apply get_None_keys. intro Kb. apply K.
        apply bt_keys_In in Kb. destruct Kb as (t & Ga). apply bt_keys_In. exists t. apply X1. exact Ga.
      + rewrite <- Er. apply (IH rem1 infos1); [|rewrite Er; exact R1|exact C1].
        assert (Lt1 : length rem1 < length rem); [|lia].
        assert (S1 : sorted rem1) by (apply fold_remove_sorted; exact Sr).
        assert (I1 : incl (A :: rem1) rem).
        { intros y [<-|Iy]; [exact IA|]. rewrite Er in Iy. apply M1. exact Iy. }
        assert (ND : NoDup (A :: rem1)).
        { constructor; [|apply sorted_NoDup; exact S1]. intro Ia. rewrite Er in Ia. apply M1 in Ia. tauto. }
        pose proof (NoDup_incl_length ND I1) as Q. simpl in Q. lia.
  Qed.
End Nullable.
