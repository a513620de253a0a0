(** Assembly of the facts about the Nullable pass. *)
From Coq Require Import String List Arith Lia Bool NArith.
From Verif.Model Require Import Ord BTree Outcome Utils Grammar Nullable.
From Verif.Spec Require Import Reach Cfg BuildSpec NullSpec.
From Verif.Proofs Require Import OrdFacts BTreeFacts LoopFacts UtilsFacts GrammarFacts NullableFacts.
Import ListNotations.

Lemma last_occurrence {T NT} (es : list (ProdElement T NT)) id :
  (exists e, In e es /\ pe_id e = Some id) ->
  exists pre e' post, es = pre ++ e' :: post /\ pe_id e' = Some id /\
    forall e, In e post -> pe_id e = Some id -> False.
Proof.
  induction es as [|x es IH]; [intros (e & [] & _)|]. intros (e & I & E).
  destruct (existsb (fun e => match pe_id e with Some i => String.eqb i id | None => false end) es) eqn:Ex.
  - apply existsb_exists in Ex. destruct Ex as (e1 & I1 & E1).
    destruct IH as (pre & e' & post & -> & Ee & F).
    + exists e1. split; [exact I1|]. destruct (pe_id e1) as [i|]; [|discriminate].
      apply String.eqb_eq in E1. congruence.
    + exists (x :: pre), e', post. auto.
  - assert (NI : forall e, In e es -> pe_id e = Some id -> False).
    { intros e1 I1 X. apply not_true_iff_false in Ex. apply Ex. apply existsb_exists.
      exists e1. split; [exact I1|]. rewrite X. apply String.eqb_refl. }
    destruct I as [->|I]; [|destruct (NI e I E)]. exists [], e, es. auto.
Qed.

Section Null.
  Context {T NT AK AV : Type} `{OrdEq NT}.
  Variable lay : layout NT.
  Variable g : Grammar T NT AK AV.
  Hypothesis Inj : lay_inj g lay.
  Hypothesis W : rs_wf g.

  Let OP : Ord (Prod T NT AK AV) := Ord_Prod lay.

  Lemma inner_mono : fuel_mono (inner_calculate_nullables lay g).
  Proof. exact (change_loop_mono _ []). Qed.

  Lemma complete_loop_mono (am : btmap NT (Prod T NT AK AV)) rem infos :
    fuel_mono (fun n => complete_loop am n rem infos).
  Proof.
    intro n. revert rem infos. induction n as [|n IH]; intros rem infos m L N; [simpl in N; congruence|].
    destruct m as [|m]; [lia|]. cbn [complete_loop] in *.
    destruct (complete_pass am rem infos) as [i| |]; cbn [obind] in *; try reflexivity.
    cbn zeta in *. destruct (fold_left _ _ _); [reflexivity|]. apply IH; [lia|exact N].
  Qed.

  Lemma calculate_nullables_mono : fuel_mono (calculate_nullables lay g).
  Proof.
    apply (fuel_mono_bind (inner_calculate_nullables lay g)); [exact inner_mono|]. intro i.
    apply (fuel_mono_bind (fun _ => check_infos (bt_values i))); [apply fuel_mono_const|]. intros [e|].
    - apply fuel_mono_const.
    - apply (fuel_mono_bind (fun _ => make_action_map i [])); [apply fuel_mono_const|]. intro am.
      apply (fuel_mono_bind (fun n => complete_loop am n _ _)); [apply complete_loop_mono|].
      intro infos. apply fuel_mono_const.
  Qed.

  Theorem calculate_nullables_spec :
    (null_ambiguous g /\ runs_to (calculate_nullables lay g) (Ret (Err Ambiguity))) \/
    (~ null_ambiguous g /\ exists info, runs_to (calculate_nullables lay g) (Ret (Ok info)) /\
       cinv g info /\ (forall A, In A (bt_keys info) <-> lang (rhs_of g) A [])).
  Proof.
    destruct (inner_spec lay g Inj W) as (nts & R & N & Nk & Np).
    destruct (check_infos_spec (bt_values nts)) as [[E F]|[E (i & I & L)]].
    - intros i I. unfold bt_values in I. apply in_map_iff in I. destruct I as ([A s] & <- & I).
      apply bt_get_iff in I; [|apply N]. apply (proj2 N A s I).
    - right.
      assert (N1 : forall A s, bt_get A nts = Some s -> exists p, s = [p]).
      { intros A s G. apply F. unfold bt_values. apply in_map_iff. exists (A, s).
        split; [reflexivity|]. apply bt_get_In. exact G. }
      split.
      + intro Amb. apply (ambiguous_iff g W) in Amb. destruct Amb as (p & q & Hp & Hq & Eh & Ne).
        apply Ne. apply (the_prod_unique g W nts Nk Np N1 (p_head q)); split; auto.
      + destruct (make_action_map_spec nts []) as (am & Em & Am & _).
        { apply sorted_NoDup. apply N. }
        { intros A s I. apply N1 with (A := A). apply bt_get_iff; [apply N|exact I]. }
        set (rem := bs_of_list (bt_keys nts)).
        destruct (complete_loop_spec g W nts Nk Np N1 am Am (S (length rem)) rem []) as (info & Ec & C & K).
        * lia.
        * split; [apply bs_of_list_sorted|]. split; [intros A []|]. intro A. unfold rem.
          rewrite bs_of_list_In, Nk. simpl. tauto.
        * split; [apply sorted_nil|]. intros A t Q. discriminate.
        * exists info. split; [|split; [exact C|exact K]].
          apply (runs_to_bind (inner_calculate_nullables lay g) _ nts); [exact R|].
          cbv beta. rewrite E. cbn [obind]. rewrite Em. cbn [obind].
          apply (runs_to_bind (fun n => complete_loop am n _ _) (fun _ infos => Ret (Ok infos)) info).
          -- apply (runs_to_mono _ (S (length rem))); [apply complete_loop_mono|exact Ec|discriminate].
          -- apply runs_to_ret.
    - left. split.
      + apply (ambiguous_iff g W). unfold bt_values in I. apply in_map_iff in I.
        destruct I as ([A s] & Es & I). simpl in Es. subst s.
        apply bt_get_iff in I; [|apply N].
        destruct i as [|p [|q i]]; simpl in L; try lia.
        exists p, q. destruct (proj1 (Np A _ I p) (or_introl eq_refl)) as [Pp Hp].
        destruct (proj1 (Np A _ I q) (or_intror (or_introl eq_refl))) as [Pq Hq].
        split; [exact Pp|]. split; [exact Pq|]. split; [congruence|].
        destruct (proj2 N A _ I) as (_ & S & _). apply sorted_NoDup in S.
        inversion S as [|? ? Nin _]; subst. intros ->. apply Nin. left. reflexivity.
      + apply (runs_to_bind (inner_calculate_nullables lay g) _ nts); [exact R|].
        cbv beta. rewrite E. cbn [obind]. apply runs_to_ret.
  Qed.

  (** ** The recorded tree *)
  Lemma null_fields_params (infos : GrammarNullableInfo NT AK) es fields r :
    msorted fields -> null_fields (T := T) infos es fields = Some r ->
    msorted r /\
    forall id, (exists B t, last_named es id B /\ bt_get B infos = Some t /\ bt_get id r = Some (TVNode t)) \/
               ((forall B, ~ last_named es id B) /\
                ((forall e, In e es -> pe_id e = Some id -> exists t, pe_elem e = Term t) ->
                 bt_get id r = bt_get id fields)).
  Proof.
    revert fields. induction es as [|e es IH]; intros fields S E; cbn [null_fields] in E.
    - injection E as <-. split; [exact S|]. intro id. right. split.
      + intros B (pre & post & X & _). destruct pre; discriminate.
      + reflexivity.
    - assert (Cons : forall id B, last_named es id B -> last_named (e :: es) id B).
      { intros id B (pre & post & -> & F). exists (e :: pre), post. split; [reflexivity|exact F]. }
      assert (Inv : forall id B, last_named (e :: es) id B -> last_named es id B \/
                    (e = Build_ProdElement (Some id) (NonTerm B) /\ forall e', In e' es -> pe_id e' = Some id -> False)).
      { intros id B (pre & post & X & F). destruct pre as [|x pre]; simpl in X; injection X as -> ->.
        - right. split; [reflexivity|exact F].
        - left. exists pre, post. split; [reflexivity|exact F]. }
      destruct e as [oid el]. cbn [pe_id pe_elem] in E.
      destruct oid as [id0|]; [destruct el as [t|B0]|].
      + destruct (IH fields S E) as [S' P]. split; [exact S'|]. intro id.
        destruct (P id) as [(B & tr & L & G & G')|[NL Q]].
        * left. exists B, tr. auto.
        * right. split.
          -- intros B L. destruct (Inv id B L) as [L'|[X _]]; [exact (NL B L')|discriminate].
          -- intro F. apply Q. intros e I. apply F. right. exact I.
      + destruct (bt_get B0 infos) as [s|] eqn:G0; [|discriminate].
        destruct (IH (bt_insert id0 (TVNode s) fields)) as [S' P]; [apply bt_insert_sorted; exact S|exact E|].
        split; [exact S'|]. intro id.
        destruct (P id) as [(B & tr & L & G & G')|[NL Q]].
        * left. exists B, tr. auto.
        * destruct (string_dec id id0) as [->|Ne].
          -- (* is id0 named later (by a terminal)? *)
             destruct (existsb (fun e => match pe_id e with Some i => String.eqb i id0 | None => false end) es) eqn:Ex.
             ++ right. split.
                ** intros B L. destruct (Inv id0 B L) as [L'|[_ X]]; [exact (NL B L')|].
                   apply existsb_exists in Ex. destruct Ex as (e & I & Eq).
                   apply (X e I). destruct (pe_id e) as [i|]; [|discriminate].
                   apply String.eqb_eq in Eq. congruence.
                ** intro F. destruct (F _ (or_introl eq_refl) eq_refl) as (t & X). discriminate.
             ++ left. exists B0, s.
                assert (NI : forall e, In e es -> pe_id e = Some id0 -> False).
                { intros e I X. apply not_true_iff_false in Ex. apply Ex. apply existsb_exists.
                  exists e. split; [exact I|]. rewrite X. apply String.eqb_refl. }
                split; [|split; [exact G0|]].
                ** exists [], es. split; [reflexivity|exact NI].
                ** rewrite Q; [apply bt_get_insert_eq|]. intros e I X. destruct (NI e I X).
          -- right. split.
             ++ intros B L. destruct (Inv id B L) as [L'|[X _]]; [exact (NL B L')|]. congruence.
             ++ intro F. rewrite Q; [apply bt_get_insert_ne; exact Ne|]. intros e I. apply F. right. exact I.
      + destruct (IH fields S E) as [S' P]. split; [exact S'|]. intro id.
        destruct (P id) as [(B & tr & L & G & G')|[NL Q]].
        * left. exists B, tr. auto.
        * right. split.
          -- intros B L. destruct (Inv id B L) as [L'|[X _]]; [exact (NL B L')|discriminate].
          -- intro F. apply Q. intros e I. apply F. right. exact I.
  Qed.

  Lemma last_named_fun es id (B C : NT) : last_named (T := T) es id B -> last_named es id C -> B = C.
  Proof.
    intros (pre & post & E & F) (pre' & post' & E' & F'). subst es.
    revert pre' E'. induction pre as [|x pre IH]; intros [|y pre'] E'; simpl in E'.
    - injection E' as -> _. reflexivity.
    - injection E' as <- E'. exfalso. apply (F (Build_ProdElement (Some id) (NonTerm C))).
      + rewrite E'. apply in_or_app. right. left. reflexivity.
      + reflexivity.
    - injection E' as -> E'. exfalso. apply (F' (Build_ProdElement (Some id) (NonTerm B))).
      + rewrite <- E'. apply in_or_app. right. left. reflexivity.
      + reflexivity.
    - injection E' as _ E'. exact (IH pre' E').
  Qed.

  Variable info : GrammarNullableInfo NT AK.
  Hypothesis C : cinv g info.
  Hypothesis K : forall A, In A (bt_keys info) <-> lang (rhs_of g) A [].
  Hypothesis U : ~ null_ambiguous g.

  Lemma null_prod_unique A p q :
    In p (prods g) -> In q (prods g) -> p_head p = A -> p_head q = A ->
    gen (rhs_of g) (elements p) [] -> gen (rhs_of g) (elements q) [] -> p = q.
  Proof.
    intros Ip Iq Hp Hq Gp Gq. destruct (Nat.eq_dec (p_ix p) (p_ix q)) as [E|E].
    - apply (prod_eq g W); auto. congruence.
    - exfalso. apply U. exists A, (p_ix p), (p_ix q), (p_inner p), (p_inner q).
      split; [rewrite <- Hp; apply (prods_In g W); exact Ip|].
      split; [rewrite <- Hq; apply (prods_In g W); exact Iq|]. auto.
  Qed.

  Lemma no_named_term A p : prod_of g A p -> gen (rhs_of g) (map pe_elem (pi_elements p)) [] ->
    forall e, In e (pi_elements p) -> exists B, pe_elem e = NonTerm B /\ lang (rhs_of g) B [].
  Proof.
    intros _ G e I. rewrite gen_empty in G. apply G. apply in_map. exact I.
  Qed.

  (** What the map contains for each nullable nonterminal. *)
  Lemma info_get A t : bt_get A info = Some t ->
    exists p params, prod_of g A p /\ gen (rhs_of g) (map pe_elem (pi_elements p)) [] /\
      t = TNode (Build_ProdKey A (pi_action_key p)) params /\ msorted params /\
      (forall id v, In (id, v) params <-> exists B t', last_named (pi_elements p) id B /\ v = TVNode t' /\ bt_get B info = Some t').
  Proof.
    intro G. destruct (proj2 C A t G) as (p & fields & [[Ip Gp] Hp] & NF & ->).
    exists (p_inner p), fields. split; [rewrite <- Hp; apply prods_prod_of; [exact W|exact Ip]|].
    split; [exact Gp|]. split; [unfold prod_key; rewrite Hp; reflexivity|].
    destruct (null_fields_params info (prod_elements p) [] fields) as [S P]; [apply sorted_nil|exact NF|].
    split; [exact S|]. intros id v. rewrite <- (bt_get_iff id v fields S).
    destruct (P id) as [(B & t' & L & GB & Gi)|[NL Q]].
    - rewrite Gi. split.
      + intro E. injection E as <-. exists B, t'. auto.
      + intros (B' & t2 & L' & -> & G2). rewrite (last_named_fun _ _ _ _ L L') in GB. congruence.
    - split.
      + intro E. exfalso.
        assert (NN : forall e, In e (prod_elements p) -> pe_id e = Some id -> False).
        { intros e I Ei.
          destruct (last_occurrence (prod_elements p) id) as (pre & e' & post & X & Ei' & F).
          - exists e. auto.
          - destruct (no_named_term A (p_inner p)) with (e := e') as (B & Eb & _).
            + rewrite <- Hp. apply prods_prod_of; [exact W|exact Ip].
            + exact Gp.
            + unfold prod_elements in X. rewrite X. apply in_or_app. right. left. reflexivity.
            + apply (NL B). exists pre, post. split; [|exact F]. rewrite X. destruct e' as [i el].
              simpl in *. subst. reflexivity. }
        rewrite Q in E; [discriminate|]. intros e I Ei. destruct (NN e I Ei).
      + intros (B & t' & L & _). destruct (NL B L).
  Qed.

  Lemma prod_of_rhs A p : prod_of g A p -> rhs_of g A (map pe_elem (pi_elements p)).
  Proof. intro Pr. exists p. auto. Qed.

  Lemma null_pi_unique A p q : prod_of g A p -> prod_of g A q ->
    gen (rhs_of g) (map pe_elem (pi_elements p)) [] -> gen (rhs_of g) (map pe_elem (pi_elements q)) [] -> p = q.
  Proof.
    intros Pp Pq Gp Gq. apply prod_of_nth in Pp, Pq. destruct Pp as (i & Ni), Pq as (j & Nj).
    assert (E : Build_Prod A i p = Build_Prod A j q).
    { apply (null_prod_unique A); auto; apply (prods_In g W); assumption. }
    congruence.
  Qed.

  Lemma last_named_In (es : list (ProdElement T NT)) id B : last_named es id B -> In (NonTerm B) (map pe_elem es).
  Proof.
    intros (pre & post & -> & _). rewrite map_app. apply in_or_app. right. left. reflexivity.
  Qed.

  Lemma info_null_tree_ : forall es, gen (rhs_of g) es [] -> forall B, In (NonTerm B) es ->
    forall t, bt_get B info = Some t <-> null_tree g B t.
  Proof.
    apply (gen_empty_rank (rhs_of g) (fun B => forall t, bt_get B info = Some t <-> null_tree g B t)). intros A rhs Pr G IH.
    assert (KA : In A (bt_keys info)) by (apply K; apply lang_iff; exists rhs; auto).
    apply bt_keys_In in KA. destruct KA as (t0 & G0).
    destruct (info_get A t0 G0) as (p & params & Pp & Gp & E0 & S & P).
    destruct Pr as (p' & Pp' & ->).
    pose proof (null_pi_unique A p' p Pp' Pp G Gp) as ->.
    intro t. split.
    - intro Gt. rewrite G0 in Gt. injection Gt as <-. rewrite E0. constructor.
      + exact Pp.
      + exact Gp.
      + exact S.
      + intros id v I. apply P in I. destruct I as (B & t' & L & -> & GB). exists B, t'.
        split; [exact L|]. split; [reflexivity|]. apply IH; [exact (last_named_In _ _ _ L)|exact GB].
      + intros id B L.
        assert (KB : In B (bt_keys info)).
        { apply K. pose proof (proj1 (gen_empty _ _) Gp _ (last_named_In _ _ _ L)) as (B' & EB & LB).
          injection EB as <-. exact LB. }
        apply bt_keys_In in KB. destruct KB as (t' & Gt). exists (TVNode t'). apply P. exists B, t'. auto.
    - intro Nt. destruct Nt as [A q ps Pq Gq Sq Fv Fe].
      pose proof (null_pi_unique A q p Pq Pp Gq Gp) as ->.
      rewrite G0, E0. f_equal. f_equal. apply msorted_ext; [exact S|exact Sq|].
      assert (EV : forall id v, In (id, v) params <-> In (id, v) ps).
      { intros id v. split.
        - intro I. apply P in I. destruct I as (B & t' & L & -> & GB).
          destruct (Fe id B L) as (v & Iv). destruct (Fv id v Iv) as (B' & t2 & L' & -> & N2).
          rewrite <- (last_named_fun _ _ _ _ L L') in N2. apply IH in N2; [|exact (last_named_In _ _ _ L)].
          assert (t2 = t') as -> by congruence. exact Iv.
        - intro I. destruct (Fv id v I) as (B & t' & L & -> & N2). apply P. exists B, t'.
          split; [exact L|]. split; [reflexivity|]. apply IH; [exact (last_named_In _ _ _ L)|exact N2]. }
      intro id. destruct (bt_get id params) as [v|] eqn:Gi.
      + symmetry. apply (bt_get_iff id v ps Sq). apply EV. apply bt_get_In. exact Gi.
      + destruct (bt_get id ps) as [v|] eqn:Gi'; [|reflexivity]. apply bt_get_In in Gi'. apply EV in Gi'.
        apply (bt_get_iff id v params S) in Gi'. congruence.
  Qed.

  Lemma info_null_tree A t : bt_get A info = Some t <-> null_tree g A t.
  Proof.
    assert (LA : lang (rhs_of g) A [] -> (bt_get A info = Some t <-> null_tree g A t)).
    { intro L. apply (info_null_tree_ [NonTerm A] L). left. reflexivity. }
    split.
    - intro G. apply LA; [|exact G]. apply K, bt_keys_In. exists t. exact G.
    - intro N. apply LA; [|exact N]. destruct N as [A p ps Pp Gp _ _ _]. apply lang_iff.
      eexists. split; [apply prod_of_rhs; exact Pp|exact Gp].
  Qed.
End Null.

(** Derivation trees of the empty word. *)
Section ETrees.
  Context {T NT AK AV : Type} `{OrdEq NT}.
  Variable g : Grammar T NT AK AV.
  Hypothesis W : rs_wf g.

  Scheme etree_of_ind2 := Induction for etree_of Sort Prop
    with etrees_of_ind2 := Induction for etrees_of Sort Prop.

  Lemma etree_sound A c : etree_of g A c -> lang (rhs_of g) A [].
  Proof.
    apply (etree_of_ind2 T NT AK AV g (fun A c _ => lang (rhs_of g) A [])
      (fun es cs _ => gen (rhs_of g) es [])).
    - intros A' ix p cs Np _ G. apply lang_iff. exists (map pe_elem (pi_elements p)). split; [|exact G].
      exists p. split; [apply prod_of_nth; exists ix; exact Np|reflexivity].
    - constructor.
    - intros A' es c0 cs _ L _ G. apply gen_cons_nt. exists [], []. auto.
  Qed.
  Lemma etrees_sound es cs : etrees_of g es cs -> gen (rhs_of g) es [].
  Proof.
    intro E. induction E as [|A es c cs Ec _ IH]; [constructor|].
    apply gen_cons_nt. exists [], []. split; [reflexivity|]. split; [exact (etree_sound _ _ Ec)|exact IH].
  Qed.

  Lemma etrees_exist es : (forall e, In e es -> exists B, e = NonTerm B /\ exists c, etree_of g B c) ->
    exists cs, etrees_of g es cs.
  Proof.
    induction es as [|e es IH]; intro F; [exists []; constructor|].
    destruct (F e (or_introl eq_refl)) as (B & -> & c & Ec). destruct IH as (cs & Ecs).
    - intros e I. apply F. right. exact I.
    - exists (c :: cs). constructor; assumption.
  Qed.
  Lemma etree_exists A : lang (rhs_of g) A [] -> exists c, etree_of g A c.
  Proof.
    intro L. apply (gen_empty_rank (rhs_of g) (fun A => exists c, etree_of g A c)) with (es := [NonTerm A]);
      [|exact L|left; reflexivity].
    intros A' rhs (p & Pp & ->) G IH. apply prod_of_nth in Pp. destruct Pp as (ix & Np).
    destruct (etrees_exist (map pe_elem (pi_elements p))) as (cs & Ecs).
    - intros e I. destruct (proj1 (gen_empty _ _) G e I) as (B & -> & _). exists B. auto.
    - exists (ENode ix cs). econstructor; eassumption.
  Qed.

  Lemma etrees_unique es cs ds :
    (forall B c d, In (NonTerm B) es -> etree_of g B c -> etree_of g B d -> c = d) ->
    etrees_of g es cs -> etrees_of g es ds -> cs = ds.
  Proof.
    intros U E. revert ds. induction E as [|A es c cs Ec _ IH]; intros ds E'; inversion E'; subst; [reflexivity|].
    f_equal.
    - apply (U A); [left; reflexivity|assumption..].
    - apply IH; [|assumption]. intros B c1 d1 I. apply U. right. exact I.
  Qed.

  Theorem ambiguous_trees :
    ~ null_ambiguous g <-> forall A, lang (rhs_of g) A [] -> exists c, etree_of g A c /\ forall d, etree_of g A d -> d = c.
  Proof.
    split.
    - intros U A L. destruct (etree_exists A L) as (c & Ec). exists c. split; [exact Ec|]. intros d Ed.
      revert d c Ed Ec.
      apply (gen_empty_rank (rhs_of g) (fun A => forall d c, etree_of g A d -> etree_of g A c -> d = c))
        with (es := [NonTerm A]); [|exact L|left; reflexivity].
      intros A' rhs Pr G IH d c Ed Ec. destruct Ed as [A' i p ds Np Eds]. inversion Ec as [A2 j q cs Nq Ecs]; subst.
      assert (Gp : body_derives_empty g p) by exact (etrees_sound _ _ Eds).
      assert (Gq : body_derives_empty g q) by exact (etrees_sound _ _ Ecs).
      destruct (Nat.eq_dec i j) as [<-|Ne].
      + f_equal. rewrite (nth_prod_fun g W _ _ _ _ Nq Np) in *.
        destruct Pr as (p' & Pp' & ->).
        assert (p' = p) as ->.
        { apply prod_of_nth in Pp'. destruct Pp' as (k & Nk). destruct (Nat.eq_dec k i) as [->|Nk'].
          - exact (nth_prod_fun g W _ _ _ _ Nk Np).
          - exfalso. apply U. exists A', k, i, p', p. auto. }
        apply (etrees_unique (map pe_elem (pi_elements p))); [|exact Eds|exact Ecs].
        intros B c1 d1 I E1 E2. apply (IH B I); assumption.
      + exfalso. apply U. exists A', i, j, p, q. auto.
    - intros F (A & i & j & p & q & Np & Nq & Ne & Gp & Gq).
      assert (T1 : forall k r, nth_prod g A k r -> body_derives_empty g r -> exists cs, etree_of g A (ENode k cs)).
      { intros k r Nr Gr. destruct (etrees_exist (map pe_elem (pi_elements r))) as (cs & Ecs).
        - intros e I. destruct (proj1 (gen_empty _ _) Gr e I) as (B & -> & LB). exists B.
          split; [reflexivity|]. apply etree_exists. exact LB.
        - exists cs. econstructor; eassumption. }
      destruct (T1 i p Np Gp) as (c1 & E1). destruct (T1 j q Nq Gq) as (c2 & E2).
      destruct (F A (etree_sound _ _ E1)) as (c & _ & Un). apply Un in E1, E2. congruence.
  Qed.
End ETrees.

(** Statements for [Properties/NullableProps.v]. *)
Section Final.
  Context {T NT AK AV : Type} `{OrdEq NT}.
  Variable lay : layout NT.
  Variable g : Grammar T NT AK AV.
  Hypothesis Inj : lay_inj g lay.
  Hypothesis B : built g.

  Let W : rs_wf g := acc_wf g (built_accepted g B).

  Lemma nullable_final :
    (null_ambiguous g /\ runs_to (calculate_nullables lay g) (Ret (Err Ambiguity))) \/
    (~ null_ambiguous g /\ exists info, runs_to (calculate_nullables lay g) (Ret (Ok info)) /\
       msorted info /\
       (forall A, is_nullable info A = true <-> derives_empty g A) /\
       (sorted (get_nullable_set info) /\ forall A, In A (get_nullable_set info) <-> derives_empty g A) /\
       (forall A i p, nth_prod g A i p ->
          (is_prod_nullable info (Build_Prod A i p) = true <-> body_derives_empty g p)) /\
       (forall A t, get_nullable_action info A = Some t <-> null_tree g A t)).
  Proof.
    destruct (calculate_nullables_spec lay g Inj W) as [L|(U & info & R & C & K)]; [left; exact L|right].
    split; [exact U|]. exists info. split; [exact R|].
    split; [apply C|].
    split; [|split; [split|split]].
    - intro A. unfold is_nullable. rewrite bt_mem_iff. apply K.
    - apply bs_of_list_sorted.
    - intro A. unfold get_nullable_set. rewrite bs_of_list_In. apply K.
    - intros A i p _. unfold is_prod_nullable. rewrite elems_nullable_iff. unfold body_derives_empty.
      rewrite gen_empty. unfold elements, elements_iter. simpl. split; intros F e I.
      + destruct (F e I) as (X & -> & KX). exists X. split; [reflexivity|]. apply K. exact KX.
      + destruct (F e I) as (X & -> & KX). exists X. split; [reflexivity|]. apply K. exact KX.
    - intros A t. apply (info_null_tree g W info C K U).
  Qed.

  Lemma nullable_ok_inv n info : calculate_nullables lay g n = Ret (Ok info) ->
    runs_to (calculate_nullables lay g) (Ret (Ok info)).
  Proof.
    intro E. apply (runs_to_mono _ n); [apply calculate_nullables_mono|exact E|discriminate].
  Qed.

  Lemma nullable_decides :
    exists r, runs_to (calculate_nullables lay g) (Ret r) /\
      forall info, r = Ok info ->
       (forall A, is_nullable info A = true <-> derives_empty g A) /\
       (forall A, In A (get_nullable_set info) <-> derives_empty g A) /\
       (forall A i p, nth_prod g A i p ->
          (is_prod_nullable info (Build_Prod A i p) = true <-> body_derives_empty g p)).
  Proof.
    destruct nullable_final as [[_ R]|(U & info & R & _ & N & S & P & _)].
    - exists (Err Ambiguity). split; [exact R|]. discriminate.
    - exists (Ok info). split; [exact R|]. intros i E. injection E as <-.
      split; [exact N|]. split; [apply S|exact P].
  Qed.

  Lemma nullable_verdict :
    (runs_to (calculate_nullables lay g) (Ret (Err Ambiguity)) <-> null_ambiguous g) /\
    ((exists info, runs_to (calculate_nullables lay g) (Ret (Ok info))) <-> ~ null_ambiguous g) /\
    (~ null_ambiguous g <-> forall A, derives_empty g A ->
       exists c, etree_of g A c /\ forall d, etree_of g A d -> d = c).
  Proof.
    split; [|split; [|exact (ambiguous_trees g W)]].
    - destruct nullable_final as [[Am R]|(U & info & R & _)]; split; auto.
      + intro R'. pose proof (runs_to_fun _ _ _ R R'). discriminate.
      + contradiction.
    - destruct nullable_final as [[Am R]|(U & info & R & _)]; split; auto.
      + intros (i & R'). pose proof (runs_to_fun _ _ _ R R'). discriminate.
      + contradiction.
      + intros _. exists info. exact R.
  Qed.

  Lemma nullable_actions info : runs_to (calculate_nullables lay g) (Ret (Ok info)) ->
    (forall A t, get_nullable_action info A = Some t <-> null_tree g A t) /\
    (forall A, (exists t, get_nullable_action info A = Some t) <-> derives_empty g A).
  Proof.
    intro R. destruct nullable_final as [[_ R']|(U & i & R' & _ & N & _ & _ & Tr)].
    - pose proof (runs_to_fun _ _ _ R R'). discriminate.
    - pose proof (runs_to_fun _ _ _ R R') as E. injection E as ->. split; [exact Tr|].
      intro A. rewrite <- N. unfold is_nullable. symmetry. apply bt_mem_get.
  Qed.
End Final.
