(** [from_prod_lookahead] as a whole, and LR(1). *)
From Coq Require Import String List Arith Lia Bool NArith Permutation Sorted.
From Verif.Model Require Import Ord BTree Outcome Utils Grammar Nullable Firsts State Lalr.
From Verif.Spec Require Import Reach Cfg BuildSpec NullSpec StateSpec LalrSpec.
From Verif.Proofs Require Import OrdFacts BTreeFacts LoopFacts UtilsFacts GrammarFacts NullableFacts CfgFacts
  FirstsFacts FollowsFacts FirstsMore StateFacts StateMore StateSets LalrFacts LalrMore.
Import ListNotations.

(** ** The closure only depends on which items there are *)
Section Ext.
  Context {T NT AK AV : Type}.
  Variable g : Grammar T NT AK AV.
  Local Notation PS := (ProdState T NT AK AV).
  Variables item item' : PS -> list T -> Prop.
  Hypothesis E : forall s ts, item s ts <-> item' s ts.
  Lemma closure_ext :
    (forall p t, carries g item p t -> carries g item' p t) /\
    (forall s, present g item s -> present g item' s) /\
    (forall s t, looks g item s t -> looks g item' s t).
  Proof.
    apply (closure_mut T NT AK AV g item (fun p t _ => carries g item' p t) (fun s _ => present g item' s)
      (fun s t _ => looks g item' s t)).
    - intros s ts t I It. apply (carries_item g item' s ts t); [apply E; exact I | exact It].
    - intros s A rest p t _ Ps Td Ip Hp _ L. exact (carries_step g item' s A rest p t Ps Td Ip Hp L).
    - intros s ts I. apply (present_item g item' s ts). apply E. exact I.
    - intros p t _ C N. apply (present_new g item' p t C). intros s ts I. apply (N s ts). apply E. exact I.
    - intros s A t rest Td. exact (looks_term g item' s A t rest Td).
    - intros s A C rest t Td F. exact (looks_nonterm g item' s A C rest t Td F).
    - intros s A t Td _ C. exact (looks_end g item' s A t Td C).
  Qed.
End Ext.

Section Main.
  Context {T NT AK AV : Type} `{OrdEq T} `{OrdEq NT}.
  Variable lay : layout NT.
  Variable g : Grammar T NT AK AV.
  Hypothesis B : built g.
  Hypothesis Inj : lay_inj g lay.
  Local Notation PS := (ProdState T NT AK AV).
  Local Notation Map := (btmap PS (btset T)).
  #[local] Hint Extern 0 (Ord (ProdState _ _ _ _)) => exact (Ord_ProdState lay) : typeclass_instances.
  #[local] Existing Instance TotalPre_PS.

  Local Notation item_ok := (item_of g).

  (** ** [collect] *)
  Lemma collect_keys kl (items : list (PS * btset T)) : bt_keys (collect_items lay kl items) = pss_from_iter lay kl (map fst items).
  Proof.
    unfold collect_items, pss_from_iter. destruct kl.
    - change (fold_left _ (rev items) []) with (bt_first (rev items)). rewrite bt_first_keys, map_rev. reflexivity.
    - apply bt_of_list_keys.
  Qed.
  Lemma collect_get kl (items : list (PS * btset T)) (x : PS) :
    bt_get x (collect_items lay kl items) = option_map snd (find (fun kv => eqb x (fst kv)) (rev items)).
  Proof.
    unfold collect_items. destruct kl.
    - change (fold_left _ (rev items) []) with (bt_first (rev items)). apply bt_first_find.
    - apply bt_of_list_find.
  Qed.
  Lemma collect_sorted kl (items : list (PS * btset T)) : msorted (collect_items lay kl items).
  Proof. unfold msorted. rewrite collect_keys. unfold pss_from_iter. apply bs_of_list_sorted. Qed.

  Lemma find_rev_last {A} (f : A -> bool) l x :
    find f (rev l) = Some x <-> exists l1 l2, l = l1 ++ x :: l2 /\ f x = true /\ forall y, In y l2 -> f y = false.
  Proof.
    induction l as [|a l IH] using rev_ind.
    - split; [discriminate|]. intros (l1 & l2 & E & _). destruct l1; discriminate.
    - rewrite rev_app_distr. cbn [rev app find]. destruct (f a) eqn:Fa.
      + split.
        * intros [= <-]. exists l, []. split; [reflexivity|]. split; [exact Fa | intros y []].
        * intros (l1 & l2 & E & Fx & N). destruct l2 as [|b l2] using rev_ind.
          -- apply app_inj_tail in E. destruct E as [_ E]. congruence.
          -- clear IHl2. rewrite app_comm_cons, app_assoc in E. apply app_inj_tail in E. destruct E as [_ <-].
             exfalso. rewrite (N a) in Fa; [discriminate|]. apply in_or_app. right. left. reflexivity.
      + rewrite IH. split.
        * intros (l1 & l2 & -> & Fx & N). exists l1, (l2 ++ [a]). split; [rewrite <- app_assoc; reflexivity|].
          split; [exact Fx|]. intros y Iy. apply in_app_or in Iy. destruct Iy as [Iy|[<-|[]]]; auto.
        * intros (l1 & l2 & E & Fx & N). destruct l2 as [|b l2] using rev_ind.
          -- apply app_inj_tail in E. destruct E as [_ <-]. congruence.
          -- clear IHl2. rewrite app_comm_cons, app_assoc in E. apply app_inj_tail in E. destruct E as [-> _].
             exists l1, l2. split; [reflexivity|]. split; [exact Fx|]. intros y Iy. apply N. apply in_or_app. auto.
  Qed.

  Lemma collect_In kl items s ts : Forall item_ok items ->
    (In (s, ts) (collect_items lay kl items) <-> kept kl items s ts).
  Proof.
    intro F.
    assert (Fg : Forall (fun s => In (ps_prod s) (prods g)) (map fst items)).
    { rewrite Forall_forall in F |- *. intros x Ix. apply in_map_iff in Ix. destruct Ix as (it & <- & I). apply (F it I). }
    assert (K : In s (bt_keys (collect_items lay kl items)) <->
      if kl then latest_in s (map fst items) else earliest_in s (map fst items)).
    { rewrite collect_keys. destruct (from_iter_facts lay g B Inj (map fst items) s Fg) as [F1 F2].
      destruct kl; assumption. }
    assert (V : In (ps_prod s) (prods g) -> (bt_get s (collect_items lay kl items) = Some ts <->
      exists s' l1 l2, items = l1 ++ (s', ts) :: l2 /\ ps_prod s' = ps_prod s /\
        forall y, In y l2 -> ps_prod (fst y) <> ps_prod s)).
    { intro Is. rewrite collect_get. rewrite Forall_forall in F.
      assert (Q : forall x, In x items -> (eqb s (fst x) = true <-> ps_prod (fst x) = ps_prod s)).
      { intros x Ix. unfold eqb. pose proof (cmp_eq_prod lay g B Inj s (fst x) Is (proj1 (F x Ix))) as Q.
        destruct (cmp s (fst x)); split; intro Z; try discriminate; try reflexivity.
        - symmetry. apply Q. reflexivity.
        - symmetry in Z. apply Q in Z. discriminate.
        - symmetry in Z. apply Q in Z. discriminate. }
      split.
      - intro E. destruct (find (fun kv => eqb s (fst kv)) (rev items)) as [[s' ts']|] eqn:Fd; [|discriminate].
        injection E as ->. apply find_rev_last in Fd. destruct Fd as (l1 & l2 & El & Fx & N).
        exists s', l1, l2. split; [exact El|]. split.
        + apply (Q (s', ts)); [|exact Fx]. rewrite El. apply in_or_app. right. left. reflexivity.
        + intros y Iy Z. apply Q in Z; [|rewrite El; apply in_or_app; right; right; exact Iy].
          rewrite (N y Iy) in Z. discriminate.
      - intros (s' & l1 & l2 & El & Ep & N).
        replace (find (fun kv => eqb s (fst kv)) (rev items)) with (Some (s', ts)); [reflexivity|].
        symmetry. apply find_rev_last. exists l1, l2. split; [exact El|]. split.
        + apply (Q (s', ts)); [|exact Ep]. rewrite El. apply in_or_app. right. left. reflexivity.
        + intros y Iy. apply not_true_iff_false. intro Z. apply (N y Iy). apply Q; [|exact Z].
          rewrite El. apply in_or_app. right. right. exact Iy. }
    split.
    - intro I. assert (Ik : In s (bt_keys (collect_items lay kl items))) by (apply (in_map fst) in I; exact I).
      apply K in Ik as Ik'. split; [exact Ik'|]. apply V.
      + rewrite collect_keys in Ik. unfold pss_from_iter in Ik. apply bs_extend_In_inv in Ik. destruct Ik as [Ik|[]].
        rewrite Forall_forall in Fg. apply Fg. destruct kl; [apply in_rev|]; exact Ik.
      + exact (bt_In_get s s ts _ (collect_sorted kl items) I (cmp_refl s)).
    - intros [Ik Iv]. apply K in Ik.
      assert (Is : In (ps_prod s) (prods g)).
      { rewrite collect_keys in Ik. unfold pss_from_iter in Ik. apply bs_extend_In_inv in Ik. destruct Ik as [Ik|[]].
        rewrite Forall_forall in Fg. apply Fg. destruct kl; [apply in_rev|]; exact Ik. }
      apply (V Is) in Iv. unfold bt_keys in Ik. apply in_map_iff in Ik. destruct Ik as ([s1 ts1] & E1 & I1). simpl in E1. subst s1.
      rewrite (bt_In_get s s ts1 _ (collect_sorted kl items) I1 (cmp_refl s)) in Iv. injection Iv as ->. exact I1.
  Qed.

  Lemma kept_In kl items (s : PS) (ts : list T) : kept kl items s ts ->
    (exists ts', In (s, ts') items) /\ (exists s', In (s', ts) items /\ ps_prod s' = ps_prod s).
  Proof.
    intros [E (s' & l1 & l2 & -> & Ep & _)]. split.
    - assert (I : In s (map fst (l1 ++ (s', ts) :: l2))).
      { destruct kl; destruct E as (a & b & -> & _); apply in_or_app; right; left; reflexivity. }
      apply in_map_iff in I. destruct I as ([x ts'] & <- & I). exists ts'. exact I.
    - exists s'. split; [apply in_or_app; right; left; reflexivity | exact Ep].
  Qed.

  Lemma collect_wf kl items : Forall item_ok items ->
    cm_wf (collect_items lay kl items) /\
    (forall s ts, In (s, ts) (collect_items lay kl items) -> In (ps_prod s) (prods g)).
  Proof.
    intro F. assert (X : forall s ts, In (s, ts) (collect_items lay kl items) -> In (ps_prod s) (prods g) /\ sorted ts).
    { intros s ts I. apply (collect_In kl items s ts F) in I. apply kept_In in I.
      destruct I as [(ts' & I1) (s' & I2 & _)]. rewrite Forall_forall in F. split; [apply (F _ I1) | apply (proj2 (proj2 (F _ I2)))]. }
    split; [split; [apply collect_sorted|]|].
    - intros k s G. apply bt_get_Some_In in G. destruct G as (k' & I & _). apply (X k' s I).
    - intros s ts I. apply (X s ts I).
  Qed.

  (** Items of different productions are all kept. *)
  Lemma kept_all kl (items : list (PS * list T)) s ts : Forall item_ok items ->
    one_per_prod (fun s ts => In (s, ts) items) -> (kept kl items s ts <-> In (s, ts) items).
  Proof.
    intros F U. split.
    - intro K. apply kept_In in K. destruct K as [(ts' & I1) (s' & I2 & E)].
      destruct (U s' ts s ts' I2 I1 E) as [-> _]. exact I2.
    - intro I. assert (M : bs_mem s (bt_keys (collect_items lay kl items)) = true).
      { rewrite collect_keys. unfold pss_from_iter. apply bol_mem. exists s. split; [|apply cmp_refl].
        apply (in_map fst) in I. destruct kl; [apply -> in_rev|]; exact I. }
      apply bs_mem_iff in M. destruct M as (s1 & I1 & C). unfold bt_keys in I1. apply in_map_iff in I1.
      destruct I1 as ([s2 ts2] & E2 & I2). simpl in E2. subst s2.
      assert (K : kept kl items s1 ts2) by (apply (collect_In kl items s1 ts2 F); exact I2).
      apply kept_In in K as K'. destruct K' as [(ts' & I3) (s' & I4 & Ep)].
      rewrite Forall_forall in F.
      apply (cmp_eq_prod lay g B Inj s s1) in C; [|exact (proj1 (F _ I)) | exact (proj1 (F _ I3))].
      destruct (U s ts s1 ts' I I3 C) as [-> <-].
      destruct (U s' ts2 s1 ts I4 I Ep) as [_ ->]. exact K.
  Qed.

  (** ** [from_prod_lookahead] *)
  Lemma from_prod_mono kl items : fuel_mono (fun n => from_prod_lookahead lay g kl items n).
  Proof.
    unfold from_prod_lookahead. apply fuel_mono_bind; [apply calculate_firsts_mono|].
    intros [m|e]; [|apply fuel_mono_const]. apply fuel_mono_bind; [apply change_loop_mono|].
    intro. apply fuel_mono_const.
  Qed.

  Lemma from_prod_spec kl items : Forall item_ok items ->
    exists r, runs_to (fun n => from_prod_lookahead lay g kl items n) r /\
      match r with
      | Ret (Err e) => e = FNullableError Ambiguity /\ null_ambiguous g
      | Ret (Ok m) => ~ null_ambiguous g /\ msorted m /\
          (forall s, (exists ts, In (s, ts) m) <-> present g (kept kl items) s) /\
          (forall s ts, In (s, ts) m -> sorted ts /\ forall t, In t ts <-> carries g (kept kl items) (ps_prod s) t) /\
          (forall s, present g (kept kl items) s -> ~ undefined g s)
      | Panic _ => ~ null_ambiguous g /\ exists s, present g (kept kl items) s /\ undefined g s
      | NoFuel => False
      end.
  Proof.
    intro F. destruct (firsts_result lay g Inj B) as (fr & Rf & Hf). destruct fr as [m|e].
    - destruct Hf as [Na Hf]. destruct (collect_wf kl items F) as [W G].
      destruct (loop_spec lay g B Inj m Hf (collect_items lay kl items) W G) as (r & Rl & L).
      assert (E : forall s ts, In (s, ts) (collect_items lay kl items) <-> kept kl items s ts)
        by (intros s ts; apply collect_In; exact F).
      destruct (closure_ext g _ _ E) as (X1 & X2 & _).
      destruct (closure_ext g _ _ (fun s ts => iff_sym (E s ts))) as (Y1 & Y2 & _).
      assert (Un : forall s, stuck m s <-> undefined g s).
      { intro s. unfold stuck, undefined. split; intros (A & C & rest & Td & Q); exists A, C, rest; (split; [exact Td|]);
          apply (firsts_absent lay g Inj B m C Rf); exact Q. }
      destruct r as [mm|msg|]; [| |destruct L].
      + destruct L as [Iv Cl].
        destruct (closed_exact lay g B Inj m Hf (collect_items lay kl items) W G mm Iv Cl) as (S & K & V & N).
        exists (Ret (Ok mm)). split.
        * apply (runs_to_bind _ _ (Ok m)); [exact Rf|]. apply (runs_to_bind _ _ mm); [exact Rl|].
          split; [discriminate|]. exists 0. reflexivity.
        * split; [exact Na|]. split; [exact S|]. split; [|split].
          -- intro s. split.
             ++ intros (ts & I). apply X2. apply K. apply (in_map fst) in I. exact I.
             ++ intro P. apply Y2, K in P. apply in_map_iff in P. destruct P as ([s' ts] & <- & I). exists ts. exact I.
          -- intros s ts I. destruct (V s ts I) as [Ss Vt]. split; [exact Ss|]. intro t. rewrite Vt. split; auto.
          -- intros s P U. apply (N s); [apply Y2; exact P | apply Un; exact U].
      + exists (Panic msg). split.
        * apply (runs_to_bind _ _ (Ok m)); [exact Rf|]. apply runs_to_bind_panic. exact Rl.
        * split; [exact Na|]. destruct L as (s & P & St). exists s. split; [apply X2; exact P | apply Un; exact St].
    - exists (Ret (Err e)). split; [|exact Hf]. apply (runs_to_bind _ _ (Err e)); [exact Rf|].
      split; [discriminate|]. exists 0. reflexivity.
  Qed.
End Main.

(** ** LR(1) *)
Section Lr1.
  Context {T NT AK AV : Type} `{OrdEq T} `{OrdEq NT}.
  Variable g : Grammar T NT AK AV.
  Local Notation PS := (ProdState T NT AK AV).
  Variable item : PS -> list T -> Prop.
  Hypothesis U : one_per_prod item.
  Hypothesis NC : no_collision g item.

  Local Notation lr1 := (lr1 g item).
  Local Notation carries := (carries g item).
  Local Notation present := (present g item).

  Definition the (s : PS) : Prop :=
    (exists ts, item s ts) \/ (ps_index s = 0 /\ forall s' ts, item s' ts -> ps_prod s' <> ps_prod s).
  Lemma the_uniq s s' : the s -> the s' -> ps_prod s = ps_prod s' -> s = s'.
  Proof.
    intros [(ts & I)|[Z N]] [(ts' & I')|[Z' N']] E.
    - apply (U s ts s' ts' I I' E).
    - destruct (N' s ts I E).
    - destruct (N s' ts' I' (eq_sym E)).
    - destruct s, s'. simpl in *. congruence.
  Qed.
  Lemma present_the s : present s -> the s.
  Proof. intros [s' ts I|p t _ N]; [left; eauto | right; split; [reflexivity | exact N]]. Qed.

  Section Sound.
    Hypothesis NE : forall s ts, item s ts -> ts <> [].
    Hypothesis DI : forall p, In p (prods g) ->
      (exists s ts, item s ts /\ ps_prod s = p) \/ (forall s ts, item s ts -> ps_prod s <> p).

    Lemma closure_sound :
      (forall p t, carries p t -> forall s, the s -> ps_prod s = p -> lr1 s t) /\
      (forall s, present s -> exists t, lr1 s t) /\
      (forall s t, looks g item s t -> present s -> (exists t0, lr1 s t0) ->
         exists A rest t0 more, todo s = NonTerm A :: rest /\ lr1 s t0 /\
           derives_form (rhs_of g) (rest ++ [Term t0]) (Term t :: more)).
    Proof.
      apply (closure_mut T NT AK AV g item
        (fun p t _ => forall s, the s -> ps_prod s = p -> lr1 s t)
        (fun s _ => exists t, lr1 s t)
        (fun s t _ => present s -> (exists t0, lr1 s t0) ->
           exists A rest t0 more, todo s = NonTerm A :: rest /\ lr1 s t0 /\
             derives_form (rhs_of g) (rest ++ [Term t0]) (Term t :: more))).
      - intros s ts t I It s' Th E. rewrite (the_uniq s' s Th (or_introl (ex_intro _ ts I)) E).
        exact (lr1_item g item s ts t I It).
      - intros s A rest p t Ps IHp Td Ip Hp _ IHl s' Th E.
        destruct (IHl Ps IHp) as (A' & rest' & t0 & more & Td' & L & D). rewrite Td in Td'. injection Td' as <- <-.
        assert (L0 : lr1 (Build_ProdState p 0) t) by exact (lr1_step g item s t0 A rest p t more L Td Ip Hp D).
        assert (Z : ps_index s' = 0).
        { destruct Th as [(ts & I)|[Z _]]; [|exact Z]. destruct (ps_index s') as [|n] eqn:Es; [reflexivity|].
          exfalso. refine (NC s' ts I _ t _); [rewrite Es; discriminate | rewrite E; exact L0]. }
        destruct s' as [p' i']. simpl in *. subst. exact L0.
      - intros s ts I. destruct ts as [|t ts]; [destruct (NE s [] I eq_refl)|].
        exists t. exact (lr1_item g item s (t :: ts) t I (or_introl eq_refl)).
      - intros p t _ IH N. exists t. apply IH; [|reflexivity]. right. split; [reflexivity | exact N].
      - intros s A t rest Td _ (t0 & L). exists A, (Term t :: rest), t0, (rest ++ [Term t0]).
        split; [exact Td|]. split; [exact L|]. apply df_refl.
      - intros s A C rest t Td (more & D) _ (t0 & L). exists A, (NonTerm C :: rest), t0, (more ++ rest ++ [Term t0]).
        split; [exact Td|]. split; [exact L|].
        apply (df_app (rhs_of g) [NonTerm C] (Term t :: more) (rest ++ [Term t0]) (rest ++ [Term t0]) D (df_refl _ _)).
      - intros s A t Td _ IH Ps _. exists A, [], t, []. split; [exact Td|].
        split; [apply IH; [apply present_the; exact Ps | reflexivity] | apply df_refl].
    Qed.

    Lemma closure_complete : (forall A, ~ derives_empty g A) ->
      forall s t, lr1 s t -> present s /\ carries (ps_prod s) t.
    Proof.
      intros NF s t L. induction L as [s ts t I It|s t A rest p b more L [Ps Ct] Td Ip Hp D].
      - split; [exact (present_item g item s ts I) | exact (carries_item g item s ts t I It)].
      - assert (L0 : lr1 (Build_ProdState p 0) b) by exact (lr1_step g item s t A rest p b more L Td Ip Hp D).
        assert (Fs : firstS (rhs_of g) (rest ++ [Term t]) b).
        { apply (firstS_derives _ _ _ b D). exists [], (Term b), more. split; [reflexivity|].
          split; [constructor | reflexivity]. }
        apply (nullfree_first _ NF) in Fs. destruct Fs as (e & es & Ee & Fe).
        assert (C : carries p b).
        { apply (carries_step g item s A rest p b Ps Td Ip Hp).
          destruct rest as [|e' rest]; simpl in Ee; injection Ee as <- <-.
          - simpl in Fe. subst b. exact (looks_end g item s A t Td Ct).
          - destruct e' as [x|X]; simpl in Fe.
            + subst x. exact (looks_term g item s A b rest Td).
            + apply (looks_nonterm g item s A X rest b Td). apply first_of_iff. exact Fe. }
        split; [|exact C].
        destruct (DI p Ip) as [(s1 & ts1 & I1 & E1)|N].
        + assert (Z : ps_index s1 = 0).
          { destruct (ps_index s1) as [|n] eqn:Es; [reflexivity|]. exfalso.
            refine (NC s1 ts1 I1 _ b _); [rewrite Es; discriminate | rewrite E1; exact L0]. }
          destruct s1 as [p1 i1]. simpl in *. subst. exact (present_item g item _ ts1 I1).
        + exact (present_new g item p b C N).
    Qed.
  End Sound.
End Lr1.
