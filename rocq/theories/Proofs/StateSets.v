(** Contents of state sets: [add], [from_iter], [nexts], equality. *)
From Coq Require Import List Arith Lia Permutation NArith Sorted.
From Verif.Model Require Import Ord BTree Outcome Grammar Nullable State.
From Verif.Spec Require Import Reach NullSpec StateSpec BuildSpec.
From Verif.Proofs Require Import OrdFacts BTreeFacts LoopFacts GrammarFacts NullableFacts StateFacts StateMore.
Import ListNotations.

#[export] Instance OrdEq_ProdElement' {T NT} `{OrdEq T} `{OrdEq NT} : OrdEq (ProdElement T NT).
Proof.
  constructor.
  - constructor; unfold cmp, Ord_ProdElement.
    + intros x. rewrite !cmp_refl. reflexivity.
    + intros x y. rewrite then_cmp_opp, <- !cmp_sym. reflexivity.
    + intros x y z. rewrite !then_cmp_Lt. intros [A|[A A']] [B|[B B']].
      * left. exact (cmp_lt_trans _ _ _ A B).
      * left. apply cmp_eq in B. rewrite <- B. exact A.
      * left. apply cmp_eq in A. rewrite A. exact B.
      * right. apply cmp_eq in A. rewrite A. split; [exact B|]. exact (cmp_lt_trans _ _ _ A' B').
    + intros x y z E. apply then_cmp_Eq in E. destruct E as [E1 E2]. apply cmp_eq in E1, E2.
      rewrite E1, E2. reflexivity.
  - intros [a b] [c d] E. unfold cmp, Ord_ProdElement in E. apply then_cmp_Eq in E. destruct E as [E1 E2].
    apply cmp_eq in E1, E2. simpl in *. congruence.
Qed.

Section Sets.
  Context {T NT AK AV : Type} `{OrdEq T} `{OrdEq NT}.
  Variable lay : layout NT.
  Local Notation PS := (ProdState T NT AK AV).
  #[local] Hint Extern 0 (Ord (ProdState _ _ _ _)) => exact (Ord_ProdState lay) : typeclass_instances.
  #[local] Existing Instance TotalPre_PS.

  Lemma bs_of_list_snoc (l : list PS) y : bs_of_list (l ++ [y]) = bs_add y (bs_of_list l).
  Proof. unfold bs_of_list, bs_extend. rewrite fold_left_app. reflexivity. Qed.

  Lemma bs_of_list_mem (l : list PS) y : bs_mem y (bs_of_list l) = true <-> exists z, In z l /\ cmp y z = Eq.
  Proof.
    induction l as [|a l IH] using rev_ind; [split; [discriminate | intros (z & [] & _)]|].
    rewrite bs_of_list_snoc, bs_mem_add, IH. split.
    - intros [C|(z & Iz & Ez)].
      + exists a. split; [apply in_or_app; right; left; reflexivity | exact C].
      + exists z. split; [apply in_or_app; auto | exact Ez].
    - intros (z & Iz & Ez). apply in_app_or in Iz. destruct Iz as [Iz|[<-|[]]]; [right; eauto | auto].
  Qed.

  (** The first of each class survives. *)
  Lemma bs_of_list_first (l : list PS) x :
    In x (bs_of_list l) <-> exists l1 l2, l = l1 ++ x :: l2 /\ forall y, In y l1 -> cmp y x <> Eq.
  Proof.
    induction l as [|a l IH] using rev_ind.
    - split; [intros [] |]. intros ([|? ?] & l2 & E & _); discriminate.
    - rewrite bs_of_list_snoc. destruct (bs_mem a (bs_of_list l)) eqn:M.
      + rewrite bs_add_mem_id; [|apply bs_of_list_sorted|exact M]. rewrite IH. split.
        * intros (l1 & l2 & -> & F). exists l1, (l2 ++ [a]). split; [|exact F].
          rewrite <- app_assoc. reflexivity.
        * intros (l1 & l2 & E & F). destruct l2 as [|b l2] using rev_ind.
          -- apply app_inj_tail in E. destruct E as [-> ->]. exfalso.
             apply bs_of_list_mem in M. destruct M as (z & Iz & Ez). apply (F z Iz).
             rewrite cmp_sym, Ez. reflexivity.
          -- clear IHl2. rewrite app_comm_cons, app_assoc in E. apply app_inj_tail in E.
             destruct E as [-> _]. exists l1, l2. auto.
      + split.
        * intro I. apply bs_add_In_inv in I. destruct I as [-> |I].
          -- exists l, []. split; [reflexivity|]. intros y Iy E.
             assert (bs_mem a (bs_of_list l) = true); [|congruence]. apply bs_of_list_mem.
             exists y. split; [exact Iy|]. rewrite cmp_sym, E. reflexivity.
          -- apply IH in I. destruct I as (l1 & l2 & -> & F). exists l1, (l2 ++ [a]).
             split; [|exact F]. rewrite <- app_assoc. reflexivity.
        * intros (l1 & l2 & E & F). destruct l2 as [|b l2] using rev_ind.
          -- apply app_inj_tail in E. destruct E as [-> ->]. apply bs_add_In_new. exact M.
          -- clear IHl2. rewrite app_comm_cons, app_assoc in E. apply app_inj_tail in E.
             destruct E as [-> _]. apply bs_add_In_old. apply IH. exists l1, l2. auto.
  Qed.

  Lemma bs_of_list_uniq (l : list PS) x :
    (forall a b, In a l -> In b l -> cmp a b = Eq -> a = b) -> (In x (bs_of_list l) <-> In x l).
  Proof.
    intro U. split.
    - intro I. apply bs_extend_In_inv in I. destruct I as [I|[]]. exact I.
    - intro I. assert (M : bs_mem x (bs_of_list l) = true).
      { apply bs_of_list_mem. exists x. split; [exact I | apply cmp_refl]. }
      apply bs_mem_iff in M. destruct M as (y & Iy & E).
      assert (y = x); [|subst; exact Iy]. symmetry. apply U; [exact I | | exact E].
      apply bs_extend_In_inv in Iy. destruct Iy as [Iy|[]]. exact Iy.
  Qed.

  Lemma adds_of_list (l : list PS) : adds lay l = bs_of_list l.
  Proof. reflexivity. Qed.

  (** [nexts] as a grouping. *)
  Definition group (pairs : list (ProdElement T NT * PS)) : btmap (ProdElement T NT) (list PS) :=
    fold_left (fun result kv =>
      let '(k, v) := kv in
      let set := match bt_get k result with Some set => set | None => [] end in
      bt_insert k (bs_add v set) result) pairs [].

  Lemma group_nexts (s : ProdStateSet T NT AK AV) : pss_nexts lay s = group (filter_map next_elem_state s).
  Proof. reflexivity. Qed.

  Lemma group_snoc pairs k v :
    group (pairs ++ [(k, v)]) =
    bt_insert k (bs_add v (match bt_get k (group pairs) with Some set => set | None => [] end)) (group pairs).
  Proof. unfold group at 1. rewrite fold_left_app. reflexivity. Qed.

  Definition sel k (pairs : list (ProdElement T NT * PS)) : list PS :=
    map snd (filter (fun kv => eqb k (fst kv)) pairs).

  Lemma group_get pairs k :
    bt_get k (group pairs) = match sel k pairs with [] => None | l => Some (bs_of_list l) end.
  Proof.
    induction pairs as [|[k' v] pairs IH] using rev_ind; [reflexivity|].
    rewrite group_snoc, bt_get_insert. unfold sel. rewrite filter_app, map_app. fold (sel k pairs).
    cbn [filter fst]. unfold eqb. destruct (cmp k k') eqn:C; cbv match.
    - apply cmp_eq in C. subst k'. rewrite IH. cbn [map snd]. destruct (sel k pairs) as [|a l].
      + reflexivity.
      + rewrite <- (bs_of_list_snoc (a :: l) v). reflexivity.
    - rewrite IH. cbn [map]. rewrite app_nil_r. reflexivity.
    - rewrite IH. cbn [map]. rewrite app_nil_r. reflexivity.
  Qed.

  Lemma group_sorted pairs : msorted (group pairs).
  Proof.
    induction pairs as [|[k v] pairs IH] using rev_ind; [apply sorted_nil|].
    rewrite group_snoc. apply bt_insert_sorted. exact IH.
  Qed.

  Lemma sel_In k pairs v : In v (sel k pairs) <-> In (k, v) pairs.
  Proof.
    unfold sel. rewrite in_map_iff. split.
    - intros ([k' v'] & <- & I). apply filter_In in I. destruct I as [I E]. simpl in *. unfold eqb in E.
      destruct (cmp k k') eqn:C; try discriminate. apply cmp_eq in C. subst. exact I.
    - intro I. exists (k, v). split; [reflexivity|]. apply filter_In. split; [exact I|].
      simpl. unfold eqb. rewrite cmp_refl. reflexivity.
  Qed.

  Lemma filter_map_In {A B} (f : A -> option B) l b : In b (filter_map f l) <-> exists a, In a l /\ f a = Some b.
  Proof.
    unfold filter_map. rewrite in_flat_map. split.
    - intros (a & Ia & Ib). exists a. split; [exact Ia|]. destruct (f a); [|destruct Ib].
      destruct Ib as [-> |[]]. reflexivity.
    - intros (a & Ia & E). exists a. split; [exact Ia|]. rewrite E. left. reflexivity.
  Qed.

  Lemma next_elem_state_cmp (x y x' y' : PS) e e' :
    next_elem_state x = Some (e, x') -> next_elem_state y = Some (e', y') -> cmp x' y' = cmp x y.
  Proof.
    intros N1 N2. apply next_elem_state_iff in N1, N2. destruct N1 as (_ & E1 & _), N2 as (_ & E2 & _).
    unfold cmp, Ord_ProdState. rewrite E1, E2. reflexivity.
  Qed.

  Lemma nexts_facts (s : ProdStateSet T NT AK AV) : sorted s ->
    msorted (pss_nexts lay s) /\
    (forall e s', In (e, s') (pss_nexts lay s) ->
       s' <> [] /\ sorted s' /\ forall x', In x' s' <-> exists x, In x s /\ next_elem_state x = Some (e, x')) /\
    (forall x e x', In x s -> next_elem_state x = Some (e, x') -> exists s', In (e, s') (pss_nexts lay s)).
  Proof.
    intro Ss. rewrite group_nexts. split; [apply group_sorted|]. split.
    - intros e s' I. apply bt_get_iff in I; [|apply group_sorted].
      rewrite group_get in I. destruct (sel e (filter_map next_elem_state s)) as [|a l] eqn:E; [discriminate|].
      injection I as <-.
      assert (U : forall u v, In u (a :: l) -> In v (a :: l) -> cmp u v = Eq -> u = v).
      { intros u v Iu Iv C. rewrite <- E in Iu, Iv. apply sel_In, filter_map_In in Iu, Iv.
        destruct Iu as (x & Ix & Nx), Iv as (y & Iy & Ny). rewrite (next_elem_state_cmp _ _ _ _ _ _ Nx Ny) in C.
        assert (x = y) by (apply (sorted_eq_unique s); auto). congruence. }
      split.
      + intro N. assert (I : In a (bs_of_list (a :: l))) by (apply bs_of_list_uniq; [exact U | left; reflexivity]).
        rewrite N in I. destruct I.
      + split; [apply bs_of_list_sorted|]. intro x'. rewrite (bs_of_list_uniq _ _ U), <- E, sel_In, filter_map_In.
        reflexivity.
    - intros x e x' I N.
      assert (Is : In x' (sel e (filter_map next_elem_state s))).
      { apply sel_In, filter_map_In. exists x. auto. }
      destruct (sel e (filter_map next_elem_state s)) as [|a l] eqn:E; [destruct Is|].
      exists (bs_of_list (a :: l)). apply bt_get_iff; [apply group_sorted|]. rewrite group_get, E. reflexivity.
  Qed.

  Lemma pss_built_sorted (s : ProdStateSet T NT AK AV) : pss_built lay s -> sorted s.
  Proof.
    induction 1 as [|keep l|s st _ IH|s e s' _ IH I|St F s st n s' st' _ IH E].
    - apply sorted_nil.
    - apply bs_of_list_sorted.
    - apply bs_add_sorted. exact IH.
    - destruct (nexts_facts s IH) as (_ & N & _). apply (N e s' I).
    - apply take_closure_logged in E. destruct E as (calls & E).
      exact (proj1 (take_closure_facts lay F s st n s' st' calls IH E)).
  Qed.

  (** Equality of sets. *)
  Definition pkey (x : PS) : N := lay (p_head (ps_prod x)) (p_ix (ps_prod x)).
  Lemma pss_eqb_keys (a b : ProdStateSet T NT AK AV) : pss_eqb lay a b = true <-> map pkey a = map pkey b.
  Proof.
    revert b. induction a as [|x a IH]; intros [|y b]; simpl; try (split; [discriminate | intros [=]]); [tauto|].
    rewrite Bool.andb_true_iff, IH. unfold ps_eqb, prod_eqb. rewrite N.eqb_eq. fold (pkey x). fold (pkey y).
    split; [intros [-> ->]; reflexivity | intros [= -> ->]; auto].
  Qed.
  Lemma sorted_keys (a : list PS) : sorted a -> sorted (map pkey a).
  Proof.
    induction a as [|x a IH]; intro S; [apply sorted_nil|]. apply sorted_inv in S. destruct S as [S F].
    simpl. apply SSorted_cons; [apply IH; exact S|]. apply Forall_forall. intros k I. apply in_map_iff in I.
    destruct I as (y & <- & Iy). rewrite Forall_forall in F. exact (F y Iy).
  Qed.
  Lemma pss_cmp_eqb (a b : ProdStateSet T NT AK AV) : pss_cmp lay a b = Eq <-> pss_eqb lay a b = true.
  Proof.
    unfold pss_cmp. revert b. induction a as [|x a IH]; intros [|y b]; cbn [list_cmp pss_eqb];
      try (split; discriminate); [tauto|].
    rewrite then_cmp_Eq, Bool.andb_true_iff, IH. unfold ps_eqb, prod_eqb, cmp, Ord_ProdState, prod_cmp.
    rewrite N.compare_eq_iff, N.eqb_eq. reflexivity.
  Qed.

  Section InGrammar.
    Variable g : Grammar T NT AK AV.
    Hypothesis B : built g.
    Hypothesis Inj : lay_inj g lay.
    Definition in_g (x : PS) : Prop := In (ps_prod x) (prods g).

    Lemma cmp_prod x y : in_g x -> in_g y -> (cmp x y = Eq <-> ps_prod x = ps_prod y).
    Proof.
      intros Ix Iy. split; intro E.
      - apply (prod_cmp_eq lay g Inj (built_rs_wf g B)); auto.
      - unfold cmp, Ord_ProdState, prod_cmp. rewrite E. apply N.compare_refl.
    Qed.

    Lemma adds_first l x : Forall in_g l -> (In x (adds lay l) <-> earliest_in x l).
    Proof.
      intro F. rewrite adds_of_list, bs_of_list_first. rewrite Forall_forall in F. unfold earliest_in.
      split; intros (l1 & l2 & -> & P); exists l1, l2; (split; [reflexivity|]); intros y Iy E.
      - apply (P y Iy). apply cmp_prod; auto; apply F; apply in_or_app; simpl; auto.
      - apply (P y Iy). apply cmp_prod; auto; apply F; apply in_or_app; simpl; auto.
    Qed.

    Lemma first_of_rev l (x : PS) : earliest_in x (rev l) <-> latest_in x l.
    Proof.
      unfold earliest_in, latest_in. split.
      - intros (l1 & l2 & E & P). exists (rev l2), (rev l1). split.
        + rewrite <- (rev_involutive l), E, rev_app_distr. simpl. rewrite <- app_assoc. reflexivity.
        + intros y Iy. apply P. apply in_rev. exact Iy.
      - intros (l1 & l2 & -> & P). exists (rev l2), (rev l1). split.
        + rewrite rev_app_distr. simpl. rewrite <- app_assoc. reflexivity.
        + intros y Iy. apply P. apply in_rev. exact Iy.
    Qed.

    Lemma from_iter_facts l x : Forall in_g l ->
      (In x (pss_from_iter lay false l) <-> earliest_in x l) /\ (In x (pss_from_iter lay true l) <-> latest_in x l).
    Proof.
      intro F. split.
      - exact (adds_first l x F).
      - rewrite <- first_of_rev. apply (adds_first (rev l) x). apply Forall_rev. exact F.
    Qed.

    Lemma pss_eq_iff a b : sorted a -> sorted b -> Forall in_g a -> Forall in_g b ->
      (pss_eqb lay a b = true <->
       forall p, (exists x, In x a /\ ps_prod x = p) <-> (exists y, In y b /\ ps_prod y = p)).
    Proof.
      intros Sa Sb Fa Fb. rewrite Forall_forall in Fa, Fb. rewrite pss_eqb_keys.
      assert (K : forall (x y : PS), in_g x -> in_g y -> pkey x = pkey y -> ps_prod x = ps_prod y).
      { intros x y Ix Iy E. apply cmp_prod; auto. unfold cmp, Ord_ProdState, prod_cmp. fold (pkey x). fold (pkey y).
        apply N.compare_eq_iff. exact E. }
      split.
      - intros E p. split.
        + intros (x & Ix & <-). assert (I : In (pkey x) (map pkey b)) by (rewrite <- E; apply in_map; exact Ix).
          apply in_map_iff in I. destruct I as (y & Ey & Iy). exists y. split; [exact Iy|]. apply K; auto.
        + intros (x & Ix & <-). assert (I : In (pkey x) (map pkey a)) by (rewrite E; apply in_map; exact Ix).
          apply in_map_iff in I. destruct I as (y & Ey & Iy). exists y. split; [exact Iy|]. apply K; auto.
      - intro E. apply sorted_ext; [apply sorted_keys; exact Sa | apply sorted_keys; exact Sb|].
        intro k. rewrite !in_map_iff. split; intros (x & <- & Ix).
        + destruct (proj1 (E (ps_prod x)) (ex_intro _ x (conj Ix eq_refl))) as (y & Iy & Ey).
          exists y. split; [|exact Iy]. unfold pkey. rewrite Ey. reflexivity.
        + destruct (proj2 (E (ps_prod x)) (ex_intro _ x (conj Ix eq_refl))) as (y & Iy & Ey).
          exists y. split; [|exact Iy]. unfold pkey. rewrite Ey. reflexivity.
    Qed.
  End InGrammar.
End Sets.
