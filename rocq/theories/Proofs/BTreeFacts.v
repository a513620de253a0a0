(** Facts about the [BTreeMap]/[BTreeSet] model. *)
From Coq Require Import List Arith Bool Sorted Lia.
From Verif.Model Require Import Ord BTree.
From Verif.Proofs Require Import OrdFacts.
Import ListNotations.

Definition sorted {K} `{Ord K} (l : list K) : Prop := StronglySorted (fun a b => cmp a b = Lt) l.

Section SetPre.
  Context {K : Type} `{TotalPre K}.
  Implicit Types (k x y : K) (s : btset K).

  Lemma sorted_nil : sorted (@nil K).
  Proof. constructor. Qed.

  Lemma sorted_inv a s : sorted (a :: s) -> sorted s /\ Forall (fun b => cmp a b = Lt) s.
  Proof. intro S. apply StronglySorted_inv in S. exact S. Qed.

  Lemma bs_mem_iff k s : bs_mem k s = true <-> exists y, In y s /\ cmp k y = Eq.
  Proof.
    induction s as [|a s IH]; simpl.
    - split; [discriminate | intros (y & [] & _)].
    - destruct (cmp k a) eqn:E.
      + split; [intros _; exists a; auto | reflexivity].
      + rewrite IH. split; [intros (y & I & E'); exists y; auto|].
        intros (y & [->|I] & E'); [congruence | exists y; auto].
      + rewrite IH. split; [intros (y & I & E'); exists y; auto|].
        intros (y & [->|I] & E'); [congruence | exists y; auto].
  Qed.

  Lemma bs_mem_compat k k' s : cmp k k' = Eq -> bs_mem k s = bs_mem k' s.
  Proof.
    intro E. apply eq_true_iff_eq. rewrite !bs_mem_iff.
    split; intros (y & I & E'); exists y; split; auto.
    - rewrite <- (cmp_eq_compat _ _ y E). exact E'.
    - rewrite (cmp_eq_compat _ _ y E). exact E'.
  Qed.

  Lemma bs_mem_In k s : In k s -> bs_mem k s = true.
  Proof. intro I. apply bs_mem_iff. exists k. split; [exact I | apply cmp_refl]. Qed.

  Lemma bs_add_In_inv x k s : In x (bs_add k s) -> x = k \/ In x s.
  Proof.
    induction s as [|a s IH]; simpl; [intuition congruence|].
    destruct (cmp k a); simpl; intuition.
  Qed.

  Lemma bs_add_In_old x k s : In x s -> In x (bs_add k s).
  Proof.
    induction s as [|a s IH]; simpl; [tauto|].
    destruct (cmp k a); simpl; intuition.
  Qed.

  Lemma bs_add_In_new k s : bs_mem k s = false -> In k (bs_add k s).
  Proof.
    induction s as [|a s IH]; simpl; [auto|].
    destruct (cmp k a); simpl; try discriminate; auto.
  Qed.

  Lemma bs_mem_add x k s :
    bs_mem x (bs_add k s) = true <-> cmp x k = Eq \/ bs_mem x s = true.
  Proof.
    induction s as [|a s IH]; simpl.
    - destruct (cmp x k); intuition congruence.
    - destruct (cmp k a) eqn:E; simpl.
      + rewrite <- (cmp_eq_compat_r _ _ x E). destruct (cmp x k); intuition congruence.
      + destruct (cmp x k) eqn:E1; [tauto| |];
          destruct (cmp x a) eqn:E2; intuition congruence.
      + destruct (cmp x a) eqn:E2; [tauto| |]; exact IH.
  Qed.

  Lemma Forall_bs_add (P : K -> Prop) k s : P k -> Forall P s -> Forall P (bs_add k s).
  Proof.
    intros Pk F. rewrite Forall_forall in *. intros x I.
    destruct (bs_add_In_inv _ _ _ I); subst; auto.
  Qed.

  Lemma bs_add_sorted k s : sorted s -> sorted (bs_add k s).
  Proof.
    induction s as [|a s IH]; simpl; intro S.
    - constructor; [constructor | constructor].
    - destruct (sorted_inv _ _ S) as [S' F]. destruct (cmp k a) eqn:E.
      + exact S.
      + constructor; [exact S|]. constructor; [exact E|].
        rewrite Forall_forall in *. intros y I. exact (cmp_lt_trans _ _ _ E (F y I)).
      + constructor; [apply IH; exact S'|]. apply Forall_bs_add; [|exact F].
        apply cmp_gt_lt. exact E.
  Qed.

  Lemma bs_add_mem_id k s : sorted s -> bs_mem k s = true -> bs_add k s = s.
  Proof.
    induction s as [|a s IH]; simpl; [discriminate|]. intros S M.
    destruct (sorted_inv _ _ S) as [S' F]. destruct (cmp k a) eqn:E.
    - reflexivity.
    - exfalso. apply bs_mem_iff in M. destruct M as (y & I & E').
      rewrite Forall_forall in F. specialize (F y I).
      rewrite <- (cmp_eq_compat_r _ _ a E') in F. rewrite (cmp_sym a k), F in E. discriminate.
    - f_equal. apply IH; assumption.
  Qed.

  Lemma bs_add_length_new k s : bs_mem k s = false -> length (bs_add k s) = S (length s).
  Proof.
    induction s as [|a s IH]; simpl; [reflexivity|].
    destruct (cmp k a) eqn:E; simpl; try discriminate; auto.
  Qed.

  Lemma bs_add_length_le k s : length s <= length (bs_add k s).
  Proof.
    induction s as [|a s IH]; simpl; [lia|]. destruct (cmp k a); simpl; lia.
  Qed.

  Lemma bs_extend_sorted l s : sorted s -> sorted (bs_extend s l).
  Proof.
    revert s. induction l as [|a l IH]; simpl; intros s S; [exact S|].
    apply IH. apply bs_add_sorted. exact S.
  Qed.

  Lemma bs_of_list_sorted l : sorted (bs_of_list l).
  Proof. apply bs_extend_sorted. apply sorted_nil. Qed.

  Lemma bs_extend_In_inv x l s : In x (bs_extend s l) -> In x l \/ In x s.
  Proof.
    revert s. induction l as [|a l IH]; simpl; intros s I; [auto|].
    destruct (IH _ I) as [I1|I1]; [auto|]. apply bs_add_In_inv in I1. intuition.
  Qed.

  Lemma sorted_NoDup s : sorted s -> NoDup s.
  Proof.
    induction s as [|a s IH]; intro S; [constructor|].
    destruct (sorted_inv _ _ S) as [S' F]. constructor; [|apply IH; exact S'].
    intro I. rewrite Forall_forall in F. exact (cmp_lt_irrefl _ (F a I)).
  Qed.

  (** In a sorted set, [Equal] elements are the same element. *)
  Lemma sorted_eq_unique s x y : sorted s -> In x s -> In y s -> cmp x y = Eq -> x = y.
  Proof.
    induction s as [|a s IH]; intros S Ix Iy E; [destruct Ix|].
    destruct (sorted_inv _ _ S) as [S' F]. rewrite Forall_forall in F.
    destruct Ix as [->|Ix], Iy as [->|Iy].
    - reflexivity.
    - rewrite (F _ Iy) in E. discriminate.
    - apply cmp_eq_sym in E. rewrite (F _ Ix) in E. discriminate.
    - apply IH; assumption.
  Qed.
End SetPre.

Section SetEq.
  Context {K : Type} `{OrdEq K}.
  Implicit Types (k x y : K) (s : btset K).

  Lemma bs_mem_In_iff k s : bs_mem k s = true <-> In k s.
  Proof.
    rewrite bs_mem_iff. split.
    - intros (y & I & E). apply cmp_eq_iff in E. subst. exact I.
    - intro I. exists k. split; [exact I | apply cmp_refl].
  Qed.

  Lemma bs_mem_false_iff k s : bs_mem k s = false <-> ~ In k s.
  Proof. rewrite <- bs_mem_In_iff. destruct (bs_mem k s); split; congruence. Qed.

  Lemma bs_add_In x k s : In x (bs_add k s) <-> x = k \/ In x s.
  Proof. rewrite <- !bs_mem_In_iff, bs_mem_add, cmp_eq_iff. reflexivity. Qed.

  Lemma bs_extend_In x l s : In x (bs_extend s l) <-> In x l \/ In x s.
  Proof.
    revert s. induction l as [|a l IH]; simpl; intros s; [tauto|].
    change (fold_left (fun s k => bs_add k s) l (bs_add a s)) with (bs_extend (bs_add a s) l).
    rewrite IH, bs_add_In. intuition.
  Qed.

  Lemma bs_of_list_In x l : In x (bs_of_list l) <-> In x l.
  Proof. unfold bs_of_list. rewrite bs_extend_In. simpl. tauto. Qed.

  (** A sorted set is determined by its elements. *)
  Lemma sorted_ext s t : sorted s -> sorted t -> (forall x, In x s <-> In x t) -> s = t.
  Proof.
    revert t. induction s as [|a s IH]; intros [|b t] Ss St E.
    - reflexivity.
    - exfalso. apply (E b). left. reflexivity.
    - exfalso. apply (E a). left. reflexivity.
    - destruct (sorted_inv _ _ Ss) as [Ss' Fs]. destruct (sorted_inv _ _ St) as [St' Ft].
      rewrite Forall_forall in *.
      assert (a = b) as ->.
      { destruct (proj1 (E a) (or_introl eq_refl)) as [->|Ia]; [reflexivity|].
        destruct (proj2 (E b) (or_introl eq_refl)) as [->|Ib]; [reflexivity|].
        specialize (Fs _ Ib). specialize (Ft _ Ia).
        exfalso. apply (cmp_lt_irrefl a). exact (cmp_lt_trans _ _ _ Fs Ft). }
      f_equal. apply IH; [assumption..|]. intro x. split; intro I.
      + destruct (proj1 (E x) (or_intror I)) as [->|I']; [|exact I'].
        exfalso. exact (cmp_lt_irrefl _ (Fs _ I)).
      + destruct (proj2 (E x) (or_intror I)) as [->|I']; [|exact I'].
        exfalso. exact (cmp_lt_irrefl _ (Ft _ I)).
  Qed.

  Lemma bs_remove_In x k s : sorted s -> (In x (bs_remove k s) <-> In x s /\ x <> k).
  Proof.
    induction s as [|a s IH]; simpl; intro S; [tauto|].
    destruct (sorted_inv _ _ S) as [S' F]. rewrite Forall_forall in F.
    destruct (cmp k a) eqn:E.
    - apply cmp_eq_iff in E. subst a. split.
      + intro I. split; [auto|]. intros ->. exact (cmp_lt_irrefl _ (F _ I)).
      + intros [[->|I] N]; [congruence | exact I].
    - simpl. rewrite IH by assumption. split.
      + intros [->|[I N]]; [|auto]. split; [auto|]. intros ->.
        rewrite cmp_refl in E. discriminate.
      + intros [[->|I] N]; auto.
    - simpl. rewrite IH by assumption. split.
      + intros [->|[I N]]; [|auto]. split; [auto|]. intros ->.
        rewrite cmp_refl in E. discriminate.
      + intros [[->|I] N]; auto.
  Qed.

  Lemma bs_remove_sorted k s : sorted s -> sorted (bs_remove k s).
  Proof.
    induction s as [|a s IH]; simpl; intro S; [exact S|].
    destruct (sorted_inv _ _ S) as [S' F].
    assert (Forall (fun b => cmp a b = Lt) (bs_remove k s)) as F'.
    { rewrite Forall_forall in *. intros x I. apply bs_remove_In in I; [|exact S'].
      apply F. tauto. }
    destruct (cmp k a); [exact S' | |]; constructor; auto; apply IH; exact S'.
  Qed.

  Lemma sorted_incl_length s t : sorted s -> incl s t -> length s <= length t.
  Proof. intros S I. apply NoDup_incl_length; [apply sorted_NoDup; exact S | exact I]. Qed.
End SetEq.

Section MapPre.
  Context {K V : Type} `{TotalPre K}.
  Implicit Types (k x : K) (v : V) (m : btmap K V).

  Definition msorted m : Prop := sorted (bt_keys m).

  Lemma bt_get_insert x k v m :
    bt_get x (bt_insert k v m) = if eqb x k then Some v else bt_get x m.
  Proof.
    unfold eqb. induction m as [|[k' v'] m IH]; simpl.
    - destruct (cmp x k); reflexivity.
    - destruct (cmp k k') eqn:E; simpl.
      + rewrite <- (cmp_eq_compat_r _ _ x E). destruct (cmp x k); reflexivity.
      + destruct (cmp x k); reflexivity.
      + rewrite IH. destruct (cmp x k) eqn:E1; try reflexivity.
        rewrite (cmp_eq_compat _ _ k' E1), E. reflexivity.
  Qed.

  Lemma bt_get_compat x y m : cmp x y = Eq -> bt_get x m = bt_get y m.
  Proof.
    intro E. induction m as [|[k' v'] m IH]; simpl; [reflexivity|].
    rewrite (cmp_eq_compat _ _ k' E), IH. reflexivity.
  Qed.

  Lemma bt_get_Some_In x v m : bt_get x m = Some v -> exists k, In (k, v) m /\ cmp x k = Eq.
  Proof.
    induction m as [|[k' v'] m IH]; simpl; [discriminate|].
    destruct (cmp x k') eqn:E.
    - intros [= ->]. exists k'. auto.
    - intro G. destruct (IH G) as (k & I & E'). exists k. auto.
    - intro G. destruct (IH G) as (k & I & E'). exists k. auto.
  Qed.

  Lemma bt_get_None x m : bt_get x m = None <-> forall k v, In (k, v) m -> cmp x k <> Eq.
  Proof.
    induction m as [|[k' v'] m IH]; simpl; [intuition|].
    destruct (cmp x k') eqn:E.
    - split; [discriminate|]. intro A. exfalso. exact (A k' v' (or_introl eq_refl) E).
    - rewrite IH. split.
      + intros A k v [[= -> ->]|I]; [congruence | eauto].
      + intros A k v I. eauto.
    - rewrite IH. split.
      + intros A k v [[= -> ->]|I]; [congruence | eauto].
      + intros A k v I. eauto.
  Qed.

  Lemma bt_keys_insert k v m : bt_keys (bt_insert k v m) = bs_add k (bt_keys m).
  Proof.
    induction m as [|[k' v'] m IH]; simpl; [reflexivity|].
    destruct (cmp k k'); simpl; [reflexivity..|]. f_equal. exact IH.
  Qed.

  Lemma bt_insert_sorted k v m : msorted m -> msorted (bt_insert k v m).
  Proof. unfold msorted. rewrite bt_keys_insert. apply bs_add_sorted. Qed.

  Lemma bt_mem_keys k m : bt_mem k m = bs_mem k (bt_keys m).
  Proof.
    unfold bt_mem. induction m as [|[k' v'] m IH]; simpl; [reflexivity|].
    destruct (cmp k k'); [reflexivity | exact IH | exact IH].
  Qed.

  Lemma bt_insert_In_inv x v k' v' m :
    In (x, v) (bt_insert k' v' m) ->
    (v = v' /\ cmp x k' = Eq) \/ In (x, v) m.
  Proof.
    induction m as [|[k0 v0] m IH]; simpl.
    - intros [[= -> ->]|[]]. left. split; [reflexivity | apply cmp_refl].
    - destruct (cmp k' k0) eqn:E; simpl.
      + intros [[= <- <-]|I]; [left; split; [reflexivity|apply cmp_eq_sym; exact E] | auto].
      + intros [[= <- <-]|I]; [left; split; [reflexivity|apply cmp_refl] | auto].
      + intros [I|I]; [auto|]. destruct (IH I); auto.
  Qed.

  (** In a sorted map, an entry is found by any [Equal] key. *)
  Lemma bt_In_get x k v m : msorted m -> In (k, v) m -> cmp x k = Eq -> bt_get x m = Some v.
  Proof.
    unfold msorted. induction m as [|[k' v'] m IH]; simpl; intros S I E; [destruct I|].
    destruct (sorted_inv _ _ S) as [S' F]. rewrite Forall_forall in F.
    destruct I as [[= -> ->]|I].
    - rewrite E. reflexivity.
    - assert (cmp k' k = Lt) as L.
      { apply F. apply in_map_iff. exists (k, v). auto. }
      assert (cmp x k' = Gt) as ->.
      { rewrite (cmp_eq_compat _ _ k' E). apply cmp_gt_lt. exact L. }
      apply IH; assumption.
  Qed.

  Lemma bt_get_kv_get k m : bt_get k m = option_map snd (bt_get_kv k m).
  Proof.
    induction m as [|[k' v'] m IH]; simpl; [reflexivity|].
    destruct (cmp k k'); simpl; auto.
  Qed.

  Lemma bt_keys_remove k m : bt_keys (bt_remove k m) = bs_remove k (bt_keys m).
  Proof.
    induction m as [|[k' v'] m IH]; simpl; [reflexivity|].
    destruct (cmp k k'); simpl; [reflexivity| |]; f_equal; exact IH.
  Qed.
End MapPre.

Section MapEq.
  Context {K V : Type} `{OrdEq K}.
  Implicit Types (k x : K) (v : V) (m : btmap K V).

  Lemma bt_get_insert_eq k v m : bt_get k (bt_insert k v m) = Some v.
  Proof. rewrite bt_get_insert, eqb_refl. reflexivity. Qed.

  Lemma bt_get_insert_ne x k v m : x <> k -> bt_get x (bt_insert k v m) = bt_get x m.
  Proof.
    intro N. rewrite bt_get_insert. destruct (eqb_spec x k); [congruence | reflexivity].
  Qed.

  Lemma bt_get_In k v m : bt_get k m = Some v -> In (k, v) m.
  Proof.
    intro G. destruct (bt_get_Some_In _ _ _ G) as (k' & I & E). apply cmp_eq_iff in E.
    subst. exact I.
  Qed.

  Lemma bt_get_iff k v m : msorted m -> (bt_get k m = Some v <-> In (k, v) m).
  Proof.
    intro S. split; [apply bt_get_In|]. intro I.
    exact (bt_In_get k k v m S I (cmp_refl k)).
  Qed.

  Lemma bt_mem_iff k m : bt_mem k m = true <-> In k (bt_keys m).
  Proof. rewrite bt_mem_keys. apply bs_mem_In_iff. Qed.

  Lemma bt_mem_get k m : bt_mem k m = true <-> exists v, bt_get k m = Some v.
  Proof.
    unfold bt_mem. destruct (bt_get k m) as [v|]; split; try congruence.
    - intros _. exists v. reflexivity.
    - intros (v & E). discriminate.
  Qed.

  Lemma bt_keys_In k m : In k (bt_keys m) <-> exists v, bt_get k m = Some v.
  Proof. rewrite <- bt_mem_iff. apply bt_mem_get. Qed.

  Lemma bt_remove_sorted k m : msorted m -> msorted (bt_remove k m).
  Proof. unfold msorted. rewrite bt_keys_remove. apply bs_remove_sorted. Qed.

  Lemma bt_get_remove x k m :
    msorted m -> bt_get x (bt_remove k m) = if eqb x k then None else bt_get x m.
  Proof.
    unfold msorted. induction m as [|[k' v'] m IH]; simpl; intro S.
    - destruct (eqb x k); reflexivity.
    - destruct (sorted_inv _ _ S) as [S' F]. rewrite Forall_forall in F.
      destruct (cmp k k') eqn:E.
      + apply cmp_eq_iff in E. subst k'. destruct (eqb_spec x k) as [->|N].
        * apply bt_get_None. intros k1 v1 I E1. apply cmp_eq_iff in E1. subst k1.
          apply (cmp_lt_irrefl k). apply F. apply in_map_iff. exists (k, v1). auto.
        * destruct (cmp x k) eqn:E2; try reflexivity. apply cmp_eq_iff in E2. congruence.
      + simpl. rewrite IH by assumption. destruct (cmp x k') eqn:E2; try reflexivity.
        apply cmp_eq_iff in E2. subst k'. destruct (eqb_spec x k) as [->|N]; [|reflexivity].
        rewrite cmp_refl in E. discriminate.
      + simpl. rewrite IH by assumption. destruct (cmp x k') eqn:E2; try reflexivity.
        apply cmp_eq_iff in E2. subst k'. destruct (eqb_spec x k) as [->|N]; [|reflexivity].
        rewrite cmp_refl in E. discriminate.
  Qed.

  (** A sorted map is determined by its lookups. *)
  Lemma msorted_ext m1 m2 :
    msorted m1 -> msorted m2 -> (forall k, bt_get k m1 = bt_get k m2) -> m1 = m2.
  Proof.
    revert m2. induction m1 as [|[k1 v1] m1 IH]; intros m2 S1 S2 E.
    - destruct m2 as [|[k2 v2] m2]; [reflexivity|]. specialize (E k2). simpl in E.
      rewrite cmp_refl in E. discriminate.
    - destruct m2 as [|[k2 v2] m2].
      { specialize (E k1). simpl in E. rewrite cmp_refl in E. discriminate. }
      destruct (sorted_inv k1 (bt_keys m1) S1) as [S1' F1].
      destruct (sorted_inv k2 (bt_keys m2) S2) as [S2' F2].
      rewrite Forall_forall in F1, F2.
      assert (bt_keys ((k1, v1) :: m1) = bt_keys ((k2, v2) :: m2)) as EK.
      { apply sorted_ext; [exact S1 | exact S2|]. intro x. rewrite !bt_keys_In.
        split; intros (v & G); exists v; congruence. }
      injection EK as -> EK. pose proof (E k2) as E0. simpl in E0. rewrite cmp_refl in E0.
      injection E0 as ->. f_equal. apply IH; [exact S1' | exact S2'|]. intro x.
      destruct (eqb_spec x k2) as [->|N].
      + assert (forall m, (forall y, In y (bt_keys m) -> cmp k2 y = Lt) -> bt_get k2 m = None) as NK.
        { intros m A. apply bt_get_None. intros k v I EQ. apply cmp_eq_iff in EQ. subst k.
          apply (cmp_lt_irrefl k2). apply A. apply in_map_iff. exists (k2, v). auto. }
        rewrite (NK m1 F1), (NK m2 F2). reflexivity.
      + pose proof (E x) as Ex. simpl in Ex. destruct (cmp x k2) eqn:C; try exact Ex.
        apply cmp_eq_iff in C. congruence.
  Qed.

  Lemma bt_append_get x m other :
    msorted other ->
    bt_get x (bt_append m other) =
      match bt_get x other with Some v => Some v | None => bt_get x m end.
  Proof.
    unfold bt_append, msorted. revert m. induction other as [|[k v] other IH]; simpl; intros m S.
    - reflexivity.
    - destruct (sorted_inv _ _ S) as [S' F]. rewrite Forall_forall in F.
      rewrite IH by exact S'. rewrite bt_get_insert. unfold eqb. destruct (cmp x k) eqn:C; try reflexivity.
      apply cmp_eq_iff in C. subst x.
      destruct (bt_get k other) as [v'|] eqn:G; [|reflexivity]. exfalso.
      apply (cmp_lt_irrefl k). apply F. apply bt_keys_In. exists v'. exact G.
  Qed.

  Lemma bt_append_sorted m other : msorted m -> msorted (bt_append m other).
  Proof.
    unfold bt_append. revert m. induction other as [|[k v] other IH]; simpl; intros m S; [exact S|].
    apply IH. apply bt_insert_sorted. exact S.
  Qed.

  Lemma bt_of_list_sorted (l : list (K * V)) : msorted (bt_of_list l).
  Proof. apply (bt_append_sorted [] l). constructor. Qed.

  (** [collect] into a map: the last pair with the key wins. *)
  Lemma bt_of_list_get x (l : list (K * V)) :
    bt_get x (bt_of_list l) =
    fold_left (fun acc kv => if eqb x (fst kv) then Some (snd kv) else acc) l None.
  Proof.
    unfold bt_of_list. change (@None V) with (bt_get x (@nil (K * V))).
    generalize (@nil (K * V)) as m. induction l as [|[k v] l IH]; simpl; intros m; [reflexivity|].
    rewrite IH, bt_get_insert. reflexivity.
  Qed.
End MapEq.

Section MapSame.
  Context {K V : Type} `{OrdEq K}.
  Lemma bt_insert_same k (v : V) m : msorted m -> bt_get k m = Some v -> bt_insert k v m = m.
  Proof.
    intros S G. apply msorted_ext.
    - apply bt_insert_sorted. exact S.
    - exact S.
    - intro x. rewrite bt_get_insert. destruct (eqb_spec x k) as [->|]; [symmetry; exact G|reflexivity].
  Qed.
End MapSame.
