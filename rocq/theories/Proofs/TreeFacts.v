(** One tree: the invariant, and what each operation does. *)
From Coq Require Import String List Arith Lia Bool.
From Verif.Model Require Import Ord BTree Outcome Utils Tree.
From Verif.Proofs Require Import OrdFacts BTreeFacts LoopFacts.
Import ListNotations.

Lemma nth_list_set {A} (l : list A) i j x : nth_error (list_set l i x) j =
  if Nat.eqb i j then (match nth_error l i with Some _ => Some x | None => None end) else nth_error l j.
Proof.
  revert i j. induction l as [|y l IH]; intros [|i] [|j]; simpl; try reflexivity.
  - destruct (Nat.eqb i j); reflexivity.
  - apply IH.
Qed.
Lemma list_set_length {A} (l : list A) i x : length (list_set l i x) = length l.
Proof. revert i. induction l as [|y l IH]; intros [|i]; simpl; auto. Qed.
Lemma list_set_same {A} (l : list A) i x : nth_error l i = Some x -> list_set l i x = l.
Proof. revert i. induction l as [|y l IH]; intros [|i]; simpl; try discriminate; [congruence|]. intro E. f_equal. auto. Qed.
Lemma list_set_set {A} (l : list A) i x y : list_set (list_set l i x) i y = list_set l i y.
Proof. revert i. induction l as [|z l IH]; intros [|i]; simpl; try reflexivity. f_equal. auto. Qed.
Lemma nth_error_snoc {A} (l : list A) x i : nth_error (l ++ [x]) i =
  if Nat.eqb i (length l) then Some x else nth_error l i.
Proof.
  destruct (Nat.eqb_spec i (length l)) as [->|N].
  - rewrite nth_error_app2 by lia. rewrite Nat.sub_diag. reflexivity.
  - destruct (Nat.lt_ge_cases i (length l)).
    + apply nth_error_app1. assumption.
    + rewrite (proj2 (nth_error_None l i)) by assumption. apply nth_error_None. rewrite app_length. simpl. lia.
Qed.
Lemma nth_lt {A} (l : list A) i x : nth_error l i = Some x -> i < length l.
Proof. intro E. apply nth_error_Some. congruence. Qed.

Section ContentOrd.
  Context {T AK V : Type} `{OrdEq T} `{OrdEq AK} `{OrdEq V}.
  Local Notation C := (ContentInner T AK V).
  Definition c_code (c : C) : (T * V) + (AK * list nat) :=
    match c with CLeaf k v => inl (k, v) | CBranch a ns => inr (a, ns) end.
  Lemma cmp_leaf k v k' v' : cmp (CLeaf k v : C) (CLeaf k' v') = cmp (k, v) (k', v').
  Proof. reflexivity. Qed.
  Lemma cmp_branch a ns a' ns' : cmp (CBranch a ns : C) (CBranch a' ns') = cmp (a, ns) (a', ns').
  Proof. reflexivity. Qed.
  #[export] Instance OrdEq_Content : OrdEq C.
  Proof.
    constructor; [constructor|].
    - intros [k v|a ns]; [rewrite cmp_leaf|rewrite cmp_branch]; apply cmp_refl.
    - intros [k v|a ns] [k' v'|a' ns']; try reflexivity; [rewrite !cmp_leaf|rewrite !cmp_branch]; apply cmp_sym.
    - intros [k v|a ns] [k' v'|a' ns'] [k2 v2|a2 ns2]; try (intros; reflexivity); try discriminate;
        rewrite ?cmp_leaf, ?cmp_branch; apply cmp_lt_trans.
    - intros [k v|a ns] [k' v'|a' ns'] [k2 v2|a2 ns2]; try (intros; reflexivity); try discriminate;
        rewrite ?cmp_leaf, ?cmp_branch; apply cmp_eq_compat.
    - intros [k v|a ns] [k' v'|a' ns']; try discriminate; rewrite ?cmp_leaf, ?cmp_branch; intro E;
        apply cmp_eq in E; congruence.
  Qed.
End ContentOrd.

#[export] Instance OrdEq_DotNode : OrdEq DotNode.
Proof.
  assert (E : forall a b : DotNode, cmp a b = cmp (match a with DNode i => (false, i) | DAlt i => (true, i) end)
                                                 (match b with DNode i => (false, i) | DAlt i => (true, i) end)).
  { intros [i|i] [j|j]; reflexivity. }
  constructor; [constructor|].
  - intro x. rewrite E. apply cmp_refl.
  - intros x y. rewrite !E. apply cmp_sym.
  - intros x y z. rewrite !E. apply cmp_lt_trans.
  - intros x y z. rewrite !E. apply cmp_eq_compat.
  - intros x y X. rewrite E in X. apply cmp_eq in X. destruct x, y; congruence.
Qed.

Section TF.
  Context {T AK V : Type} `{OrdEq T} `{OrdEq AK} `{OrdEq V}.
  Local Notation C := (ContentInner T AK V).
  Local Notation tree := (Inner T AK V).
  Implicit Types (t : tree) (c : C).

  (** Content of an alternative; alternatives of a node. *)
  Definition acont t (a : nat) : option C := nth_error (id_to_value (in_alts t)) a.
  Definition nalts t (n : nat) : btset nat := match nth_error (in_nodes t) n with Some s => s | None => [] end.
  Definition node_ok t (n : nat) : Prop := n < length (in_nodes t).
  Definition c_nodes c : list nat := match c with CLeaf _ _ => [] | CBranch _ ns => ns end.

  Record TInv t : Prop := {
    ti_ids : forall c a, bt_get c (value_to_id (in_alts t)) = Some a <-> acont t a = Some c;
    ti_sorted : forall n, sorted (nalts t n);
    ti_alts : forall n a, In a (nalts t n) -> exists c, acont t a = Some c;
    ti_nodes : forall a c, acont t a = Some c -> Forall (node_ok t) (c_nodes c)
  }.

  Lemma acont_inj t a b c : TInv t -> acont t a = Some c -> acont t b = Some c -> a = b.
  Proof. intros I A B. apply (ti_ids t I) in A. apply (ti_ids t I) in B. congruence. Qed.

  Lemma TInv_new : TInv in_new.
  Proof.
    constructor; unfold acont, nalts; simpl.
    - intros c [|a]; simpl; split; discriminate.
    - intros [|n]; constructor.
    - intros [|n] a [].
    - intros [|a] c; discriminate.
  Qed.

  (** *** Operations *)
  Lemma make_alt_spec t c : TInv t -> Forall (node_ok t) (c_nodes c) ->
    let '(a, t') := in_make_alt t c in
    TInv t' /\ acont t' a = Some c /\ in_nodes t' = in_nodes t /\
    (forall b d, acont t b = Some d -> acont t' b = Some d) /\
    (forall b d, acont t' b = Some d -> acont t b = Some d \/ (b = a /\ d = c)).
  Proof.
    intros I F. unfold in_make_alt, altset_add. destruct (bt_get c (value_to_id (in_alts t))) as [a|] eqn:G.
    - destruct t as [ns al]. simpl in *. split; [exact I|]. split; [apply (ti_ids _ I); exact G|]. split; [reflexivity|]. auto.
    - set (a := length (id_to_value (in_alts t))).
      set (t' := Build_Inner _ _).
      assert (Ac : forall b, acont t' b = if Nat.eqb b a then Some c else acont t b).
      { intro b. unfold acont, t'. simpl. apply nth_error_snoc. }
      assert (Nw : acont t a = None) by (apply nth_error_None; unfold a; lia).
      assert (Nc : forall b, acont t b <> Some c).
      { intros b E. apply (ti_ids t I) in E. congruence. }
      split; [|split; [|split; [reflexivity|split]]].
      + constructor.
        * intros d b. rewrite Ac. unfold t'. cbn [in_alts value_to_id]. rewrite bt_get_insert.
          destruct (eqb_spec d c) as [->|Nd].
          -- destruct (Nat.eqb_spec b a) as [->|Nb]; [tauto|]. split; [congruence|].
             intro E. exfalso. exact (Nc b E).
          -- rewrite (ti_ids t I). destruct (Nat.eqb_spec b a) as [->|Nb]; [|reflexivity].
             split; [congruence|]. congruence.
        * exact (ti_sorted t I).
        * intros n b J. destruct (ti_alts t I n b J) as (d & E). rewrite Ac. destruct (Nat.eqb b a); eauto.
        * intros b d. rewrite Ac. destruct (Nat.eqb_spec b a) as [->|Nb].
          -- intros [= <-]. exact F.
          -- apply (ti_nodes t I).
      + rewrite Ac, Nat.eqb_refl. reflexivity.
      + intros b d E. rewrite Ac. destruct (Nat.eqb_spec b a) as [->|]; [congruence|exact E].
      + intros b d. rewrite Ac. destruct (Nat.eqb_spec b a) as [->|]; [|auto]. intros [= <-]. auto.
  Qed.

  Lemma nalts_snoc t n s al : nalts (Build_Inner (in_nodes t ++ [s]) al) n =
    if Nat.eqb n (length (in_nodes t)) then s else nalts t n.
  Proof. unfold nalts. simpl. rewrite nth_error_snoc. destruct (Nat.eqb n _); reflexivity. Qed.

  Lemma make_node_spec t : TInv t ->
    let '(n, t') := in_make_node t in
    n = length (in_nodes t) /\ in_nodes t' = in_nodes t ++ [[]] /\ in_alts t' = in_alts t /\ TInv t'.
  Proof.
    intro I. simpl. split; [reflexivity|]. split; [reflexivity|]. split; [reflexivity|]. constructor.
    - exact (ti_ids t I).
    - intro n. rewrite nalts_snoc. destruct (Nat.eqb n _); [constructor|apply I].
    - intros n a. rewrite nalts_snoc. destruct (Nat.eqb n _); [intros []|apply I].
    - intros a c E. pose proof (ti_nodes t I a c E) as F. eapply Forall_impl; [|exact F]. unfold node_ok. intros n L.
      simpl. rewrite app_length. simpl. lia.
  Qed.

  Lemma add_node_alt_spec t n a : TInv t -> node_ok t n -> (exists c, acont t a = Some c) ->
    exists t', in_add_node_alt n a t = Ret (from_changed (negb (bs_mem a (nalts t n))), t') /\
      in_alts t' = in_alts t /\ in_nodes t' = list_set (in_nodes t) n (bs_add a (nalts t n)) /\ TInv t'.
  Proof.
    intros I L A. unfold in_add_node_alt, get_node, nalts.
    destruct (nth_error (in_nodes t) n) as [s|] eqn:E; [|apply nth_error_None in E; unfold node_ok in L; lia].
    simpl. eexists. split; [reflexivity|]. split; [reflexivity|]. split; [reflexivity|].
    assert (Ns : forall m, nalts (Build_Inner (list_set (in_nodes t) n (bs_add a s)) (in_alts t)) m =
                 if Nat.eqb n m then bs_add a s else nalts t m).
    { intro m. unfold nalts. simpl. rewrite nth_list_set. destruct (Nat.eqb n m); [rewrite E; reflexivity|reflexivity]. }
    assert (Es : s = nalts t n) by (unfold nalts; rewrite E; reflexivity).
    constructor.
    - exact (ti_ids t I).
    - intro m. rewrite Ns. destruct (Nat.eqb n m); [apply bs_add_sorted; rewrite Es|]; apply I.
    - intros m b. rewrite Ns. destruct (Nat.eqb n m); [|apply I]. intro J. apply bs_add_In in J.
      destruct J as [->|J]; [exact A|]. rewrite Es in J. exact (ti_alts t I n b J).
    - intros b c B. eapply Forall_impl; [|exact (ti_nodes t I b c B)]. unfold node_ok. simpl. intros m. rewrite list_set_length. auto.
  Qed.

  Lemma in_make_node_alt (c : C) t : TInv t -> Forall (node_ok t) (c_nodes c) ->
    exists a t',
      (let '(n, t1) := in_make_node t in let '(a, t2) := in_make_alt t1 c in
       '(_, t3) <- in_add_node_alt n a t2 ;; Ret (n, t3)) = Ret (length (in_nodes t), t') /\
      in_nodes t' = in_nodes t ++ [[a]] /\ acont t' a = Some c /\ TInv t' /\
      (forall b d, acont t b = Some d -> acont t' b = Some d) /\
      (forall b d, acont t' b = Some d -> acont t b = Some d \/ (b = a /\ d = c)).
  Proof.
    intros I F. pose proof (make_node_spec t I) as M. destruct (in_make_node t) as [n t1]. destruct M as (-> & N1 & A1 & I1).
    assert (F1 : Forall (node_ok t1) (c_nodes c)).
    { eapply Forall_impl; [|exact F]. unfold node_ok. rewrite N1. intros m L. rewrite app_length. simpl. lia. }
    pose proof (make_alt_spec t1 c I1 F1) as M. destruct (in_make_alt t1 c) as [a t2]. destruct M as (I2 & Ca & N2 & X1 & X2).
    assert (L2 : node_ok t2 (length (in_nodes t))) by (unfold node_ok; rewrite N2, N1, app_length; simpl; lia).
    destruct (add_node_alt_spec t2 (length (in_nodes t)) a I2 L2 (ex_intro _ c Ca)) as (t3 & R & A3 & N3 & I3).
    exists a, t3. rewrite R. simpl. split; [reflexivity|].
    assert (Z : nalts t2 (length (in_nodes t)) = []).
    { unfold nalts. rewrite N2, N1, nth_error_snoc, Nat.eqb_refl. reflexivity. }
    split; [|split; [|split; [exact I3|split]]].
    - rewrite N3, Z, N2, N1. simpl. clear. induction (in_nodes t) as [|s l IH]; simpl; [reflexivity|]. f_equal. exact IH.
    - unfold acont. rewrite A3. exact Ca.
    - intros b d B. unfold acont. rewrite A3. apply X1. unfold acont. rewrite A1. exact B.
    - intros b d B. unfold acont in B. rewrite A3 in B. destruct (X2 b d B) as [Y|Y]; [left|right; exact Y].
      unfold acont in *. rewrite A1 in Y. exact Y.
  Qed.

  Lemma make_branch_node_spec x ns t : TInv t -> Forall (node_ok t) ns ->
    exists a t', in_make_branch_node x ns t = Ret (length (in_nodes t), t') /\
      in_nodes t' = in_nodes t ++ [[a]] /\ acont t' a = Some (CBranch x ns) /\ TInv t' /\
      (forall b d, acont t b = Some d -> acont t' b = Some d) /\
      (forall b d, acont t' b = Some d -> acont t b = Some d \/ (b = a /\ d = CBranch x ns)).
  Proof. exact (in_make_node_alt (CBranch x ns) t). Qed.
  Lemma make_leaf_node_spec k v t : TInv t ->
    exists a t', in_make_leaf_node k v t = Ret (length (in_nodes t), t') /\
      in_nodes t' = in_nodes t ++ [[a]] /\ acont t' a = Some (CLeaf k v) /\ TInv t' /\
      (forall b d, acont t b = Some d -> acont t' b = Some d) /\
      (forall b d, acont t' b = Some d -> acont t b = Some d \/ (b = a /\ d = CLeaf k v)).
  Proof. exact (fun I => in_make_node_alt (CLeaf k v) t I (Forall_nil _)). Qed.

  Lemma add_all_iter l : forall (c : WasChanged) t n, TInv t -> node_ok t n -> Forall (fun a => exists d, acont t a = Some d) l ->
    exists (c' : WasChanged) t', change_iter_from (fun a t => in_add_node_alt n a t) c l t = Ret (c', t') /\
      in_alts t' = in_alts t /\ in_nodes t' = list_set (in_nodes t) n (bs_extend (nalts t n) l) /\ TInv t' /\
      (c' = Changed <-> c = Changed \/ exists a, In a l /\ ~ In a (nalts t n)).
  Proof.
    induction l as [|a l IH]; intros c t n I L F; simpl.
    - exists c, t. split; [reflexivity|]. split; [reflexivity|]. split.
      { symmetry. apply list_set_same. unfold nalts. destruct (nth_error (in_nodes t) n) eqn:E; [reflexivity|].
        apply nth_error_None in E. unfold node_ok in L. lia. }
      split; [exact I|]. split; [auto|]. intros [?|(a & [] & _)]; assumption.
    - inversion F as [|? ? A F']; subst. destruct (add_node_alt_spec t n a I L A) as (t1 & R & A1 & N1 & I1).
      rewrite R. simpl. assert (L1 : node_ok t1 n) by (unfold node_ok; rewrite N1, list_set_length; exact L).
      assert (F1 : Forall (fun a => exists d, acont t1 a = Some d) l) by (unfold acont; rewrite A1; exact F').
      destruct (IH (wc_join c (from_changed (negb (bs_mem a (nalts t n))))) t1 n I1 L1 F1) as (c' & t' & R' & A' & N' & I' & Cc).
      assert (Z : nalts t1 n = bs_add a (nalts t n)).
      { unfold nalts at 1. rewrite N1, nth_list_set, Nat.eqb_refl.
        destruct (nth_error (in_nodes t) n) eqn:E; [reflexivity|]. apply nth_error_None in E. unfold node_ok in L. lia. }
      exists c', t'. split; [exact R'|]. split; [congruence|]. split.
      { rewrite N', N1, list_set_set, Z. reflexivity. }
      split; [exact I'|]. rewrite Cc, Z, wc_join_Changed.
      assert (M : from_changed (negb (bs_mem a (nalts t n))) = Changed <-> ~ In a (nalts t n)).
      { rewrite <- bs_mem_false_iff. destruct (bs_mem a (nalts t n)); simpl; split; congruence. }
      rewrite M. split.
      + intros [[?|?]|(b & J & K)]; [auto|right; exists a; auto|right; exists b; split; [auto|]].
        intro X. apply K. apply bs_add_In. auto.
      + intros [?|(b & [<-|J] & K)]; [auto|auto|].
        destruct (OrdEq_dec b a) as [->|Nb]; [auto|]. right. exists b. split; [exact J|]. rewrite bs_add_In. tauto.
  Qed.

  Lemma add_all_spec t n m : TInv t -> node_ok t n -> node_ok t m ->
    exists (c : WasChanged) t', in_add_all n m t = Ret (c, t') /\
      in_alts t' = in_alts t /\ in_nodes t' = list_set (in_nodes t) n (bs_extend (nalts t n) (nalts t m)) /\ TInv t' /\
      (c = Changed <-> exists a, In a (nalts t m) /\ ~ In a (nalts t n)).
  Proof.
    intros I Ln Lm. unfold in_add_all, get_node.
    assert (E : nth_error (in_nodes t) m = Some (nalts t m)).
    { unfold nalts. destruct (nth_error (in_nodes t) m) eqn:E; [reflexivity|]. apply nth_error_None in E. unfold node_ok in Lm. lia. }
    rewrite E. simpl. unfold change_iter.
    destruct (add_all_iter (nalts t m) Unchanged t n I Ln) as (c & t' & R & A & N & I' & Cc).
    { apply Forall_forall. intros a J. exact (ti_alts t I m a J). }
    exists c, t'. split; [exact R|]. split; [exact A|]. split; [exact N|]. split; [exact I'|].
    rewrite Cc. split; [intros [X|X]; [discriminate|exact X]|auto].
  Qed.

  Lemma nalts_set t n s al m : node_ok t n -> nalts (Build_Inner (list_set (in_nodes t) n s) al) m =
    if Nat.eqb n m then s else nalts t m.
  Proof.
    intro L. unfold nalts. simpl. rewrite nth_list_set. destruct (Nat.eqb_spec n m) as [<-|]; [|reflexivity].
    destruct (nth_error (in_nodes t) n) eqn:E; [reflexivity|]. apply nth_error_None in E. unfold node_ok in L. lia.
  Qed.
End TF.
