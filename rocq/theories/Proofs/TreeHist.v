(** Invariant of tree histories. *)
From Coq Require Import List Arith Lia Bool.
From Verif.Model Require Import Ord BTree Outcome Utils Tree.
From Verif.Spec Require Import TreeSpec.
From Verif.Proofs Require Import OrdFacts BTreeFacts LoopFacts UtilsFacts TreeFacts.
Import ListNotations.

Section TH.
  Context {T AK V : Type} `{OrdEq T} `{OrdEq AK} `{OrdEq V}.
  Local Notation C := (ContentInner T AK V).
  Local Notation tree := (Inner T AK V).
  Local Notation wld := (world T AK V).
  Local Notation hist := (history T AK V).
  Implicit Types (t : tree) (w : wld) (tr : hist).

  Definition tle t t' : Prop :=
    length (in_nodes t) <= length (in_nodes t') /\ forall a c, acont t a = Some c -> acont t' a = Some c.
  Definition WInv w : Prop := forall h t, nth_error w h = Some t -> TInv t.
  Definition wle w w' : Prop := forall h t, nth_error w h = Some t -> exists t', nth_error w' h = Some t' /\ tle t t'.

  Definition vnode w (n : Node) : Prop := exists t, nth_error w (nd_inner n) = Some t /\ node_ok t (nd_index n).
  Definition wcont w (a : Alternative) : option C :=
    match nth_error w (al_inner a) with Some t => acont t (al_index a) | None => None end.
  Definition valt w (a : Alternative) : Prop := exists c, wcont w a = Some c.
  Definition walts w (n : Node) : btset nat :=
    match nth_error w (nd_inner n) with Some t => nalts t (nd_index n) | None => [] end.

  Definition cext (h : TreeHandle) (c : C) : NodeContent T AK V :=
    match c with
    | CLeaf k v => NLeaf k v
    | CBranch x is => NBranch x (map (fun i => {| nd_index := i; nd_inner := h |}) is)
    end.

  Lemma tle_refl t : tle t t. Proof. split; auto. Qed.
  Lemma tle_trans a b c : tle a b -> tle b c -> tle a c.
  Proof. intros [L1 A1] [L2 A2]. split; [lia|auto]. Qed.
  Lemma wle_refl w : wle w w. Proof. intros h t E. exists t. split; [exact E|apply tle_refl]. Qed.
  Lemma wle_trans w1 w2 w3 : wle w1 w2 -> wle w2 w3 -> wle w1 w3.
  Proof. intros A B h t E. destruct (A h t E) as (t' & E' & L). destruct (B h t' E') as (t2 & E2 & L2). exists t2. split; [exact E2|]. eapply tle_trans; eauto. Qed.
  Lemma wle_vnode w w' n : wle w w' -> vnode w n -> vnode w' n.
  Proof. intros L (t & E & O). destruct (L _ _ E) as (t' & E' & [G _]). exists t'. split; [exact E'|]. unfold node_ok in *. lia. Qed.
  Lemma wle_wcont w w' a c : wle w w' -> wcont w a = Some c -> wcont w' a = Some c.
  Proof.
    intros L. unfold wcont. destruct (nth_error w (al_inner a)) as [t|] eqn:E; [|discriminate].
    destruct (L _ _ E) as (t' & -> & [_ G]). apply G.
  Qed.
  Lemma wle_valt w w' a : wle w w' -> valt w a -> valt w' a.
  Proof. intros L (c & E). exists c. eapply wle_wcont; eauto. Qed.
  Lemma wle_tree w w' h : wle w w' -> h < length w -> h < length w'.
  Proof. intros L G. destruct (nth_error w h) as [t|] eqn:E; [|apply nth_error_None in E; lia].
    destruct (L _ _ E) as (t' & E' & _). exact (nth_lt _ _ _ E'). Qed.

  Lemma wcont_inj w a b c : WInv w -> al_inner a = al_inner b -> wcont w a = Some c -> wcont w b = Some c -> a = b.
  Proof.
    intros I S. unfold wcont. rewrite <- S. destruct (nth_error w (al_inner a)) as [t|] eqn:E; [|discriminate].
    intros A B. pose proof (acont_inj t _ _ c (I _ _ E) A B). destruct a, b. simpl in *. congruence.
  Qed.

  Lemma w_content_iff w a x : w_content w a = Ret x <-> exists c, wcont w a = Some c /\ x = cext (al_inner a) c.
  Proof.
    unfold w_content, with_, get_alt, wcont, acont. destruct (nth_error w (al_inner a)) as [t|]; simpl.
    - destruct (nth_error _ _) as [c|]; simpl.
      + split; [intros [= <-]; exists c; split; [reflexivity|destruct c; reflexivity]|].
        intros (c' & [= <-] & ->). destruct c; reflexivity.
      + split; [discriminate|]. intros (c & E & _). discriminate.
    - split; [discriminate|]. intros (c & E & _). discriminate.
  Qed.
  Lemma map_handle_inj h (l l' : list nat) :
    map (fun i => {| nd_index := i; nd_inner := h |}) l = map (fun i => {| nd_index := i; nd_inner := h |}) l' -> l = l'.
  Proof. revert l'. induction l as [|x l IH]; intros [|y l']; simpl; try discriminate; [reflexivity|]. intros [= -> E]. f_equal. auto. Qed.
  Lemma cext_inj h c c' : cext h c = cext h c' -> c = c'.
  Proof. destruct c, c'; simpl; try discriminate; [congruence|]. intros [= -> E]. apply map_handle_inj in E. congruence. Qed.

  Lemma w_alts_ok w n : vnode w n ->
    w_alts w n = Ret (map (fun i => {| al_index := i; al_inner := nd_inner n |}) (walts w n)).
  Proof.
    intros (t & E & O). unfold w_alts, with_, walts, get_node, nalts. rewrite E. simpl.
    unfold node_ok in O. destruct (nth_error (in_nodes t) (nd_index n)) eqn:F; [reflexivity|]. apply nth_error_None in F. lia.
  Qed.

  (** Replacing one tree by a larger one. *)
  Lemma set_inv w h t t' : WInv w -> nth_error w h = Some t -> TInv t' -> tle t t' ->
    WInv (w_set w h t') /\ wle w (w_set w h t') /\ nth_error (w_set w h t') h = Some t' /\
    length (w_set w h t') = length w.
  Proof.
    intros I E I' L. split; [|split; [|split]].
    - intros k u. unfold w_set. rewrite nth_list_set. destruct (Nat.eqb_spec h k) as [<-|N]; [|apply I].
      rewrite E. intros [= <-]. exact I'.
    - intros k u K. unfold w_set. rewrite nth_list_set. destruct (Nat.eqb_spec h k) as [<-|N].
      + rewrite E. exists t'. split; [reflexivity|]. congruence.
      + exists u. split; [exact K|apply tle_refl].
    - unfold w_set. rewrite nth_list_set, Nat.eqb_refl, E. reflexivity.
    - unfold w_set. apply list_set_length.
  Qed.
  Lemma walts_set w h t t' n : nth_error w h = Some t ->
    walts (w_set w h t') n = if Nat.eqb h (nd_inner n) then nalts t' (nd_index n) else walts w n.
  Proof.
    intro E. unfold walts, w_set. rewrite nth_list_set. destruct (Nat.eqb_spec h (nd_inner n)) as [_|N]; [|reflexivity].
    rewrite E. reflexivity.
  Qed.
  Lemma tree_at w h : h < length w -> exists t, nth_error w h = Some t.
  Proof. intro L. destruct (nth_error w h) eqn:E; [eauto|]. apply nth_error_None in E. lia. Qed.

  (** *** Each operation *)
  Lemma new_tree_spec w : WInv w ->
    exists w', w_new_tree w = (Ret (length w), w') /\ WInv w' /\ wle w w' /\ length w' = S (length w) /\
      forall n, walts w' n = walts w n.
  Proof.
    intro I. exists (w ++ [in_new]). split; [reflexivity|].
    assert (E : forall h, nth_error (w ++ [in_new]) h = if Nat.eqb h (length w) then Some in_new else nth_error w h)
      by (intro; apply nth_error_snoc).
    split; [|split; [|split]].
    - intros h t. rewrite E. destruct (Nat.eqb h (length w)); [intros [= <-]; apply TInv_new|apply I].
    - intros h t K. exists t. split; [|apply tle_refl]. rewrite E. destruct (Nat.eqb_spec h (length w)) as [->|]; [|exact K].
      apply nth_lt in K. lia.
    - rewrite app_length. simpl. lia.
    - intro n. unfold walts. rewrite E. destruct (Nat.eqb_spec (nd_inner n) (length w)) as [->|]; [|reflexivity].
      rewrite (proj2 (nth_error_None w (length w))) by lia. unfold nalts. simpl. destruct (nd_index n); reflexivity.
  Qed.

  Lemma w_make_node_spec w h : WInv w -> h < length w ->
    exists n w', w_make_node w h = (Ret n, w') /\ nd_inner n = h /\ ~ vnode w n /\ vnode w' n /\
      WInv w' /\ wle w w' /\ (forall m, walts w' m = walts w m).
  Proof.
    intros I L. destruct (tree_at w h L) as [t E]. unfold w_make_node, with_. rewrite E. simpl.
    pose proof (make_node_spec t (I _ _ E)) as M. simpl in M. destruct M as (_ & _ & _ & I').
    eexists. eexists. split; [reflexivity|]. simpl. split; [reflexivity|]. split.
    { intros (u & E' & O). simpl in *. rewrite E in E'. injection E' as <-. unfold node_ok in O. lia. }
    assert (G : tle t (Build_Inner (in_nodes t ++ [[]]) (in_alts t))).
    { split; [simpl; rewrite app_length; lia|auto]. }
    destruct (set_inv w h t _ I E I' G) as (A & B & D & _). split; [|split; [exact A|split; [exact B|]]].
    - eexists. split; [exact D|]. unfold node_ok. simpl. rewrite app_length. simpl. lia.
    - intro m. rewrite (walts_set w h t _ m E). destruct (Nat.eqb_spec h (nd_inner m)) as [Z|Z]; [|reflexivity].
      rewrite nalts_snoc. unfold walts. rewrite <- Z, E. destruct (Nat.eqb_spec (nd_index m) (length (in_nodes t))) as [->|]; [|reflexivity].
      unfold nalts. rewrite (proj2 (nth_error_None _ _)) by lia. reflexivity.
  Qed.

  Lemma w_make_alt_spec w h c : WInv w -> h < length w ->
    (forall i, In i (c_nodes c) -> vnode w {| nd_index := i; nd_inner := h |}) ->
    exists a w', w_make_alt w h c = (Ret a, w') /\ al_inner a = h /\ wcont w' a = Some c /\
      WInv w' /\ wle w w' /\ (forall m, walts w' m = walts w m).
  Proof.
    intros I L N. destruct (tree_at w h L) as [t E]. unfold w_make_alt, with_. rewrite E. simpl.
    assert (F : Forall (node_ok t) (c_nodes c)).
    { apply Forall_forall. intros i J. destruct (N i J) as (u & E' & O). simpl in *. congruence. }
    pose proof (make_alt_spec t c (I _ _ E) F) as M. destruct (in_make_alt t c) as [a t'].
    destruct M as (I' & Ca & Nn & Up & _).
    assert (G : tle t t') by (split; [rewrite Nn; lia|exact Up]).
    destruct (set_inv w h t t' I E I' G) as (A & B & D & _).
    eexists. eexists. split; [reflexivity|]. simpl. split; [reflexivity|]. split.
    { unfold wcont. simpl. rewrite D. exact Ca. }
    split; [exact A|]. split; [exact B|]. intro m. rewrite (walts_set w h t _ m E). unfold walts.
    destruct (Nat.eqb_spec h (nd_inner m)) as [<-|]; [|reflexivity]. rewrite E. unfold nalts. rewrite Nn. reflexivity.
  Qed.

  Lemma collect_ok h ns : (forall n, In n ns -> nd_inner n = h) -> collect_indexes h ns = Ret (map nd_index ns).
  Proof.
    induction ns as [|n ns IH]; intro F; simpl; [reflexivity|].
    rewrite (F n (or_introl eq_refl)), Nat.eqb_refl. simpl. rewrite IH by (intros; apply F; right; assumption). reflexivity.
  Qed.
  Lemma collect_bad h ns n : In n ns -> nd_inner n <> h -> exists m, collect_indexes h ns = Panic m.
  Proof.
    intros J N. induction ns as [|n' ns IH]; [destruct J|]. simpl.
    destruct (Nat.eqb_spec (nd_inner n') h) as [E|E]; simpl; [|eauto].
    destruct J as [->|J]; [congruence|]. destruct (IH J) as (m & ->). simpl. eauto.
  Qed.
  Lemma map_index_back h (ns : list Node) : (forall n, In n ns -> nd_inner n = h) ->
    map (fun i => {| nd_index := i; nd_inner := h |}) (map nd_index ns) = ns.
  Proof.
    induction ns as [|n ns IH]; intro F; simpl; [reflexivity|]. f_equal; [|apply IH; intros; apply F; right; assumption].
    specialize (F n (or_introl eq_refl)). destruct n. simpl in *. congruence.
  Qed.

  Lemma w_make_branch_alt_spec w h x ns : WInv w -> h < length w -> (forall n, In n ns -> nd_inner n = h) ->
    Forall (vnode w) ns ->
    exists a w', w_make_branch_alt w h x ns = (Ret a, w') /\ al_inner a = h /\ wcont w' a = Some (CBranch x (map nd_index ns)) /\
      WInv w' /\ wle w w' /\ (forall m, walts w' m = walts w m).
  Proof.
    intros I L S F. unfold w_make_branch_alt. destruct (tree_at w h L) as [t E]. unfold with_ at 1. rewrite E. simpl.
    rewrite (collect_ok h ns S). simpl. apply w_make_alt_spec; [exact I|exact L|]. simpl. intros i J.
    apply in_map_iff in J. destruct J as (n & <- & J). rewrite Forall_forall in F. pose proof (F n J) as G.
    rewrite <- (S n J). destruct n. exact G.
  Qed.
  Lemma w_make_branch_alt_bad w h x ns n : h < length w -> In n ns -> nd_inner n <> h ->
    exists m, w_make_branch_alt w h x ns = (Panic m, w).
  Proof.
    intros L J N. unfold w_make_branch_alt. destruct (tree_at w h L) as [t E]. unfold with_ at 1. rewrite E. simpl.
    destruct (collect_bad h ns n J N) as (m & ->). simpl. eauto.
  Qed.

  Definition node_eqb (n m : Node) : bool := Nat.eqb (nd_inner n) (nd_inner m) && Nat.eqb (nd_index n) (nd_index m).
  Lemma node_eqb_spec n m : reflect (n = m) (node_eqb n m).
  Proof.
    unfold node_eqb. destruct n as [i h], m as [j k]. simpl.
    destruct (Nat.eqb_spec h k), (Nat.eqb_spec i j); simpl; constructor; congruence.
  Qed.

  Lemma w_add_alt_spec w n a : WInv w -> vnode w n -> valt w a -> nd_inner n = al_inner a ->
    exists w', w_add_alt w n a = (Ret (from_changed (negb (bs_mem (al_index a) (walts w n)))), w') /\
      WInv w' /\ wle w w' /\
      (forall m, walts w' m = if node_eqb n m then bs_add (al_index a) (walts w n) else walts w m).
  Proof.
    intros I (t & E & O) (c & Ca) S. unfold w_add_alt, is_same. rewrite S, Nat.eqb_refl. simpl.
    unfold with_. rewrite <- S, E. simpl.
    assert (Ac : acont t (al_index a) = Some c) by (unfold wcont in Ca; rewrite <- S, E in Ca; exact Ca).
    destruct (add_node_alt_spec t (nd_index n) (al_index a) (I _ _ E) O (ex_intro _ c Ac)) as (t' & R & A & N & I').
    rewrite R. simpl. eexists. split; [unfold walts; rewrite E; reflexivity|].
    assert (G : tle t t') by (split; [rewrite N, list_set_length; lia|unfold acont; rewrite A; auto]).
    destruct (set_inv w _ t t' I E I' G) as (X & Y & D & _). split; [exact X|]. split; [exact Y|].
    intro m. rewrite (walts_set w _ t t' m E). unfold node_eqb. unfold walts at 1 2. rewrite E.
    destruct (Nat.eqb_spec (nd_inner n) (nd_inner m)) as [Z|Z]; simpl; [|reflexivity].
    unfold nalts at 1. rewrite N, nth_list_set. unfold walts. rewrite <- Z, E. unfold nalts.
    destruct (Nat.eqb_spec (nd_index n) (nd_index m)) as [W|W]; [|reflexivity].
    destruct (nth_error (in_nodes t) (nd_index n)) eqn:F; [reflexivity|]. apply nth_error_None in F. unfold node_ok in O. lia.
  Qed.

  Lemma w_add_all_spec w n m : WInv w -> vnode w n -> vnode w m -> nd_inner n = nd_inner m ->
    exists c w', w_add_all w n m = (Ret c, w') /\ WInv w' /\ wle w w' /\
      (c = Changed <-> exists i, In i (walts w m) /\ ~ In i (walts w n)) /\
      (forall k, walts w' k = if node_eqb n k then bs_extend (walts w n) (walts w m) else walts w k).
  Proof.
    intros I (t & E & O) (t0 & E0 & O0) S. rewrite <- S, E in E0. injection E0 as <-. unfold w_add_all, is_same. rewrite S, Nat.eqb_refl. simpl.
    unfold with_. rewrite <- S, E. simpl.
    destruct (add_all_spec t (nd_index n) (nd_index m) (I _ _ E) O O0) as (c & t' & R & A & N & I' & Cc).
    rewrite R. simpl. exists c. eexists. split; [reflexivity|].
    assert (G : tle t t') by (split; [rewrite N, list_set_length; lia|unfold acont; rewrite A; auto]).
    destruct (set_inv w _ t t' I E I' G) as (X & Y & D & _). split; [exact X|]. split; [exact Y|].
    assert (Wm : walts w m = nalts t (nd_index m)) by (unfold walts; rewrite <- S, E; reflexivity).
    assert (Wn : walts w n = nalts t (nd_index n)) by (unfold walts; rewrite E; reflexivity).
    rewrite Wm, Wn. split; [exact Cc|].
    intro k. rewrite (walts_set w _ t t' k E). unfold node_eqb.
    destruct (Nat.eqb_spec (nd_inner n) (nd_inner k)) as [Z|Z]; simpl; [|reflexivity].
    unfold walts. rewrite <- Z, E. unfold nalts at 1. rewrite N, nth_list_set.
    destruct (Nat.eqb_spec (nd_index n) (nd_index k)) as [W|W]; [|reflexivity].
    destruct (nth_error (in_nodes t) (nd_index n)) eqn:F; [reflexivity|]. apply nth_error_None in F. unfold node_ok in O. lia.
  Qed.

  (** The two composed operations. *)
  Lemma vnode_walts_new w n : ~ vnode w n -> walts w n = [].
  Proof.
    intro N. unfold walts. destruct (nth_error w (nd_inner n)) as [t|] eqn:E; [|reflexivity].
    unfold nalts. destruct (nth_error (in_nodes t) (nd_index n)) eqn:F; [|reflexivity]. exfalso. apply N.
    exists t. split; [exact E|]. exact (nth_lt _ _ _ F).
  Qed.

  Lemma composed w h (mk : wld -> wres (T:=T) (AK:=AK) (V:=V) Alternative) c : WInv w -> h < length w ->
    (forall w1, WInv w1 -> wle w w1 -> exists a w2, mk w1 = (Ret a, w2) /\ al_inner a = h /\ wcont w2 a = Some c /\
       WInv w2 /\ wle w1 w2 /\ (forall m, walts w2 m = walts w1 m)) ->
    exists n a w', wbind (w_make_node w h) (fun node w1 => wbind (mk w1) (fun alt w2 =>
        wbind (w_add_alt w2 node alt) (fun _ w3 => (Ret node, w3)))) = (Ret n, w') /\
      nd_inner n = h /\ ~ vnode w n /\ vnode w' n /\ al_inner a = h /\ wcont w' a = Some c /\ WInv w' /\ wle w w' /\
      (forall m, walts w' m = if node_eqb n m then [al_index a] else walts w m).
  Proof.
    intros I L M. destruct (w_make_node_spec w h I L) as (n & w1 & R1 & Hn & Nn & Vn & I1 & L1 & A1). rewrite R1. simpl.
    destruct (M w1 I1 L1) as (a & w2 & R2 & Ha & Ca & I2 & L2 & A2). rewrite R2. simpl.
    destruct (w_add_alt_spec w2 n a I2 (wle_vnode _ _ _ L2 Vn) (ex_intro _ c Ca) (eq_trans Hn (eq_sym Ha))) as (w3 & R3 & I3 & L3 & A3).
    rewrite R3. simpl. exists n, a, w3. split; [reflexivity|]. split; [exact Hn|]. split; [exact Nn|].
    split; [exact (wle_vnode _ _ _ L3 (wle_vnode _ _ _ L2 Vn))|]. split; [exact Ha|].
    split; [exact (wle_wcont _ _ _ _ L3 Ca)|]. split; [exact I3|].
    split; [exact (wle_trans _ _ _ L1 (wle_trans _ _ _ L2 L3))|].
    intro m. rewrite A3. rewrite !A2, !A1. rewrite (vnode_walts_new w n Nn). reflexivity.
  Qed.
  Lemma w_make_leaf_node_spec w h k v : WInv w -> h < length w ->
    exists n a w', w_make_leaf_node w h k v = (Ret n, w') /\
      nd_inner n = h /\ ~ vnode w n /\ vnode w' n /\ al_inner a = h /\ wcont w' a = Some (CLeaf k v) /\ WInv w' /\ wle w w' /\
      (forall m, walts w' m = if node_eqb n m then [al_index a] else walts w m).
  Proof.
    intros I L. apply (composed w h (fun w1 => w_make_leaf_alt w1 h k v) (CLeaf k v) I L). intros w1 I1 L1.
    apply w_make_alt_spec; [exact I1|exact (wle_tree _ _ _ L1 L)|]. intros i [].
  Qed.
  Lemma w_make_branch_node_spec w h x ns : WInv w -> h < length w -> (forall n, In n ns -> nd_inner n = h) ->
    Forall (vnode w) ns ->
    exists n a w', w_make_branch_node w h x ns = (Ret n, w') /\
      nd_inner n = h /\ ~ vnode w n /\ vnode w' n /\ al_inner a = h /\ wcont w' a = Some (CBranch x (map nd_index ns)) /\ WInv w' /\ wle w w' /\
      (forall m, walts w' m = if node_eqb n m then [al_index a] else walts w m).
  Proof.
    intros I L S F. apply (composed w h (fun w1 => w_make_branch_alt w1 h x ns) _ I L). intros w1 I1 L1.
    apply w_make_branch_alt_spec; [exact I1|exact (wle_tree _ _ _ L1 L)|exact S|].
    eapply Forall_impl; [|exact F]. intro n. apply wle_vnode. exact L1.
  Qed.
  Lemma w_make_branch_node_bad w h x ns n : WInv w -> h < length w -> In n ns -> nd_inner n <> h ->
    exists m w', w_make_branch_node w h x ns = (Panic m, w') /\ WInv w' /\ wle w w' /\ (forall k, walts w' k = walts w k).
  Proof.
    intros I L J N. unfold w_make_branch_node.
    destruct (w_make_node_spec w h I L) as (n1 & w1 & R1 & Hn & Nn & Vn & I1 & L1 & A1). rewrite R1. simpl.
    destruct (w_make_branch_alt_bad w1 h x ns n (wle_tree _ _ _ L1 L) J N) as (m & ->). simpl. exists m, w1. auto.
  Qed.

  (** *** All histories *)
  Lemma one_tree_dec (o : tr_op T AK V) : one_tree o \/ ~ one_tree o.
  Proof.
    assert (D : forall h ns, (forall n : Node, In n ns -> nd_inner n = h) \/ (exists n, In n ns /\ nd_inner n <> h)).
    { intros h ns. induction ns as [|n ns IH]; [left; intros ? []|]. destruct (Nat.eq_dec (nd_inner n) h) as [E|E].
      - destruct IH as [A|(m & J & B)]; [left|right; exists m; split; [right; exact J|exact B]].
        intros m [<-|J]; auto.
      - right. exists n. split; [left; reflexivity|exact E]. }
    destruct o; simpl; auto.
    - destruct (D h nodes) as [?|(m & J & B)]; [left; assumption|right; intro X; apply B, X, J].
    - destruct (D h nodes) as [?|(m & J & B)]; [left; assumption|right; intro X; apply B, X, J].
    - destruct (Nat.eq_dec (nd_inner n) (al_inner a)); auto.
    - destruct (Nat.eq_dec (nd_inner n) (nd_inner other)); auto.
  Qed.
  Lemma not_one_tree (h : TreeHandle) (ns : list Node) : ~ (forall n, In n ns -> nd_inner n = h) -> exists n, In n ns /\ nd_inner n <> h.
  Proof.
    induction ns as [|n ns IH]; intro X; [destruct X; intros ? []|].
    destruct (Nat.eq_dec (nd_inner n) h) as [E|E]; [|exists n; split; [left; reflexivity|exact E]].
    destruct IH as (m & J & B); [|exists m; split; [right; exact J|exact B]].
    intro Y. apply X. intros m [<-|J]; auto.
  Qed.

  (** The invariant of a history. *)
  Record HInv tr w : Prop := {
    hi_w : WInv w;
    hi_tree : forall h, known_tree tr h -> h < length w;
    hi_node : forall n, known_node tr n -> vnode w n;
    hi_alt : forall a, known_alt tr a -> valt w a;
    hi_made : forall a c, made tr a c -> w_content w a = Ret c;
    hi_added : forall w', WInv w' -> wle w w' -> forall n a,
      added w' tr n a <-> nd_inner n = al_inner a /\ In (al_index a) (walts w n)
  }.

  (** Holding the handles an operation mentions. *)
  Definition held w (o : tr_op T AK V) : Prop :=
    match o with
    | TNewTree => True
    | TMakeNode h | TMakeLeafAlt h _ _ | TMakeLeafNode h _ _ => h < length w
    | TMakeBranchAlt h _ ns | TMakeBranchNode h _ ns => h < length w /\ Forall (vnode w) ns
    | TAddAlt n a => vnode w n /\ valt w a
    | TAddAll n m => vnode w n /\ vnode w m
    | TAlts n => vnode w n
    | TContent a => valt w a
    end.
  Lemma held_of tr w o : HInv tr w -> can_call tr o -> held w o.
  Proof.
    intros I. destruct o; simpl; try (intro K; apply (hi_tree _ _ I); exact K); auto.
    - intros [K F]. split; [apply (hi_tree _ _ I); exact K|]. eapply Forall_impl; [|exact F]. apply (hi_node _ _ I).
    - intros [K F]. split; [apply (hi_tree _ _ I); exact K|]. eapply Forall_impl; [|exact F]. apply (hi_node _ _ I).
    - intros [A B]. split; [apply (hi_node _ _ I); exact A|apply (hi_alt _ _ I); exact B].
    - intros [A B]. split; apply (hi_node _ _ I); assumption.
    - apply (hi_node _ _ I).
    - apply (hi_alt _ _ I).
  Qed.

  (** What a result says about the trees afterwards. *)
  Definition res_ok w' (v : tr_val T AK V) : Prop :=
    match v with
    | RHandle h => h < length w'
    | RNode n => vnode w' n
    | RAlt a => valt w' a
    | RChanged _ => True
    | RAlts l => Forall (valt w') l
    | RContent c => match c with NLeaf _ _ => True | NBranch _ ns => Forall (vnode w') ns end
    end.

  Lemma alts_valid w n : WInv w -> vnode w n ->
    Forall (valt w) (map (fun i => {| al_index := i; al_inner := nd_inner n |}) (walts w n)).
  Proof.
    intros I (t & E & O). apply Forall_forall. intros a J. apply in_map_iff in J. destruct J as (i & <- & J).
    unfold walts in J. rewrite E in J. destruct (ti_alts t (I _ _ E) _ _ J) as (c & Ca). exists c. unfold wcont. simpl. rewrite E. exact Ca.
  Qed.
  Lemma cont_valid w a c : WInv w -> wcont w a = Some c ->
    match cext (al_inner a) c with NLeaf _ _ => True | NBranch _ ns => Forall (vnode w) ns end.
  Proof.
    intros I. unfold wcont. destruct (nth_error w (al_inner a)) as [t|] eqn:E; [|discriminate]. intro Ca.
    pose proof (ti_nodes t (I _ _ E) _ _ Ca) as F. destruct c as [k v|x ns]; simpl in *; [exact Logic.I|].
    apply Forall_forall. intros n J. apply in_map_iff in J. destruct J as (i & <- & J). rewrite Forall_forall in F.
    exists t. split; [exact E|apply F; exact J].
  Qed.

  (** One step. *)
  Lemma step_good w o : WInv w -> held w o -> one_tree o ->
    exists v w', tr_step w o = (Ret v, w') /\ WInv w' /\ wle w w' /\ res_ok w' v.
  Proof.
    intros I K S. destruct o; simpl in K, S; cbn [tr_step].
    - destruct (new_tree_spec w I) as (w' & R & I' & L & Ln & _). rewrite R. simpl. eexists; exists w'. split; [reflexivity|].
      split; [exact I'|]. split; [exact L|]. simpl. lia.
    - destruct (w_make_node_spec w h I K) as (n & w' & R & _ & _ & Vn & I' & L & _). rewrite R. simpl. eexists; exists w'. eauto.
    - unfold w_make_leaf_alt. destruct (w_make_alt_spec w h (CLeaf kind value) I K) as (a & w' & R & _ & Ca & I' & L & _); [intros ? []|].
      rewrite R. simpl. eexists; exists w'. split; [reflexivity|]. split; [exact I'|]. split; [exact L|]. eexists; exact Ca.
    - destruct K as [K F]. destruct (w_make_branch_alt_spec w h action nodes I K S F) as (a & w' & R & _ & Ca & I' & L & _).
      rewrite R. simpl. eexists; exists w'. split; [reflexivity|]. split; [exact I'|]. split; [exact L|]. eexists; exact Ca.
    - destruct (w_make_leaf_node_spec w h kind value I K) as (n & a & w' & R & _ & _ & Vn & _ & _ & I' & L & _).
      rewrite R. simpl. eexists; exists w'. eauto.
    - destruct K as [K F]. destruct (w_make_branch_node_spec w h action nodes I K S F) as (n & a & w' & R & _ & _ & Vn & _ & _ & I' & L & _).
      rewrite R. simpl. eexists; exists w'. eauto.
    - destruct K as [A B]. destruct (w_add_alt_spec w n a I A B S) as (w' & R & I' & L & _). rewrite R. simpl. eexists; exists w'. refine (conj eq_refl (conj I' (conj L _))). exact Logic.I.
    - destruct K as [A B]. destruct (w_add_all_spec w n other I A B S) as (c & w' & R & I' & L & _). rewrite R. simpl. eexists; exists w'. refine (conj eq_refl (conj I' (conj L _))). exact Logic.I.
    - rewrite (w_alts_ok w n K). simpl. eexists; exists w. split; [reflexivity|]. split; [exact I|]. split; [apply wle_refl|].
      apply alts_valid; assumption.
    - destruct K as (c & Ca). rewrite (proj2 (w_content_iff w a (cext (al_inner a) c)) (ex_intro _ c (conj Ca eq_refl))).
      simpl. eexists; exists w. split; [reflexivity|]. split; [exact I|]. split; [apply wle_refl|]. apply (cont_valid w a c I Ca).
  Qed.
  Lemma step_bad w o : WInv w -> held w o -> ~ one_tree o ->
    exists m w', tr_step w o = (Panic m, w') /\ WInv w' /\ wle w w' /\ (forall k, walts w' k = walts w k) /\
      (w' = w \/ exists h x ns, o = TMakeBranchNode h x ns).
  Proof.
    intros I K S. destruct o; simpl in K, S; cbn [tr_step]; try (destruct S; exact Logic.I).
    - destruct K as [K F]. destruct (not_one_tree h nodes S) as (n & J & B).
      destruct (w_make_branch_alt_bad w h action nodes n K J B) as (m & ->). simpl. exists m, w. refine (conj eq_refl (conj I (conj (wle_refl w) (conj _ (or_introl eq_refl))))). reflexivity.
    - destruct K as [K F]. destruct (not_one_tree h nodes S) as (n & J & B).
      destruct (w_make_branch_node_bad w h action nodes n I K J B) as (m & w' & R & I' & L & A). rewrite R. simpl.
      exists m, w'. refine (conj eq_refl (conj I' (conj L (conj A _)))). right. eauto.
    - unfold w_add_alt, is_same. rewrite (proj2 (Nat.eqb_neq _ _) S). simpl. eexists; exists w. refine (conj eq_refl (conj I (conj (wle_refl w) (conj _ (or_introl eq_refl))))). reflexivity.
    - unfold w_add_all, is_same. rewrite (proj2 (Nat.eqb_neq _ _) S). simpl. eexists; exists w. refine (conj eq_refl (conj I (conj (wle_refl w) (conj _ (or_introl eq_refl))))). reflexivity.
  Qed.

  (** Effect of a step on the additions. *)
  Lemma added_panic w' tr o m n a : added w' ((o, Panic m) :: tr) n a <-> added w' tr n a.
  Proof. split; [intro A; inversion A; subst; assumption|apply added_before]. Qed.
  Definition adds_nothing (o : tr_op T AK V) : Prop :=
    match o with TAddAlt _ _ | TAddAll _ _ | TMakeLeafNode _ _ _ | TMakeBranchNode _ _ _ => False | _ => True end.
  Lemma added_nothing w' tr o r n a : adds_nothing o -> added w' ((o, r) :: tr) n a <-> added w' tr n a.
  Proof. intro Z. split; [intro A; inversion A; subst; try assumption; destruct Z|apply added_before]. Qed.

  Lemma content_is w a c x : wcont w a = Some c -> w_content w a = Ret x -> x = cext (al_inner a) c.
  Proof. intros E F. apply w_content_iff in F. destruct F as (c' & E' & ->). congruence. Qed.

  Lemma walts_step w o w' v : WInv w -> held w o -> tr_step w o = (Ret v, w') -> adds_nothing o ->
    forall k, walts w' k = walts w k.
  Proof.
    intros I K R Z. destruct o; simpl in K, Z; try destruct Z; cbn [tr_step] in R.
    - destruct (new_tree_spec w I) as (w1 & R1 & _ & _ & _ & A). rewrite R1 in R. simpl in R. injection R as _ <-. exact A.
    - destruct (w_make_node_spec w h I K) as (n1 & w1 & R1 & _ & _ & _ & _ & _ & A). rewrite R1 in R. simpl in R. injection R as _ <-. exact A.
    - unfold w_make_leaf_alt in R. destruct (w_make_alt_spec w h (CLeaf kind value) I K) as (a1 & w1 & R1 & _ & _ & _ & _ & A); [intros ? []|].
      rewrite R1 in R. simpl in R. injection R as _ <-. exact A.
    - destruct K as [K F]. destruct (one_tree_dec (TMakeBranchAlt h action nodes)) as [S|S]; simpl in S.
      + destruct (w_make_branch_alt_spec w h action nodes I K S F) as (a1 & w1 & R1 & _ & _ & _ & _ & A).
        rewrite R1 in R. simpl in R. injection R as _ <-. exact A.
      + destruct (not_one_tree h nodes S) as (n1 & J & B).
        destruct (w_make_branch_alt_bad w h action nodes n1 K J B) as (m & R1). rewrite R1 in R. discriminate.
    - destruct (w_alts w n); simpl in R; inversion R; subst; reflexivity.
    - destruct (w_content w a); simpl in R; inversion R; subst; reflexivity.
  Qed.

  Lemma added_vnode tr w : HInv tr w -> forall w' n a, WInv w' -> wle w w' -> added w' tr n a -> vnode w n.
  Proof.
    intros I w' n a Iw L A. apply (hi_added _ _ I w' Iw L) in A. destruct A as [_ J]. unfold walts in J.
    destruct (nth_error w (nd_inner n)) as [t|] eqn:E; [|destruct J]. exists t. split; [exact E|].
    unfold nalts in J. destruct (nth_error (in_nodes t) (nd_index n)) eqn:F; [|destruct J]. exact (nth_lt _ _ _ F).
  Qed.

  Lemma added_step tr w o v w' : HInv tr w -> can_call tr o -> one_tree o -> tr_step w o = (Ret v, w') ->
    WInv w' -> wle w w' ->
    forall w2, WInv w2 -> wle w' w2 -> forall n a,
      added w2 ((o, Ret v) :: tr) n a <-> nd_inner n = al_inner a /\ In (al_index a) (walts w' n).
  Proof.
    intros I Kc S R I' L w2 I2 L2 n a. pose proof (held_of tr w o I Kc) as K.
    pose proof (hi_added _ _ I w2 I2 (wle_trans _ _ _ L L2)) as Old.
    assert (Dn : adds_nothing o \/ ~ adds_nothing o) by (destruct o; simpl; auto).
    destruct Dn as [Z|Z].
    { rewrite (added_nothing w2 tr o (Ret v) n a Z), Old, (walts_step w o w' v (hi_w _ _ I) K R Z). reflexivity. }
    destruct o; simpl in K, S, Z; try (destruct Z; exact Logic.I); cbn [tr_step] in R.
    - (* make_leaf_node *)
      destruct (w_make_leaf_node_spec w h kind value (hi_w _ _ I) K) as (n1 & a1 & w1 & R1 & Hn & Nn & Vn & Ha & Ca & _ & _ & A).
      rewrite R1 in R. simpl in R. injection R as <- <-. rewrite A. destruct (node_eqb_spec n1 n) as [->|Ne].
      + split.
        * intro X. inversion X; subst.
          -- assert (Hia : al_inner a = al_inner a1) by congruence.
             split; [congruence|]. left.
             match goal with H : w_content w2 a = _ |- _ => apply w_content_iff in H; destruct H as (c & Cc & Ec) end.
             assert (c = CLeaf kind value) by (apply (cext_inj (al_inner a)); rewrite <- Ec; reflexivity). subst c.
             rewrite (wcont_inj w2 a a1 _ I2 Hia Cc (wle_wcont _ _ _ _ L2 Ca)). reflexivity.
          -- exfalso. apply Nn. match goal with H : added w2 tr n a |- _ => exact (added_vnode tr w I w2 n a I2 (wle_trans _ _ _ L L2) H) end.
        * intros (Hi & [E|[]]). assert (a = a1) as -> by (destruct a, a1; simpl in *; congruence).
          apply added_leaf; [exact Ha|]. apply w_content_iff. eexists. split; [exact (wle_wcont _ _ _ _ L2 Ca)|reflexivity].
      + rewrite <- Old. split; [intro X; inversion X; subst; [congruence|assumption]|apply added_before].
    - (* make_branch_node *)
      destruct K as [K F].
      destruct (w_make_branch_node_spec w h action nodes (hi_w _ _ I) K S F) as (n1 & a1 & w1 & R1 & Hn & Nn & Vn & Ha & Ca & _ & _ & A).
      rewrite R1 in R. simpl in R. injection R as <- <-. rewrite A. destruct (node_eqb_spec n1 n) as [->|Ne].
      + split.
        * intro X. inversion X; subst.
          -- assert (Hia : al_inner a = al_inner a1) by congruence.
             split; [congruence|]. left.
             match goal with H : w_content w2 a = _ |- _ => apply w_content_iff in H; destruct H as (c & Cc & Ec) end.
             assert (c = CBranch action (map nd_index nodes)) as ->.
             { apply (cext_inj (al_inner a)). rewrite <- Ec. simpl. f_equal. symmetry. apply map_index_back.
               intros k J. rewrite (S k J). congruence. }
             rewrite (wcont_inj w2 a a1 _ I2 Hia Cc (wle_wcont _ _ _ _ L2 Ca)). reflexivity.
          -- exfalso. apply Nn. match goal with H : added w2 tr n a |- _ => exact (added_vnode tr w I w2 n a I2 (wle_trans _ _ _ L L2) H) end.
        * intros (Hi & [E|[]]). assert (a = a1) as -> by (destruct a, a1; simpl in *; congruence).
          apply added_branch; [exact Ha|]. apply w_content_iff. eexists. split; [exact (wle_wcont _ _ _ _ L2 Ca)|].
          simpl. f_equal. symmetry. apply map_index_back. intros k J. rewrite (S k J). symmetry. exact Ha.
      + rewrite <- Old. split; [intro X; inversion X; subst; [congruence|assumption]|apply added_before].
    - (* add_alt *)
      destruct K as [K1 K2]. destruct (w_add_alt_spec w n0 a0 (hi_w _ _ I) K1 K2 S) as (w1 & R1 & _ & _ & A).
      rewrite R1 in R. simpl in R. injection R as <- <-. rewrite A. destruct (node_eqb_spec n0 n) as [->|Ne].
      + rewrite bs_add_In. split.
        * intro X. inversion X; subst; [auto|]. match goal with H : added w2 tr n a |- _ => apply Old in H; tauto end.
        * intros (Hi & [E|J]); [assert (a = a0) as -> by (destruct a, a0; simpl in *; congruence); apply added_alt|].
          apply added_before. apply Old. auto.
      + rewrite <- Old. split; [intro X; inversion X; subst; [congruence|assumption]|apply added_before].
    - (* add_all *)
      destruct K as [K1 K2]. destruct (w_add_all_spec w n0 other (hi_w _ _ I) K1 K2 S) as (c1 & w1 & R1 & _ & _ & _ & A).
      rewrite R1 in R. simpl in R. injection R as <- <-. rewrite A. destruct (node_eqb_spec n0 n) as [->|Ne].
      + rewrite bs_extend_In. split.
        * intro X. inversion X; subst.
          -- match goal with H : added w2 tr other a |- _ => apply Old in H; destruct H as [Q1 Q2] end. split; [congruence|auto].
          -- match goal with H : added w2 tr n a |- _ => apply Old in H; tauto end.
        * intros (Hi & [J|J]); [apply added_all; apply Old; split; [congruence|exact J]|apply added_before; apply Old; auto].
      + rewrite <- Old. split; [intro X; inversion X; subst; [congruence|assumption]|apply added_before].
  Qed.

  Lemma made_step tr w o v w' a c : HInv tr w -> can_call tr o -> one_tree o -> tr_step w o = (Ret v, w') ->
    made ((o, Ret v) :: tr) a c -> WInv w' -> wle w w' -> w_content w' a = Ret c.
  Proof.
    intros I Kc S R M I' L. pose proof (held_of tr w o I Kc) as K.
    assert (Old : made tr a c -> w_content w' a = Ret c).
    { intro X. apply (hi_made _ _ I) in X. apply w_content_iff in X. destruct X as (d & E & ->). apply w_content_iff. exists d.
      split; [eapply wle_wcont; eauto|reflexivity]. }
    destruct M as [(h & k & u & [J|J] & ->)|(h & x & ns & [J|J] & ->)];
      [|apply Old; left; eauto 7| |apply Old; right; eauto 7].
    - injection J as -> ->. simpl in K. cbn [tr_step] in R. unfold w_make_leaf_alt in R.
      destruct (w_make_alt_spec w h (CLeaf k u) (hi_w _ _ I) K) as (a1 & w1 & R1 & _ & Ca & _); [intros ? []|].
      rewrite R1 in R. simpl in R. injection R as <- <-. apply w_content_iff. eexists. split; [exact Ca|reflexivity].
    - injection J as -> ->. simpl in K, S. destruct K as [K F]. cbn [tr_step] in R.
      destruct (w_make_branch_alt_spec w h x ns (hi_w _ _ I) K S F) as (a1 & w1 & R1 & Ha & Ca & _).
      rewrite R1 in R. simpl in R. injection R as <- <-. apply w_content_iff. eexists. split; [exact Ca|].
      simpl. f_equal. symmetry. apply map_index_back. intros n J. rewrite (S n J). symmetry. exact Ha.
  Qed.

  Theorem run_inv tr w : run tr w -> HInv tr w.
  Proof.
    induction 1 as [|tr w o r w' Rn I Kc St].
    - constructor.
      + intros h t. destruct h; discriminate.
      + intros h [].
      + intros n [(o & [])|(a & x & ns & [] & _)].
      + intros a [(o & [])|(n & l & [] & _)].
      + intros a c [(h & k & v & [] & _)|(h & k & v & [] & _)].
      + intros w' _ _ n a. split; [intro A; inversion A|]. intros [_ J]. unfold walts in J. destruct (nd_inner n); destruct J.
    - pose proof (held_of tr w o I Kc) as K. destruct (one_tree_dec o) as [S|S].
      + destruct (step_good w o (hi_w _ _ I) K S) as (v & w1 & R & I' & L & Ok). rewrite R in St. injection St as <- ->.
        constructor.
        * exact I'.
        * intros h [J|J].
          -- injection J as -> ->. exact Ok.
          -- eapply wle_tree; [exact L|]. apply (hi_tree _ _ I). exact J.
        * intros n [(o' & [J|J])|(a & x & ns & [J|J] & Jn)].
          -- injection J as -> ->. exact Ok.
          -- eapply wle_vnode; [exact L|]. apply (hi_node _ _ I). left. eauto.
          -- injection J as -> ->. simpl in Ok. rewrite Forall_forall in Ok. auto.
          -- eapply wle_vnode; [exact L|]. apply (hi_node _ _ I). right. eauto 6.
        * intros a [(o' & [J|J])|(n & l & [J|J] & Jl)].
          -- injection J as -> ->. exact Ok.
          -- eapply wle_valt; [exact L|]. apply (hi_alt _ _ I). left. eauto.
          -- injection J as -> ->. simpl in Ok. rewrite Forall_forall in Ok. auto.
          -- eapply wle_valt; [exact L|]. apply (hi_alt _ _ I). right. eauto 6.
        * intros a c M. eapply made_step; eassumption.
        * eapply added_step; eassumption.
      + destruct (step_bad w o (hi_w _ _ I) K S) as (m & w1 & R & I' & L & A & _). rewrite R in St. injection St as <- ->.
        constructor.
        * exact I'.
        * intros h [J|J]; [discriminate|]. eapply wle_tree; [exact L|]. apply (hi_tree _ _ I). exact J.
        * intros n [(o' & [J|J])|(a & x & ns & [J|J] & Jn)]; try discriminate; (eapply wle_vnode; [exact L|]); apply (hi_node _ _ I); [left|right]; eauto 6.
        * intros a [(o' & [J|J])|(n & l & [J|J] & Jl)]; try discriminate; (eapply wle_valt; [exact L|]); apply (hi_alt _ _ I); [left|right]; eauto 6.
        * intros a c M.
          assert (M' : made tr a c) by (destruct M as [(h & k & u & [J|J] & E)|(h & x & ns & [J|J] & E)]; try discriminate; [left|right]; eauto 7).
          apply (hi_made _ _ I) in M'. apply w_content_iff in M'. destruct M' as (d & E & ->). apply w_content_iff. exists d.
          split; [eapply wle_wcont; eauto|reflexivity].
        * intros w2 I2 L2 n a. rewrite added_panic, A. apply (hi_added _ _ I w2 I2). eapply wle_trans; eauto.
  Qed.

  Lemma run_det tr w : run tr w -> forall w', run tr w' -> w = w'.
  Proof.
    induction 1 as [|tr w o r w1 Rn IH Kc St]; intros w' R; inversion R; subst; [reflexivity|].
    match goal with H : run tr ?x |- _ => pose proof (IH x H) as E; subst x end. congruence.
  Qed.
  Lemma run_app tr' tr w : run (tr' ++ tr) w -> exists w0, run tr w0 /\ wle w0 w.
  Proof.
    revert w. induction tr' as [|e tr' IH]; intros w R; [exists w; split; [exact R|apply wle_refl]|].
    simpl in R. inversion R; subst. match goal with H : run (tr' ++ tr) ?x |- _ => rename H into R0; rename x into w1 end.
    destruct (IH w1 R0) as (w0 & R' & L). exists w0. split; [exact R'|]. eapply wle_trans; [exact L|].
    pose proof (run_inv _ _ R0) as I. match goal with H : can_call _ ?o |- _ => pose proof (held_of _ _ _ I H) as K; destruct (one_tree_dec o) as [S|S] end.
    - destruct (step_good _ _ (hi_w _ _ I) K S) as (v & w2 & E & _ & L2 & _). assert (w2 = w) as -> by congruence. exact L2.
    - destruct (step_bad _ _ (hi_w _ _ I) K S) as (v & w2 & E & _ & L2 & _). assert (w2 = w) as -> by congruence. exact L2.
  Qed.
End TH.
