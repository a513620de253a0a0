(** Tree calls with panics of the caller's code: simulation by histories without panics. *)
From Coq Require Import String List Arith Lia.
From Verif.Model Require Import Ord BTree Outcome Utils Tree TreeFaults.
From Verif.Spec Require Import TreeSpec TreeFaultsSpec.
From Verif.Proofs Require Import OrdFacts BTreeFacts TreeFacts TreeHist.
Import ListNotations.

Section Facts.
  Context {T AK V : Type} `{OrdEq T} `{OrdEq AK} `{OrdEq V}.
  Local Notation wld := (world T AK V).
  Local Notation pwld := (pworld T AK V).
  Local Notation hist := (history T AK V).
  Implicit Types (w : wld) (pw : pwld) (tr : hist).

  Definition sim pw w : Prop := List.length pw = List.length w /\ forall h t, healthy pw h t -> nth_error w h = Some t.

  Lemma lock_cases pw w h : sim pw w -> h < List.length pw ->
    (exists t, healthy pw h t /\ p_lock pw h = Ret t /\ nth_error w h = Some t) \/
    (dead pw h /\ p_lock pw h = Panic poison_text).
  Proof.
    intros [_ S] L. destruct (nth_error pw h) as [[t [|]]|] eqn:E; [right|left|apply nth_error_None in E; lia].
    - split; [exists t; exact E|]. unfold p_lock. rewrite E. reflexivity.
    - exists t. split; [exact E|]. split; [|apply S; exact E]. unfold p_lock. rewrite E. reflexivity.
  Qed.
  Lemma lock_ret pw h t : p_lock pw h = Ret t <-> healthy pw h t.
  Proof.
    unfold p_lock, healthy. destruct (nth_error pw h) as [[t' [|]]|]; simpl; split; intro X; try discriminate X; injection X; intros; subst; reflexivity.
  Qed.
  Lemma sim_set pw w h t t' : sim pw w -> healthy pw h t ->
    sim (list_set pw h {| pt_tree := t'; pt_poisoned := false |}) (w_set w h t').
  Proof.
    intros [L S] G. split; [unfold w_set; rewrite !list_set_length; exact L|].
    intros g u. unfold healthy, w_set. rewrite !nth_list_set. destruct (Nat.eqb_spec h g) as [<-|N]; [|apply S].
    rewrite G. rewrite (S _ _ G). intros [= <-]. reflexivity.
  Qed.
  Lemma sim_poison pw w h t' : sim pw w -> sim (list_set pw h {| pt_tree := t'; pt_poisoned := true |}) w.
  Proof.
    intros [L S]. split; [rewrite list_set_length; exact L|].
    intros g u. unfold healthy. rewrite nth_list_set. destruct (Nat.eqb_spec h g) as [<-|N]; [|apply S].
    destruct (nth_error pw h); discriminate.
  Qed.

  (** The outcome of a primitive: what the plain model says, or a panic. *)
  Definition simr {A} (x : fres A) w (y : wres A) : Prop :=
    (exists a pw' w', x = (Ret a, pw') /\ y = (Ret a, w') /\ sim pw' w') \/
    (exists m pw', x = (Panic m, pw') /\ sim pw' w).

  Lemma sim_make_node pw w h : sim pw w -> h < List.length pw ->
    (exists n pw' w', f_make_node pw h = (Ret n, pw') /\ w_make_node w h = (Ret n, w') /\ sim pw' w') \/
    (exists m, f_make_node pw h = (Panic m, pw)).
  Proof.
    intros S L. unfold f_make_node, p_with_mut.
    destruct (lock_cases pw w h S L) as [(t & G & -> & E)|(D & ->)]; [left|right; eauto].
    cbn. eexists _, _, _. split; [reflexivity|]. unfold w_make_node, with_. rewrite E. cbn. split; [reflexivity|].
    apply (sim_set pw w h t _ S G).
  Qed.
  Lemma sim_make_alt f pw w h c : sim pw w -> h < List.length pw -> simr (f_make_alt f pw h c) w (w_make_alt w h c).
  Proof.
    intros S L. unfold f_make_alt, p_with_mut.
    destruct (lock_cases pw w h S L) as [(t & G & -> & E)|(D & ->)]; [|right; eauto].
    unfold w_make_alt, with_. rewrite E. cbn. unfold in_make_alt, f_inner_make_alt, f_altset_add, altset_add.
    destruct f; try (right; cbn; eexists _, _; split; [reflexivity|apply sim_poison; exact S]);
      (destruct (bt_get c (value_to_id (in_alts t))) as [i|]; cbn;
       [first [right; eexists _, _; split; [reflexivity|apply sim_poison; exact S]
              |left; eexists _, _, _; split; [reflexivity|]; split; [reflexivity|apply (sim_set pw w h t _ S G)]]
       |first [left; eexists _, _, _; split; [reflexivity|]; split; [reflexivity|apply (sim_set pw w h t _ S G)]
              |right; eexists _, _; split; [reflexivity|apply sim_poison; exact S]]]).
  Qed.
  Lemma f_collect_cases pw w h f ns : sim pw w -> (forall n, In n ns -> nd_inner n < List.length pw) ->
    (exists is, f_collect pw h f ns = Ret is /\ collect_indexes h ns = Ret is) \/ (exists m, f_collect pw h f ns = Panic m).
  Proof.
    intros S. revert f. induction ns as [|n ns IH]; intros f F.
    - destruct f as [|[|k] m|m|m|m|m]; cbn; eauto.
    - assert (X : forall g, (exists is, (same <- p_with pw (nd_inner n) (fun _ => Ret (Nat.eqb (nd_inner n) h)) ;;
            _ <- assert_ same "assertion failed: n.inner.with(is_same)" ;;
            is <- f_collect pw h g ns ;; Ret (nd_index n :: is)) = Ret is /\ collect_indexes h (n :: ns) = Ret is) \/
          exists m, (same <- p_with pw (nd_inner n) (fun _ => Ret (Nat.eqb (nd_inner n) h)) ;;
            _ <- assert_ same "assertion failed: n.inner.with(is_same)" ;;
            is <- f_collect pw h g ns ;; Ret (nd_index n :: is)) = Panic m).
      { intro g. unfold p_with. destruct (lock_cases pw w (nd_inner n) S (F n (or_introl eq_refl))) as [(t & G & -> & E)|(D & ->)]; [|right; cbn; eauto].
        cbn. destruct (Nat.eqb (nd_inner n) h); cbn; [|right; eauto].
        destruct (IH g) as [(is & -> & ->)|(m & ->)]; [intros; apply F; right; assumption|left|right]; cbn; eauto. }
      destruct f as [|[|k] m|m|m|m|m]; try apply X. right. cbn. eauto.
  Qed.
  Lemma sim_make_branch_alt f pw w h x ns : sim pw w -> h < List.length pw ->
    (forall n, In n ns -> nd_inner n < List.length pw) -> simr (f_make_branch_alt f pw h x ns) w (w_make_branch_alt w h x ns).
  Proof.
    intros S L F. unfold f_make_branch_alt, p_with, w_make_branch_alt.
    destruct (lock_cases pw w h S L) as [(t & G & -> & E)|(D & ->)]; [|right; cbn; eauto].
    cbn [obind]. unfold with_. rewrite E. cbn [expect on].
    destruct (f_collect_cases pw w h f ns S F) as [(is & -> & ->)|(m & ->)]; [|right; eauto].
    cbn [on]. apply sim_make_alt; assumption.
  Qed.
  Lemma sim_undone {A} pw w h t (x : outcome (A * Inner T AK V)) : sim pw w -> healthy pw h t -> x <> NoFuel ->
    simr (let '(r, t') := undone x t in
        (r, list_set pw h {| pt_tree := t'; pt_poisoned := match r with Panic _ => true | _ => false end |})) w
      (on w x (fun '(c, t') => (Ret c, w_set w h t'))).
  Proof.
    intros S G N. destruct x as [[a t']|m|]; [left|right|congruence]; cbn; [eexists _, _, _|eexists _, _]; (split; [reflexivity|]).
    - split; [reflexivity|]. apply (sim_set pw w h t _ S G).
    - apply sim_poison. exact S.
  Qed.
  Lemma in_add_node_alt_fuel i j (t : Inner T AK V) : in_add_node_alt i j t <> NoFuel.
  Proof. unfold in_add_node_alt, get_node. destruct (nth_error (in_nodes t) i); cbn; discriminate. Qed.
  Lemma change_iter_fuel {I St} (f : I -> St -> outcome (WasChanged * St)) l s : (forall i s, f i s <> NoFuel) -> change_iter f l s <> NoFuel.
  Proof.
    intro N. unfold change_iter. generalize (@fold_left). intros _. generalize Unchanged. revert s. induction l as [|x l IH]; intros s c.
    - cbn. discriminate.
    - cbn. specialize (N x s). destruct (f x s) as [[c' s']|m|]; cbn; [apply IH|discriminate|congruence].
  Qed.
  Lemma in_add_all_fuel i j (t : Inner T AK V) : in_add_all i j t <> NoFuel.
  Proof. unfold in_add_all, get_node. destruct (nth_error (in_nodes t) j); cbn; [|discriminate]. apply change_iter_fuel. intros. apply in_add_node_alt_fuel. Qed.

  Lemma sim_add_alt pw w n a : sim pw w -> nd_inner n < List.length pw -> al_inner a < List.length pw ->
    simr (f_add_alt pw n a) w (w_add_alt w n a).
  Proof.
    intros S L1 L2. unfold f_add_alt, f_is_same, p_with, w_add_alt, is_same, p_with_mut.
    destruct (lock_cases pw w (nd_inner n) S L1) as [(t & G & -> & E)|(D & ->)]; [|right; cbn; eauto].
    destruct (lock_cases pw w (al_inner a) S L2) as [(t2 & G2 & -> & E2)|(D & ->)]; [|right; cbn; eauto]. cbn [obind].
    destruct (Nat.eqb (nd_inner n) (al_inner a)); cbn [assert_ on]; [|right; eauto].
    unfold with_. rewrite E. cbn [expect on]. apply sim_undone; [exact S|exact G|apply in_add_node_alt_fuel].
  Qed.
  Lemma sim_add_all pw w n m : sim pw w -> nd_inner n < List.length pw -> nd_inner m < List.length pw ->
    simr (f_add_all pw n m) w (w_add_all w n m).
  Proof.
    intros S L1 L2. unfold f_add_all, f_is_same, p_with, w_add_all, is_same, p_with_mut.
    destruct (lock_cases pw w (nd_inner n) S L1) as [(t & G & -> & E)|(D & ->)]; [|right; cbn; eauto].
    destruct (lock_cases pw w (nd_inner m) S L2) as [(t2 & G2 & -> & E2)|(D & ->)]; [|right; cbn; eauto]. cbn [obind].
    destruct (Nat.eqb (nd_inner n) (nd_inner m)); cbn [assert_ on]; [|right; eauto].
    unfold with_. rewrite E. cbn [expect on]. apply sim_undone; [exact S|exact G|apply in_add_all_fuel].
  Qed.

  Lemma dead_set pw h t : h < List.length pw -> dead (list_set pw h {| pt_tree := t; pt_poisoned := true |}) h.
  Proof.
    intro L. exists t. rewrite nth_list_set, Nat.eqb_refl. destruct (nth_error pw h) eqn:E; [reflexivity|]. apply nth_error_None in E. lia.
  Qed.
  (** If the tree a call changed is dead afterwards it does not matter what the call had done to it. *)
  Lemma sim_dead pw w h t : sim pw (w_set w h t) -> dead pw h -> sim pw w.
  Proof.
    intros [L S] (u & D). split; [unfold w_set in L; rewrite list_set_length in L; exact L|].
    intros g x G. specialize (S g x G). unfold w_set in S. rewrite nth_list_set in S.
    destruct (Nat.eqb_spec h g) as [<-|N]; [unfold healthy in G; congruence|exact S].
  Qed.
  Lemma make_alt_panic f pw h c m pw' : h < List.length pw -> f_make_alt f pw h c = (Panic m, pw') -> dead pw' h.
  Proof.
    intros L. unfold f_make_alt, p_with_mut, p_lock. destruct (nth_error pw h) as [[t [|]]|] eqn:E; cbn; [| |apply nth_error_None in E; lia].
    - intros [= _ <-]. exists t. exact E.
    - unfold f_inner_make_alt. destruct (f_altset_add f (in_alts t) c) as [[i|m'|] s] eqn:A; cbn; intros [= _ <-]; apply dead_set; exact L.
  Qed.
  Lemma add_alt_panic pw n a m pw' : nd_inner n < List.length pw -> nd_inner n = al_inner a ->
    f_add_alt pw n a = (Panic m, pw') -> dead pw' (nd_inner n).
  Proof.
    intros L S. unfold f_add_alt, f_is_same, p_with, p_with_mut. rewrite <- S, Nat.eqb_refl.
    destruct (p_lock pw (nd_inner n)) as [t|m'|] eqn:E; cbn.
    - destruct (in_add_node_alt (nd_index n) (al_index a) t) as [[c t']|m'|] eqn:A; cbn; intros [= _ <-]. apply dead_set. exact L.
    - intros [= _ <-]. unfold p_lock in E. destruct (nth_error pw (nd_inner n)) as [[t [|]]|] eqn:F; cbn in E; try discriminate.
      + exists t. exact F.
      + apply nth_error_None in F. lia.
    - discriminate.
  Qed.
  Lemma make_branch_alt_panic f pw h x ns m pw' : h < List.length pw -> f_make_branch_alt f pw h x ns = (Panic m, pw') ->
    dead pw' h \/ pw' = pw.
  Proof.
    intros L. unfold f_make_branch_alt. destruct (p_with pw h (fun _ => f_collect pw h f ns)).
    - intro E. left. exact (make_alt_panic _ _ _ _ _ _ L E).
    - intros [= _ <-]. right. reflexivity.
    - discriminate.
  Qed.
  Lemma make_node_shape w h n w' : w_make_node w h = (Ret n, w') -> nd_inner n = h /\ exists t, w' = w_set w h t.
  Proof. unfold w_make_node. destruct (with_ w h); cbn; intros E; try discriminate. injection E as <- <-. split; [reflexivity|eauto]. Qed.
  Lemma make_alt_inner w h c a w' : w_make_alt w h c = (Ret a, w') -> al_inner a = h /\ exists t, w' = w_set w h t.
  Proof.
    unfold w_make_alt. destruct (with_ w h) as [t| |]; cbn; intros E; try discriminate. destruct (in_make_alt t c).
    injection E as <- <-. split; [reflexivity|eauto].
  Qed.
  Lemma make_branch_alt_inner w h x ns a w' : w_make_branch_alt w h x ns = (Ret a, w') -> al_inner a = h /\ exists t, w' = w_set w h t.
  Proof.
    unfold w_make_branch_alt. destruct (with_ w h) as [t| |]; cbn; intros E; try discriminate.
    destruct (collect_indexes h ns); cbn in E; try discriminate. exact (make_alt_inner _ _ _ _ _ E).
  Qed.
  Lemma w_set_set w h t u : w_set (w_set w h t) h u = w_set w h u.
  Proof. unfold w_set. apply list_set_set. Qed.
  Lemma sim_len pw w : sim pw w -> List.length pw = List.length w. Proof. intros [L _]. exact L. Qed.

  (** The end of [make_leaf_node] and [make_branch_node]. *)
  Lemma sim_finish pw2 w w2 h n a t : sim pw2 w2 -> w2 = w_set w h t -> h < List.length pw2 -> nd_inner n = h -> al_inner a = h ->
    simr (fbind (f_add_alt pw2 n a) (fun _ pw3 => (Ret n, pw3))) w (wbind (w_add_alt w2 n a) (fun _ w3 => (Ret n, w3))).
  Proof.
    intros S E L Hn Ha.
    destruct (sim_add_alt pw2 w2 n a S) as [(c & pw' & w' & X & Y & Z)|(m & pw' & X & Z)]; [rewrite Hn; exact L|rewrite Ha; exact L| |].
    - left. rewrite X, Y. cbn. eexists _, _, _. split; [reflexivity|]. split; [reflexivity|exact Z].
    - right. rewrite X. cbn. eexists _, _. split; [reflexivity|]. rewrite E in Z. apply (sim_dead _ _ h t Z).
      rewrite <- Hn in L |- *. exact (add_alt_panic _ _ _ _ _ L (eq_trans Hn (eq_sym Ha)) X).
  Qed.
  Lemma sim_make_leaf_node f pw w h k v : sim pw w -> h < List.length pw ->
    simr (f_make_leaf_node f pw h k v) w (w_make_leaf_node w h k v).
  Proof.
    intros S L. unfold f_make_leaf_node, w_make_leaf_node.
    destruct (sim_make_node pw w h S L) as [(n & pw1 & w1 & X & Y & S1)|(m & ->)]; [|right; cbn; eauto].
    rewrite X, Y. cbn [fbind wbind]. destruct (make_node_shape _ _ _ _ Y) as (Hn & t & Et).
    assert (L1 : h < List.length pw1).
    { rewrite (sim_len _ _ S1), Et. unfold w_set. rewrite list_set_length, <- (sim_len _ _ S). exact L. }
    unfold f_make_leaf_alt, w_make_leaf_alt.
    destruct (sim_make_alt f pw1 w1 h (CLeaf k v) S1 L1) as [(a & pw2 & w2 & X2 & Y2 & S2)|(m & pw2 & X2 & S2)].
    - rewrite X2, Y2. cbn [fbind wbind]. destruct (make_alt_inner _ _ _ _ _ Y2) as (Ha & t2 & Et2).
      apply (sim_finish pw2 w w2 h n a t2 S2); [rewrite Et2, Et; apply w_set_set| |exact Hn|exact Ha].
      rewrite (sim_len _ _ S2), Et2. unfold w_set. rewrite list_set_length, <- (sim_len _ _ S1). exact L1.
    - rewrite X2. cbn [fbind]. right. eexists _, _. split; [reflexivity|]. rewrite Et in S2. apply (sim_dead _ _ h t S2).
      exact (make_alt_panic _ _ _ _ _ _ L1 X2).
  Qed.
  Lemma sim_make_branch_node f pw w h x ns : sim pw w -> h < List.length pw -> (forall n, In n ns -> nd_inner n < List.length pw) ->
    simr (f_make_branch_node f pw h x ns) w (w_make_branch_node w h x ns) \/
    (exists m pw' n w', f_make_branch_node f pw h x ns = (Panic m, pw') /\ w_make_node w h = (Ret n, w') /\ sim pw' w').
  Proof.
    intros S L F. unfold f_make_branch_node, w_make_branch_node.
    destruct (sim_make_node pw w h S L) as [(n & pw1 & w1 & X & Y & S1)|(m & ->)]; [|left; right; cbn; eauto].
    rewrite X, Y. cbn [fbind wbind]. destruct (make_node_shape _ _ _ _ Y) as (Hn & t & Et).
    assert (L0 : List.length pw1 = List.length pw).
    { rewrite (sim_len _ _ S1), Et. unfold w_set. rewrite list_set_length, <- (sim_len _ _ S). reflexivity. }
    assert (L1 : h < List.length pw1) by lia.
    destruct (sim_make_branch_alt f pw1 w1 h x ns S1 L1) as [(a & pw2 & w2 & X2 & Y2 & S2)|(m & pw2 & X2 & S2)]; [intros; rewrite L0; auto| |].
    - left. rewrite X2, Y2. cbn [fbind wbind]. destruct (make_branch_alt_inner _ _ _ _ _ _ Y2) as (Ha & t2 & Et2).
      apply (sim_finish pw2 w w2 h n a t2 S2); [rewrite Et2, Et; apply w_set_set| |exact Hn|exact Ha].
      rewrite (sim_len _ _ S2), Et2. unfold w_set. rewrite list_set_length, <- (sim_len _ _ S1). exact L1.
    - rewrite X2. cbn [fbind]. destruct (make_branch_alt_panic _ _ _ _ _ _ _ L1 X2) as [D| ->].
      + left. right. eexists _, _. split; [reflexivity|]. rewrite Et in S2. exact (sim_dead _ _ h t S2 D).
      + right. eexists _, _, _, _. split; [reflexivity|]. split; [reflexivity|exact S1].
  Qed.

  Lemma simr_map {A} (g : A -> tr_val T AK V) x w y : simr x w y -> simr (fmap_ g x) w (rmap g y).
  Proof.
    intros [(a & pw' & w' & -> & -> & S)|(m & pw' & -> & S)]; [left|right]; cbn; [eexists _, _, _|eexists _, _]; (split; [reflexivity|]); auto.
  Qed.
  Lemma vnode_lt w n : vnode w n -> nd_inner n < List.length w.
  Proof. intros (t & E & _). exact (nth_lt _ _ _ E). Qed.
  Lemma valt_lt w a : valt w a -> al_inner a < List.length w.
  Proof. intros (c & E). unfold wcont in E. destruct (nth_error w (al_inner a)) eqn:F; [exact (nth_lt _ _ _ F)|discriminate]. Qed.

  Lemma sim_step f pw w o : sim pw w -> held w o ->
    simr (f_step f pw o) w (tr_step w o) \/
    (exists h x ns m pw' n w', o = TMakeBranchNode h x ns /\ f_step f pw o = (Panic m, pw') /\
       w_make_node w h = (Ret n, w') /\ sim pw' w').
  Proof.
    intros S K. pose proof (sim_len _ _ S) as Ln. destruct o; cbn [held] in K; cbn [f_step tr_step].
    - left. apply simr_map. left. unfold f_new_tree, w_new_tree. rewrite Ln. eexists _, _, _. split; [reflexivity|]. split; [reflexivity|].
      destruct S as [_ S]. split; [rewrite !app_length; cbn; lia|]. intros h t. unfold healthy. rewrite !nth_error_snoc, Ln.
      destruct (Nat.eqb h (List.length w)); [intros [= <-]; reflexivity|apply S].
    - left. apply simr_map. destruct (sim_make_node pw w h S) as [X|(m & ->)]; [lia|left; exact X|right; eauto].
    - left. apply simr_map. apply sim_make_alt; [exact S|lia].
    - left. destruct K as [K1 K2]. rewrite Forall_forall in K2. apply simr_map. apply sim_make_branch_alt; [exact S|lia|].
      intros n J. rewrite Ln. apply vnode_lt. auto.
    - left. apply simr_map. apply sim_make_leaf_node; [exact S|lia].
    - destruct K as [K1 K2]. rewrite Forall_forall in K2.
      destruct (sim_make_branch_node f pw w h action nodes S) as [X|(m & pw' & n & w' & X & Y & Z)];
        [lia|intros n J; rewrite Ln; apply vnode_lt; auto|left; apply simr_map; exact X|].
      right. exists h, action, nodes, m, pw', n, w'. rewrite X. split; [reflexivity|]. split; [reflexivity|]. split; [exact Y|exact Z].
    - left. destruct K as [K1 K2]. apply simr_map. apply sim_add_alt; [exact S|rewrite Ln; apply vnode_lt; exact K1|rewrite Ln; apply valt_lt; exact K2].
    - left. destruct K as [K1 K2]. apply simr_map. apply sim_add_all; [exact S|rewrite Ln; apply vnode_lt; exact K1|rewrite Ln; apply vnode_lt; exact K2].
    - left. apply simr_map. unfold f_alts, p_with, w_alts, with_. pose proof (vnode_lt _ _ K) as L. rewrite <- Ln in L.
      destruct (lock_cases pw w (nd_inner n) S L) as [(t & G & -> & E)|(D & ->)]; [rewrite E; cbn|right; cbn; eauto].
      unfold get_node. destruct (nth_error (in_nodes t) (nd_index n)); cbn; [left; eexists _, _, _; split; [reflexivity|]; split; [reflexivity|exact S]|right; eauto].
    - left. apply simr_map. unfold f_content, p_with, w_content, with_. pose proof (valt_lt _ _ K) as L. rewrite <- Ln in L.
      destruct (lock_cases pw w (al_inner a) S L) as [(t & G & -> & E)|(D & ->)]; [rewrite E; cbn|right; cbn; eauto].
      unfold get_alt. destruct (nth_error (id_to_value (in_alts t)) (al_index a)) as [c|]; cbn; [|right; eauto].
      destruct f; try (left; eexists _, _, _; split; [reflexivity|]; split; [reflexivity|exact S]); right; eauto.
  Qed.

  (** *** Histories *)
  Lemma wp_in tr tr0 o v : without_panics tr tr0 -> In (o, Ret v) tr -> In (o, Ret v) tr0.
  Proof.
    induction 1 as [|o' v' tr tr0 W IH|o' m tr tr0 W IH|h x ns m n tr tr0 W IH]; cbn; intros J.
    - exact J.
    - destruct J as [J|J]; [left; exact J|right; auto].
    - destruct J as [J|J]; [discriminate|auto].
    - destruct J as [J|J]; [discriminate|right; auto].
  Qed.
  Lemma wp_tree tr tr0 h : without_panics tr tr0 -> known_tree tr h -> known_tree tr0 h.
  Proof. intros W. apply (wp_in _ _ _ _ W). Qed.
  Lemma wp_known_node tr tr0 n : without_panics tr tr0 -> known_node tr n -> known_node tr0 n.
  Proof.
    intros W [(o & J)|(a & x & ns & J & I)]; [left; exists o|right; exists a, x, ns; split; [|exact I]]; exact (wp_in _ _ _ _ W J).
  Qed.
  Lemma wp_known_alt tr tr0 a : without_panics tr tr0 -> known_alt tr a -> known_alt tr0 a.
  Proof.
    intros W [(o & J)|(n & l & J & I)]; [left; exists o|right; exists n, l; split; [|exact I]]; exact (wp_in _ _ _ _ W J).
  Qed.
  Lemma wp_call tr tr0 o : without_panics tr tr0 -> can_call tr o -> can_call tr0 o.
  Proof.
    intros W. pose proof (fun h => wp_tree tr tr0 h W) as A. pose proof (fun n => wp_known_node tr tr0 n W) as B.
    pose proof (fun a => wp_known_alt tr tr0 a W) as C.
    destruct o; cbn; auto; try (intros [X Y]; split; auto); eapply Forall_impl; [exact B|exact Y|exact B|exact Y].
  Qed.
  Lemma wp_made tr tr0 a c : without_panics tr tr0 -> made tr a c -> made tr0 a c.
  Proof.
    intros W [(h & k & v & J & E)|(h & x & ns & J & E)]; [left; exists h, k, v|right; exists h, x, ns]; (split; [|exact E]); exact (wp_in _ _ _ _ W J).
  Qed.
  Lemma wp_added w tr tr0 n a : without_panics tr tr0 -> added w tr n a <-> added w tr0 n a.
  Proof.
    intro W. revert n a. induction W as [|o v tr tr0 W IH|o m tr tr0 W IH|h x ns m k tr tr0 W IH]; intros n a.
    - tauto.
    - split; intro A; inversion A; subst; try (apply added_before; apply IH; assumption);
        try (econstructor; solve [eauto]); apply added_all; apply IH; assumption.
    - rewrite added_panic. apply IH.
    - rewrite added_panic, added_nothing by exact Logic.I. apply IH.
  Qed.

  Theorem frun_sim tr pw : frun tr pw -> exists tr0 w, without_panics tr tr0 /\ run tr0 w /\ sim pw w.
  Proof.
    induction 1 as [|tr pw f o r pw' Rn (tr0 & w & W & R & S) Kc St].
    - exists [], []. split; [constructor|]. split; [constructor|]. split; [reflexivity|]. intros h t. unfold healthy. destruct h; discriminate.
    - pose proof (wp_call _ _ _ W Kc) as K0. pose proof (held_of _ _ _ (run_inv _ _ R) K0) as Hd.
      destruct (sim_step f pw w o S Hd) as [[(a & p1 & w' & X & Y & Z)|(m & p1 & X & Z)]|(h & x & ns & m & p1 & n & w' & -> & X & Y & Z)];
        rewrite X in St; injection St as <- <-.
      + exists ((o, Ret a) :: tr0), w'. split; [constructor; exact W|]. split; [|exact Z]. exact (run_step _ _ _ _ _ R K0 Y).
      + exists tr0, w. split; [constructor; exact W|]. split; [exact R|exact Z].
      + exists ((TMakeNode h, Ret (RNode n)) :: tr0), w'. split; [constructor; exact W|]. split; [|exact Z].
        apply (run_step tr0 w _ _ _ R); [exact (proj1 K0)|]. cbn. rewrite Y. reflexivity.
  Qed.
End Facts.
