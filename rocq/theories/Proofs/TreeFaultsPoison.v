(** Which calls poison a tree, and what is left of a poisoned tree. *)
From Coq Require Import String List Arith Lia.
From Verif.Model Require Import Ord BTree Outcome Utils Tree TreeFaults.
From Verif.Spec Require Import TreeSpec TreeFaultsSpec.
From Verif.Proofs Require Import OrdFacts BTreeFacts TreeFacts TreeHist TreeFaultsFacts.
Import ListNotations.

Section Poison.
  Context {T AK V : Type} `{OrdEq T} `{OrdEq AK} `{OrdEq V}.
  Local Notation wld := (world T AK V).
  Local Notation pwld := (pworld T AK V).
  Local Notation hist := (history T AK V).
  Local Notation pres A := (@fres T AK V A).
  Implicit Types (w : wld) (pw : pwld) (tr : hist).

  (** *** Once poisoned, always poisoned *)
  Lemma mut_dead {A} pw h g (func : Inner T AK V -> outcome A * Inner T AK V) : dead pw g -> dead (snd (p_with_mut pw h func)) g.
  Proof.
    intros (u & D). unfold p_with_mut. destruct (p_lock pw h) as [t|m|] eqn:E; try (exists u; exact D).
    apply lock_ret in E. destruct (func t) as [r t']. cbn. exists u. rewrite nth_list_set.
    destruct (Nat.eqb_spec h g) as [->|N]; [unfold healthy in E; congruence|exact D].
  Qed.
  Lemma make_node_dead pw h g : dead pw g -> dead (snd (f_make_node pw h)) g.
  Proof. apply mut_dead. Qed.
  Lemma make_alt_dead f pw h c g : dead pw g -> dead (snd (f_make_alt f pw h c)) g.
  Proof. apply mut_dead. Qed.
  Lemma make_branch_alt_dead f pw h x ns g : dead pw g -> dead (snd (f_make_branch_alt f pw h x ns)) g.
  Proof. intro D. unfold f_make_branch_alt. destruct (p_with pw h (fun _ => f_collect pw h f ns)); try exact D. apply make_alt_dead. exact D. Qed.
  Lemma add_alt_dead pw n a g : dead pw g -> dead (snd (f_add_alt pw n a)) g.
  Proof.
    intro D. unfold f_add_alt. match goal with |- dead (snd match ?x with _ => _ end) g => destruct x end; try exact D. apply mut_dead. exact D.
  Qed.
  Lemma add_all_dead pw n a g : dead pw g -> dead (snd (f_add_all pw n a)) g.
  Proof.
    intro D. unfold f_add_all. match goal with |- dead (snd match ?x with _ => _ end) g => destruct x end; try exact D. apply mut_dead. exact D.
  Qed.
  Lemma fbind_dead {A B} (x : pres A) (k : A -> pwld -> pres B) g : dead (snd x) g ->
    (forall a pw', dead pw' g -> dead (snd (k a pw')) g) -> dead (snd (fbind x k)) g.
  Proof. intros D K. destruct x as [[a|m|] pw']; cbn in *; auto. Qed.
  Lemma fmap_dead {A} (k : A -> tr_val T AK V) (x : pres A) g : dead (snd x) g -> dead (snd (fmap_ k x)) g.
  Proof. destruct x as [[a|m|] pw']; exact (fun X => X). Qed.
  Lemma step_dead f pw o h : dead pw h -> dead (snd (f_step f pw o)) h.
  Proof.
    intro D. destruct o; cbn [f_step]; apply fmap_dead.
    - destruct D as (u & D). exists u. cbn. rewrite nth_error_snoc. destruct (Nat.eqb_spec h (List.length pw)) as [->|]; [|exact D].
      apply nth_lt in D. lia.
    - apply make_node_dead; exact D.
    - apply make_alt_dead; exact D.
    - apply make_branch_alt_dead; exact D.
    - apply fbind_dead; [apply make_node_dead; exact D|]. intros. apply fbind_dead; [apply make_alt_dead; assumption|].
      intros. apply fbind_dead; [apply add_alt_dead; assumption|]. intros. assumption.
    - apply fbind_dead; [apply make_node_dead; exact D|]. intros. apply fbind_dead; [apply make_branch_alt_dead; assumption|].
      intros. apply fbind_dead; [apply add_alt_dead; assumption|]. intros. assumption.
    - apply add_alt_dead; exact D.
    - apply add_all_dead; exact D.
    - exact D.
    - exact D.
  Qed.

  (** *** Calls about a poisoned tree *)
  Definition panics {A} (x : outcome A) : Prop := exists m, x = Panic m.
  Lemma dead_lock pw h : dead pw h -> p_lock pw h = Panic poison_text.
  Proof. intros (t & D). unfold p_lock. rewrite D. reflexivity. Qed.
  Lemma lock_fuel pw h : p_lock pw h <> NoFuel.
  Proof. unfold p_lock. destruct (nth_error pw h) as [[t [|]]|]; discriminate. Qed.
  Lemma collect_dead pw h f ns n : In n ns -> dead pw (nd_inner n) -> panics (f_collect pw h f ns).
  Proof.
    intros J D. revert f. induction ns as [|k ns IH]; [destruct J|]. intro f.
    assert (X : forall g, panics (same <- p_with pw (nd_inner k) (fun _ => Ret (Nat.eqb (nd_inner k) h)) ;;
            _ <- assert_ same "assertion failed: n.inner.with(is_same)" ;;
            is <- f_collect pw h g ns ;; Ret (nd_index k :: is))).
    { intro g. unfold p_with. destruct J as [->|J].
      - rewrite (dead_lock _ _ D). cbn. eexists. reflexivity.
      - pose proof (lock_fuel pw (nd_inner k)) as Nf. destruct (p_lock pw (nd_inner k)); cbn; [|eexists; reflexivity|congruence].
        destruct (Nat.eqb (nd_inner k) h); cbn; [|eexists; reflexivity]. destruct (IH J g) as (m & ->). cbn. eexists; reflexivity. }
    destruct f as [|[|i] m|m|m|m|m]; try apply X. eexists. reflexivity.
  Qed.
  Lemma make_branch_alt_about f pw h x ns g : dead pw g -> (g = h \/ exists n, In n ns /\ g = nd_inner n) ->
    panics (fst (f_make_branch_alt f pw h x ns)).
  Proof.
    intros D J. unfold f_make_branch_alt, p_with. destruct J as [->|(n & J & ->)].
    - rewrite (dead_lock _ _ D). cbn. eexists; reflexivity.
    - pose proof (lock_fuel pw h) as Nf. destruct (p_lock pw h); cbn [obind]; [|eexists; reflexivity|congruence].
      destruct (collect_dead pw h f ns n J D) as (m & ->). eexists; reflexivity.
  Qed.
  Lemma fmap_panics {A} (k : A -> tr_val T AK V) (x : pres A) : panics (fst x) -> panics (fst (fmap_ k x)).
  Proof. destruct x as [r pw']. cbn. intros (m & ->). eexists; reflexivity. Qed.
  Lemma is_same_dead pw a b g : dead pw g -> (g = a \/ g = b) -> panics (f_is_same pw a b).
  Proof.
    intros D J. unfold f_is_same, p_with. destruct J as [->| ->].
    - rewrite (dead_lock _ _ D). eexists; reflexivity.
    - pose proof (lock_fuel pw a) as Nf. destruct (p_lock pw a); cbn; [|eexists; reflexivity|congruence]. rewrite (dead_lock _ _ D). eexists; reflexivity.
  Qed.
  Lemma mut_about {A} pw h (func : Inner T AK V -> outcome A * Inner T AK V) : dead pw h -> p_with_mut pw h func = (Panic poison_text, pw).
  Proof. intro D. unfold p_with_mut. rewrite (dead_lock _ _ D). reflexivity. Qed.
  Lemma step_about f pw o h : dead pw h -> about o h -> panics (fst (f_step f pw o)).
  Proof.
    intros D J. destruct o; cbn [about] in J; cbn [f_step]; try (apply fmap_panics).
    - destruct J.
    - subst. unfold f_make_node. rewrite (mut_about _ _ _ D). eexists; reflexivity.
    - subst. unfold f_make_leaf_alt, f_make_alt. rewrite (mut_about _ _ _ D). eexists; reflexivity.
    - exact (make_branch_alt_about _ _ _ _ _ _ D J).
    - subst. unfold f_make_leaf_node, f_make_node. rewrite (mut_about _ _ _ D). eexists; reflexivity.
    - unfold f_make_branch_node. pose proof (make_node_dead pw h0 h D) as D1. unfold f_make_node, p_with_mut in *.
      pose proof (lock_fuel pw h0) as Nf. destruct (p_lock pw h0); cbn [fbind]; [|eexists; reflexivity|congruence].
      cbn in D1. cbn. match goal with |- context [f_make_branch_alt f ?p h0 action nodes] =>
        destruct (make_branch_alt_about f p h0 action nodes h D1 J) as (m & E); destruct (f_make_branch_alt f p h0 action nodes) as [r p'] end.
      cbn in E. subst r. eexists; reflexivity.
    - unfold f_add_alt. destruct (is_same_dead pw (nd_inner n) (al_inner a) h D J) as (m & ->). eexists; reflexivity.
    - unfold f_add_all. destruct (is_same_dead pw (nd_inner n) (nd_inner other) h D J) as (m & ->). eexists; reflexivity.
    - subst. unfold f_alts, p_with. rewrite (dead_lock _ _ D). eexists; reflexivity.
    - subst. unfold f_content, p_with. rewrite (dead_lock _ _ D). eexists; reflexivity.
  Qed.

  (** *** What poisons a tree *)
  Definition storing (f : fault) (m : string) : Prop := f = InLookup m \/ f = InInsert m \/ f = InDrop m.
  (** Only the tree [h] may have been poisoned by the call, and only by a panic while a content was stored. *)
  Definition cause (f : fault) pw (h : TreeHandle) {A} (x : pres A) : Prop :=
    forall g t, healthy pw g t -> dead (snd x) g -> g = h /\ exists m, fst x = Panic m /\ storing f m.
  Lemma healthy_dead pw h t : healthy pw h t -> dead pw h -> False.
  Proof. intros G (u & D). unfold healthy in G. congruence. Qed.
  Lemma mut_healthy {A} pw h t (func : Inner T AK V -> outcome A * Inner T AK V) : healthy pw h t ->
    p_with_mut pw h func = let '(r, t') := func t in
      (r, list_set pw h {| pt_tree := t'; pt_poisoned := match r with Panic _ => true | _ => false end |}).
  Proof. intro G. apply lock_ret in G. unfold p_with_mut. rewrite G. reflexivity. Qed.
  Lemma set_healthy pw h t t' : healthy pw h t -> healthy (list_set pw h {| pt_tree := t'; pt_poisoned := false |}) h t'.
  Proof. unfold healthy. intro G. rewrite nth_list_set, Nat.eqb_refl, G. reflexivity. Qed.
  Lemma set_other pw h x g : g <> h -> nth_error (list_set pw h x) g = nth_error pw g.
  Proof. intro N. rewrite nth_list_set. destruct (Nat.eqb_spec h g); [congruence|reflexivity]. Qed.
  Lemma set_kept pw h t t' g u : healthy pw h t -> healthy pw g u ->
    exists u', healthy (list_set pw h {| pt_tree := t'; pt_poisoned := false |}) g u'.
  Proof.
    intros G G2. destruct (Nat.eq_dec g h) as [->|N]; [exists t'; exact (set_healthy _ _ _ _ G)|].
    exists u. unfold healthy. rewrite set_other by exact N. exact G2.
  Qed.

  Lemma make_node_healthy pw h t : healthy pw h t ->
    f_make_node pw h = (Ret {| nd_index := List.length (in_nodes t); nd_inner := h |},
      list_set pw h {| pt_tree := snd (in_make_node t); pt_poisoned := false |}).
  Proof. intro G. unfold f_make_node. rewrite (mut_healthy _ _ _ _ G). reflexivity. Qed.
  Lemma make_alt_healthy f pw h t c : healthy pw h t ->
    (exists a t', f_make_alt f pw h c = (Ret {| al_index := a; al_inner := h |}, list_set pw h {| pt_tree := t'; pt_poisoned := false |}) /\
        in_nodes t' = in_nodes t) \/
    (exists m t', f_make_alt f pw h c = (Panic m, list_set pw h {| pt_tree := t'; pt_poisoned := true |}) /\ storing f m).
  Proof.
    intro G. unfold f_make_alt. rewrite (mut_healthy _ _ _ _ G). unfold f_inner_make_alt, f_altset_add, storing.
    destruct f; try (right; cbn; eexists _, _; split; [reflexivity|eauto]; fail);
      destruct (bt_get c (value_to_id (in_alts t))); cbn;
      try (left; eexists _, _; split; reflexivity); right; eexists _, _; (split; [reflexivity|]); eauto.
  Qed.
  Lemma make_alt_cause f pw h c : cause f pw h (f_make_alt f pw h c).
  Proof.
    intros g t G D. destruct (p_lock pw h) as [u|m|] eqn:E.
    - apply lock_ret in E. destruct (make_alt_healthy f pw h u c E) as [(a & t' & R & _)|(m & t' & R & Sm)]; rewrite R in D |- *; cbn in D |- *.
      + exfalso. destruct (set_kept pw h u t' g t E G) as (u' & X). exact (healthy_dead _ _ _ X D).
      + destruct (Nat.eq_dec g h) as [->|N]; [eauto|]. exfalso. destruct D as (u' & D). rewrite set_other in D by exact N. unfold healthy in G. congruence.
    - unfold f_make_alt, p_with_mut in D. rewrite E in D. destruct (healthy_dead _ _ _ G D).
    - unfold f_make_alt, p_with_mut in D. rewrite E in D. destruct (healthy_dead _ _ _ G D).
  Qed.
  Lemma make_branch_alt_cause f pw h x ns : cause f pw h (f_make_branch_alt f pw h x ns).
  Proof.
    intros g t G D. unfold f_make_branch_alt in *. destruct (p_with pw h (fun _ => f_collect pw h f ns)); try destruct (healthy_dead _ _ _ G D).
    exact (make_alt_cause _ _ _ _ g t G D).
  Qed.
  Lemma add_alt_fine pw n a t : healthy pw (nd_inner n) t -> nd_index n < List.length (in_nodes t) ->
    forall g u, healthy pw g u -> ~ dead (snd (f_add_alt pw n a)) g.
  Proof.
    intros G L g u G2. unfold f_add_alt. match goal with |- ~ dead (snd match ?x with _ => _ end) g => destruct x end; try exact (healthy_dead _ _ _ G2).
    rewrite (mut_healthy _ _ _ _ G). unfold in_add_node_alt, get_node.
    destruct (nth_error (in_nodes t) (nd_index n)) eqn:E; [|apply nth_error_None in E; lia]. cbn.
    destruct (bs_mem (al_index a) b); cbn; (edestruct (set_kept pw (nd_inner n) t) as (u' & X); [exact G|exact G2|]); exact (healthy_dead _ _ _ X).
  Qed.
  Lemma add_alt_ret pw n a t : healthy pw (nd_inner n) t -> nd_index n < List.length (in_nodes t) -> al_inner a = nd_inner n ->
    exists c pw', f_add_alt pw n a = (Ret c, pw').
  Proof.
    intros G L S. unfold f_add_alt, f_is_same, p_with. rewrite S, (proj2 (lock_ret _ _ _) G). cbn. rewrite Nat.eqb_refl. cbn.
    rewrite (mut_healthy _ _ _ _ G). unfold in_add_node_alt, get_node.
    destruct (nth_error (in_nodes t) (nd_index n)) eqn:E; [|apply nth_error_None in E; lia]. cbn.
    destruct (bs_mem (al_index a) b); cbn; eauto.
  Qed.

  (** The two calls that make a node with an alternative, on a healthy tree. *)
  Lemma compose_cause f pw h t (mk : pwld -> pres Alternative) : healthy pw h t ->
    (forall pw1 t1, healthy pw1 h t1 -> cause f pw1 h (mk pw1)) ->
    (forall pw1 t1 a pw2, healthy pw1 h t1 -> mk pw1 = (Ret a, pw2) ->
       exists t2, healthy pw2 h t2 /\ in_nodes t2 = in_nodes t1 /\ forall g u, healthy pw1 g u -> exists u', healthy pw2 g u') ->
    cause f pw h (fbind (f_make_node pw h) (fun node pw1 => fbind (mk pw1) (fun alt pw2 => fbind (f_add_alt pw2 node alt) (fun _ pw3 => (Ret node, pw3))))).
  Proof.
    intros G Mc Mr g u Gg D. rewrite (make_node_healthy _ _ _ G) in D |- *. cbn [fbind] in D |- *.
    set (pw1 := list_set pw h {| pt_tree := snd (in_make_node t); pt_poisoned := false |}) in *.
    assert (G1 : healthy pw1 h (snd (in_make_node t))) by exact (set_healthy _ _ _ _ G).
    destruct (set_kept pw h t (snd (in_make_node t)) g u G Gg) as (u1 & Gg1). fold pw1 in Gg1.
    specialize (Mc pw1 _ G1). destruct (mk pw1) as [[a|m|] pw2] eqn:E; cbn [fbind] in D |- *.
    - exfalso. destruct (Mr pw1 _ a pw2 G1 E) as (t2 & G2 & N2 & K2). destruct (K2 _ _ Gg1) as (u2 & Gg2).
      set (n := {| nd_index := List.length (in_nodes t); nd_inner := h |}) in *.
      assert (L : nd_index n < List.length (in_nodes t2)) by (rewrite N2; cbn; rewrite app_length; cbn; lia).
      refine (add_alt_fine pw2 n a t2 G2 L g u2 Gg2 _).
      destruct (f_add_alt pw2 n a) as [[c|m|] pw3]; exact D.
    - destruct (Mc g u1 Gg1 D) as (-> & m' & Em & Sm). cbn in Em. injection Em as <-. split; [reflexivity|]. exists m. split; [reflexivity|exact Sm].
    - destruct (Mc g u1 Gg1 D) as (-> & m' & Em & Sm). discriminate.
  Qed.
  Lemma make_alt_kept f pw1 h t1 c a pw2 : healthy pw1 h t1 -> f_make_alt f pw1 h c = (Ret a, pw2) ->
    exists t2, healthy pw2 h t2 /\ in_nodes t2 = in_nodes t1 /\ forall g u, healthy pw1 g u -> exists u', healthy pw2 g u'.
  Proof.
    intros G E. destruct (make_alt_healthy f pw1 h t1 c G) as [(i & t' & R & N)|(m & t' & R & _)]; rewrite R in E; [|discriminate].
    injection E as <- <-. exists t'. split; [exact (set_healthy _ _ _ _ G)|]. split; [exact N|]. intros g u Gg. exact (set_kept _ _ _ _ _ _ G Gg).
  Qed.
  Lemma make_branch_alt_kept f pw1 h t1 x ns a pw2 : healthy pw1 h t1 -> f_make_branch_alt f pw1 h x ns = (Ret a, pw2) ->
    exists t2, healthy pw2 h t2 /\ in_nodes t2 = in_nodes t1 /\ forall g u, healthy pw1 g u -> exists u', healthy pw2 g u'.
  Proof.
    intros G. unfold f_make_branch_alt. destruct (p_with pw1 h (fun _ => f_collect pw1 h f ns)); try discriminate.
    exact (make_alt_kept f pw1 h t1 _ a pw2 G).
  Qed.
  Lemma dead_cause {A} f pw h (k : Node -> pwld -> pres A) : dead pw h -> cause f pw h (fbind (f_make_node pw h) k).
  Proof. intros D g t G X. unfold f_make_node in X. rewrite (mut_about _ _ _ D) in X. destruct (healthy_dead _ _ _ G X). Qed.

  (** The tree a call stores a content in. *)
  Definition stores (o : tr_op T AK V) : option TreeHandle :=
    match o with
    | TMakeLeafAlt h _ _ | TMakeBranchAlt h _ _ | TMakeLeafNode h _ _ | TMakeBranchNode h _ _ => Some h
    | _ => None
    end.
  Lemma cause_map {A} f pw h (k : A -> tr_val T AK V) (x : pres A) : cause f pw h x -> cause f pw h (fmap_ k x).
  Proof.
    intros C g t G D. destruct x as [[a|m|] pw']; cbn in D |- *; destruct (C g t G D) as (E & m' & F & Sm); cbn in F; try discriminate.
    split; [exact E|]. injection F as <-. exists m. split; [reflexivity|exact Sm].
  Qed.
  Lemma step_cause f pw w o h t : sim pw w -> WInv w -> held w o -> healthy pw h t -> dead (snd (f_step f pw o)) h ->
    stores o = Some h /\ exists m, fst (f_step f pw o) = Panic m /\ storing f m.
  Proof.
    intros S I K G D. pose proof (sim_len _ _ S) as Ln.
    assert (Bad : forall A (x : pres A) (P : Prop) g, dead (snd x) g -> snd x = pw -> g = h -> P).
    { intros A x P g X E ->. rewrite E in X. destruct (healthy_dead _ _ _ G X). }
    assert (Fine : forall A (k : A -> tr_val T AK V) x, dead (snd (fmap_ k x)) h -> (forall g u, healthy pw g u -> ~ dead (snd x) g) -> False).
    { intros A k x X F. apply (F h t G). destruct x as [[a|m|] pw']; exact X. }
    destruct o; cbn [held] in K; cbn [f_step stores] in *.
    - exfalso. destruct D as (u & D). cbn in D. rewrite nth_error_snoc in D. destruct (Nat.eqb_spec h (List.length pw)) as [->|N]; [discriminate|].
      unfold healthy in G. congruence.
    - exfalso. apply (Fine _ _ _ D). intros g u Gg. destruct (lock_cases pw w h0 S) as [(x & Gx & _)|(Dx & _)]; [lia| |].
      + rewrite (make_node_healthy _ _ _ Gx). cbn. destruct (set_kept pw h0 x (snd (in_make_node x)) g u Gx Gg) as (u' & X). exact (healthy_dead _ _ _ X).
      + unfold f_make_node. rewrite (mut_about _ _ _ Dx). exact (healthy_dead _ _ _ Gg).
    - destruct (cause_map f pw h0 RAlt _ (make_alt_cause f pw h0 (CLeaf kind value)) h t G D) as (-> & X). split; [reflexivity|exact X].
    - destruct (cause_map f pw h0 RAlt _ (make_branch_alt_cause f pw h0 action nodes) h t G D) as (-> & X). split; [reflexivity|exact X].
    - assert (C : cause f pw h0 (f_make_leaf_node f pw h0 kind value)).
      { destruct (lock_cases pw w h0 S) as [(x & Gx & _)|(Dx & _)]; [lia| |exact (dead_cause f pw h0 _ Dx)].
        apply (compose_cause f pw h0 x (fun p => f_make_leaf_alt f p h0 kind value) Gx).
        - intros. apply make_alt_cause.
        - intros pw1 t1 a pw2. apply make_alt_kept. }
      destruct (cause_map f pw h0 RNode _ C h t G D) as (-> & X). split; [reflexivity|exact X].
    - assert (C : cause f pw h0 (f_make_branch_node f pw h0 action nodes)).
      { destruct (lock_cases pw w h0 S) as [(x & Gx & _)|(Dx & _)]; [destruct K; lia| |exact (dead_cause f pw h0 _ Dx)].
        apply (compose_cause f pw h0 x (fun p => f_make_branch_alt f p h0 action nodes) Gx).
        - intros. apply make_branch_alt_cause.
        - intros pw1 t1 a pw2. apply make_branch_alt_kept. }
      destruct (cause_map f pw h0 RNode _ C h t G D) as (-> & X). split; [reflexivity|exact X].
    - exfalso. apply (Fine _ _ _ D). destruct K as [(x & E & O) K2]. pose proof (nth_lt _ _ _ E) as L. rewrite <- Ln in L.
      destruct (lock_cases pw w (nd_inner n) S L) as [(y & Gy & _ & Ey)|(Dy & Ly)].
      + rewrite E in Ey. injection Ey as <-. exact (add_alt_fine pw n a x Gy O).
      + intros g u Gg. unfold f_add_alt, f_is_same, p_with. rewrite Ly. cbn. exact (healthy_dead _ _ _ Gg).
    - exfalso. apply (Fine _ _ _ D). destruct K as [(x & E & O) (x2 & E2 & O2)]. pose proof (nth_lt _ _ _ E) as L. rewrite <- Ln in L.
      intros g u Gg. unfold f_add_all, f_is_same, p_with.
      destruct (lock_cases pw w (nd_inner n) S L) as [(y & Gy & -> & Ey)|(Dy & ->)]; [|cbn; exact (healthy_dead _ _ _ Gg)].
      rewrite E in Ey. injection Ey as <-. cbn [obind]. pose proof (lock_fuel pw (nd_inner other)).
      destruct (p_lock pw (nd_inner other)); cbn [obind]; [|exact (healthy_dead _ _ _ Gg)|congruence].
      destruct (Nat.eqb_spec (nd_inner n) (nd_inner other)) as [Q|Q]; cbn; [|exact (healthy_dead _ _ _ Gg)].
      rewrite <- Q, E in E2. injection E2 as <-. rewrite (mut_healthy _ _ _ _ Gy).
      destruct (add_all_spec x (nd_index n) (nd_index other) (I _ _ E) O O2) as (c & t' & -> & _). cbn.
      destruct (set_kept pw (nd_inner n) x t' g u Gy Gg) as (u' & X). exact (healthy_dead _ _ _ X).
    - exfalso. apply (Fine _ _ _ D). intros g u Gg. exact (healthy_dead _ _ _ Gg).
    - exfalso. apply (Fine _ _ _ D). intros g u Gg. exact (healthy_dead _ _ _ Gg).
  Qed.

  (** *** Without a panic of the caller's code, calls on healthy trees return *)
  Lemma collect_fine pw h t ns : healthy pw h t -> (forall n, In n ns -> nd_inner n = h) -> exists is, f_collect pw h NoFault ns = Ret is.
  Proof.
    intros G. induction ns as [|n ns IH]; intro F; cbn; [eauto|]. unfold p_with. rewrite (F n (or_introl eq_refl)), (proj2 (lock_ret _ _ _) G).
    cbn. rewrite Nat.eqb_refl. cbn. destruct IH as (is & ->); [intros; apply F; right; assumption|]. cbn. eauto.
  Qed.
  Lemma make_alt_nofault pw h t c : healthy pw h t -> exists a pw', f_make_alt NoFault pw h c = (Ret a, pw') /\ al_inner a = h.
  Proof.
    intro G. destruct (make_alt_healthy NoFault pw h t c G) as [(a & t' & -> & _)|(m & t' & _ & [X|[X|X]])]; try discriminate.
    eexists _, _. split; reflexivity.
  Qed.
  Lemma make_branch_alt_nofault pw h t x ns : healthy pw h t -> (forall n, In n ns -> nd_inner n = h) ->
    exists a pw', f_make_branch_alt NoFault pw h x ns = (Ret a, pw') /\ al_inner a = h.
  Proof.
    intros G F. unfold f_make_branch_alt, p_with. rewrite (proj2 (lock_ret _ _ _) G). cbn [obind].
    destruct (collect_fine pw h t ns G F) as (is & ->). exact (make_alt_nofault _ _ _ _ G).
  Qed.
  Lemma compose_nofault pw h t (mk : pwld -> pres Alternative) : healthy pw h t ->
    (forall pw1 t1, healthy pw1 h t1 -> exists a pw2, mk pw1 = (Ret a, pw2) /\ al_inner a = h) ->
    (forall pw1 t1 a pw2, healthy pw1 h t1 -> mk pw1 = (Ret a, pw2) ->
       exists t2, healthy pw2 h t2 /\ in_nodes t2 = in_nodes t1 /\ forall g u, healthy pw1 g u -> exists u', healthy pw2 g u') ->
    exists n pw', fbind (f_make_node pw h) (fun node pw1 => fbind (mk pw1) (fun alt pw2 => fbind (f_add_alt pw2 node alt) (fun _ pw3 => (Ret node, pw3)))) = (Ret n, pw').
  Proof.
    intros G Mn Mr. rewrite (make_node_healthy _ _ _ G). cbn [fbind].
    pose proof (set_healthy pw h t (snd (in_make_node t)) G) as G1. destruct (Mn _ _ G1) as (a & pw2 & E & Ha). rewrite E. cbn [fbind].
    destruct (Mr _ _ _ _ G1 E) as (t2 & G2 & N2 & _).
    destruct (add_alt_ret pw2 {| nd_index := List.length (in_nodes t); nd_inner := h |} a t2 G2) as (c & pw' & ->); [|exact Ha|cbn; eauto].
    rewrite N2. cbn. rewrite app_length. cbn. lia.
  Qed.
  Lemma step_nofault pw w o : sim pw w -> WInv w -> held w o -> one_tree o -> (forall h, about o h -> exists t, healthy pw h t) ->
    exists v pw', f_step NoFault pw o = (Ret v, pw').
  Proof.
    intros S I K O Hl.
    assert (Map : forall A (k : A -> tr_val T AK V) (x : pres A), (exists a pw', x = (Ret a, pw')) -> exists v pw', fmap_ k x = (Ret v, pw')).
    { intros A k x (a & pw' & ->). cbn. eauto. }
    destruct o; cbn [held one_tree about f_step] in *; apply Map.
    - unfold f_new_tree. eauto.
    - destruct (Hl _ eq_refl) as (t & G). rewrite (make_node_healthy _ _ _ G). eauto.
    - destruct (Hl _ eq_refl) as (t & G). destruct (make_alt_nofault pw h t (CLeaf kind value) G) as (a & pw' & E & _). exists a, pw'. exact E.
    - destruct (Hl h (or_introl eq_refl)) as (t & G). destruct (make_branch_alt_nofault pw h t action nodes G O) as (a & pw' & E & _). exists a, pw'. exact E.
    - destruct (Hl _ eq_refl) as (t & G). apply (compose_nofault pw h t (fun p => f_make_leaf_alt NoFault p h kind value) G).
      + intros pw1 t1 G1. exact (make_alt_nofault _ _ _ _ G1).
      + intros pw1 t1 a pw2. apply make_alt_kept.
    - destruct (Hl h (or_introl eq_refl)) as (t & G). apply (compose_nofault pw h t (fun p => f_make_branch_alt NoFault p h action nodes) G).
      + intros pw1 t1 G1. exact (make_branch_alt_nofault _ _ _ _ _ G1 O).
      + intros pw1 t1 a pw2. apply make_branch_alt_kept.
    - destruct (Hl _ (or_introl eq_refl)) as (t & G). destruct K as [(x & E & Q) K2]. rewrite (proj2 S _ _ G) in E. injection E as <-.
      exact (add_alt_ret pw n a t G Q (eq_sym O)).
    - destruct (Hl _ (or_introl eq_refl)) as (t & G). destruct K as [(x & E & Q) (x2 & E2 & Q2)]. rewrite (proj2 S _ _ G) in E. injection E as <-.
      rewrite <- O, (proj2 S _ _ G) in E2. injection E2 as <-.
      unfold f_add_all, f_is_same, p_with. rewrite <- O, (proj2 (lock_ret _ _ _) G). cbn. rewrite Nat.eqb_refl. cbn. rewrite (mut_healthy _ _ _ _ G).
      destruct (add_all_spec t (nd_index n) (nd_index other) (I _ _ (proj2 S _ _ G)) Q Q2) as (c & t' & -> & _). cbn. eauto.
    - destruct (Hl _ eq_refl) as (t & G). destruct K as (x & E & Q). rewrite (proj2 S _ _ G) in E. injection E as <-.
      unfold f_alts, p_with. rewrite (proj2 (lock_ret _ _ _) G). cbn. unfold get_node, node_ok in *.
      destruct (nth_error (in_nodes t) (nd_index n)) eqn:Z; [cbn; eauto|apply nth_error_None in Z; lia].
    - destruct (Hl _ eq_refl) as (t & G). destruct K as (c & E). unfold wcont in E. rewrite (proj2 S _ _ G) in E.
      unfold f_content, p_with. rewrite (proj2 (lock_ret _ _ _) G). cbn. unfold get_alt, acont in *. rewrite E. cbn. eauto.
  Qed.
End Poison.
