(** Programs that follow the locking discipline and do what their sequential counterparts do. *)
From Coq Require Import String List Arith Lia Bool.
From Verif.Model Require Import Ord BTree Outcome Utils Tree RwLock.
From Verif.Spec Require Import TreeSpec RwLockSpec.
From Verif.Proofs Require Import OrdFacts BTreeFacts LoopFacts UtilsFacts TreeFacts TreeHist.
Import ListNotations.

Section Safe.
  Context {T AK V : Type} `{OrdEq T} `{OrdEq AK} `{OrdEq V}.
  Local Notation tree := (Inner T AK V).
  Local Notation wld := (world T AK V).
  Local Notation hist := (history T AK V).
  Local Notation op := (tr_op T AK V).
  Local Notation val := (tr_val T AK V).
  Local Notation pr := (prog T AK V).

  (** A guard: write or read, of which tree, with the content of the tree. *)
  Definition hold : Type := bool * TreeHandle * tree.
  Definition agree (w : wld) (hs : list hold) : Prop := forall m h t, In (m, h, t) hs -> nth_error w h = Some t.
  Definition all_reads (hs : list hold) : Prop := forall m h t, In (m, h, t) hs -> m = false.
  Definition has_tree (gh : hist) (h : TreeHandle) : Prop :=
    forall gh' (w : wld), incl gh gh' -> run gh' w -> exists t, nth_error w h = Some t.

  (** [nest]: may the program take a read lock while it holds one? *)
  Variable nest : bool.

  (** [safe Q gh d hs p]: [gh] is contained in the sequential history so far, [d] are the operations this
      call has performed, [hs] the guards it holds; [p] follows the discipline and ends in [Q]. *)
  Inductive safe {A} (Q : hist -> hist -> list hold -> outcome A -> Prop) : hist -> hist -> list hold -> pr A -> Prop :=
  | sf_done gh d hs r : Q gh d hs r -> safe Q gh d hs (Done r)
  | sf_new gh d k :
      (forall gh' w, incl gh gh' -> run gh' w ->
        safe Q ((TNewTree, Ret (RHandle (length w))) :: gh') ((TNewTree, Ret (RHandle (length w))) :: d) [] (k (length w))) ->
      safe Q gh d [] (New k)
  | sf_rlock gh d hs h k : all_reads hs -> (nest = false -> hs = []) -> has_tree gh h ->
      (forall gh' w t, incl gh gh' -> run gh' w -> nth_error w h = Some t -> safe Q gh' d ((false, h, t) :: hs) (k false)) ->
      safe Q gh d hs (RLock h k)
  | sf_runlock gh d hs h t k : safe Q gh d hs k -> safe Q gh d ((false, h, t) :: hs) (RUnlock h k)
  | sf_wlock gh d h k : has_tree gh h ->
      (forall gh' w t, incl gh gh' -> run gh' w -> nth_error w h = Some t -> safe Q gh' d [(true, h, t)] (k false)) ->
      safe Q gh d [] (WLock h k)
  | sf_wunlock gh d h t k : safe Q gh d [] k -> safe Q gh d [(true, h, t)] (WUnlock h false k)
  | sf_get gh d hs m h t k : In (m, h, t) hs -> safe Q gh d hs (k t) -> safe Q gh d hs (Get h k)
  | sf_put gh d h t t' k o r : can_call gh o ->
      (forall w, nth_error w h = Some t -> tr_step w o = (r, w_set w h t')) ->
      safe Q ((o, r) :: gh) ((o, r) :: d) [(true, h, t')] k ->
      safe Q gh d [(true, h, t)] (Put h t' k)
  | sf_commit gh d hs p o r : can_call gh o ->
      (forall gh' w, incl gh gh' -> run gh' w -> agree w hs -> tr_step w o = (r, w)) ->
      safe Q ((o, r) :: gh) ((o, r) :: d) hs p ->
      safe Q gh d hs p.

  Lemma known_tree_incl (gh gh' : hist) h : incl gh gh' -> known_tree gh h -> known_tree gh' h.
  Proof. intros I. apply I. Qed.
  Lemma known_node_incl (gh gh' : hist) n : incl gh gh' -> known_node gh n -> known_node gh' n.
  Proof. intros I [(o & J)|(a & x & ns & J & K)]; [left|right]; eauto 8. Qed.
  Lemma known_alt_incl (gh gh' : hist) a : incl gh gh' -> known_alt gh a -> known_alt gh' a.
  Proof. intros I [(o & J)|(a' & ns & J & K)]; [left|right]; eauto 8. Qed.
  Lemma can_call_incl (gh gh' : hist) (o : op) : incl gh gh' -> can_call gh o -> can_call gh' o.
  Proof.
    intros I. destruct o; simpl; auto; try (intros [A B]; split); try (intro A); eauto using known_tree_incl, known_node_incl, known_alt_incl;
      (eapply Forall_impl; [|exact B]; intros; eauto using known_node_incl).
  Qed.
  Lemma has_tree_incl (gh gh' : hist) h : incl gh gh' -> has_tree gh h -> has_tree gh' h.
  Proof. intros I A gh2 w I2 R. apply (A gh2 w); [eapply incl_tran; eauto|exact R]. Qed.

  Lemma safe_mono {A} (Q : hist -> hist -> list hold -> outcome A -> Prop) gh d hs p :
    (forall gh gh' d hs r, incl gh gh' -> Q gh d hs r -> Q gh' d hs r) ->
    safe Q gh d hs p -> forall gh', incl gh gh' -> safe Q gh' d hs p.
  Proof.
    intros M S. induction S; intros gh2 I.
    - apply sf_done. eauto.
    - apply sf_new. intros gh3 w I3 R. eapply H6; [|exact R|apply incl_refl]. eapply incl_tran; eauto.
    - apply sf_rlock; [assumption|assumption|eapply has_tree_incl; eauto|]. intros gh3 w t I3 R E.
      eapply H9; [|exact R|exact E|apply incl_refl]. eapply incl_tran; eauto.
    - apply sf_runlock. auto.
    - apply sf_wlock; [eapply has_tree_incl; eauto|]. intros gh3 w t I3 R E.
      eapply H7; [|exact R|exact E|apply incl_refl]. eapply incl_tran; eauto.
    - apply sf_wunlock. auto.
    - eapply sf_get; eauto.
    - eapply sf_put; [eapply can_call_incl; eauto|eassumption|]. apply IHS. apply incl_cons; [left; reflexivity|apply incl_tl; exact I].
    - eapply sf_commit; [eapply can_call_incl; eauto| |].
      + intros gh3 w I3 R G. apply (H6 gh3 w); [eapply incl_tran; eauto|exact R|exact G].
      + apply IHS. apply incl_cons; [left; reflexivity|apply incl_tl; exact I].
  Qed.

  Lemma safe_finally {A B} (Q1 : hist -> hist -> list hold -> outcome A -> Prop)
    (Q2 : hist -> hist -> list hold -> outcome B -> Prop) gh d hs p f :
    safe Q1 gh d hs p -> (forall gh' d' hs' r, Q1 gh' d' hs' r -> safe Q2 gh' d' hs' (f r)) ->
    safe Q2 gh d hs (pfinally p f).
  Proof.
    intros S F. induction S; cbn [pfinally]; auto.
    - apply sf_new. auto.
    - apply sf_rlock; eauto.
    - apply sf_runlock. auto.
    - apply sf_wlock; eauto.
    - apply sf_wunlock. auto.
    - eapply sf_get; eauto.
    - eapply sf_put; eauto.
    - eapply sf_commit; eauto.
  Qed.
  Lemma safe_bind {A B} (Q1 : hist -> hist -> list hold -> outcome A -> Prop)
    (Q2 : hist -> hist -> list hold -> outcome B -> Prop) gh d hs p f :
    safe Q1 gh d hs p ->
    (forall gh' d' hs' a, Q1 gh' d' hs' (Ret a) -> safe Q2 gh' d' hs' (f a)) ->
    (forall gh' d' hs' m, Q1 gh' d' hs' (Panic m) -> Q2 gh' d' hs' (Panic m)) ->
    (forall gh' d' hs', ~ Q1 gh' d' hs' NoFuel) ->
    safe Q2 gh d hs (pbind p f).
  Proof.
    intros S F P N. apply (safe_finally Q1 Q2 _ _ _ _ _ S). intros gh' d' hs' [a|m|] X; [auto|apply sf_done; auto|destruct (N _ _ _ X)].
  Qed.
  Lemma safe_weaken {A} (Q1 Q2 : hist -> hist -> list hold -> outcome A -> Prop) gh d hs p :
    safe Q1 gh d hs p -> (forall gh' d' hs' r, Q1 gh' d' hs' r -> Q2 gh' d' hs' r) -> safe Q2 gh d hs p.
  Proof.
    intros S M. induction S.
    - apply sf_done. auto.
    - apply sf_new. auto.
    - apply sf_rlock; eauto.
    - apply sf_runlock. auto.
    - apply sf_wlock; eauto.
    - apply sf_wunlock. auto.
    - eapply sf_get; eauto.
    - eapply sf_put; eauto.
    - eapply sf_commit; eauto.
  Qed.

  Lemma safe_with {A} (Q : hist -> hist -> list hold -> outcome A -> Prop) gh d hs h (func : tree -> pr A) :
    all_reads hs -> (nest = false -> hs = []) -> has_tree gh h ->
    (forall gh' w t, incl gh gh' -> run gh' w -> nth_error w h = Some t ->
      safe (fun gh2 d2 hs2 r => hs2 = (false, h, t) :: hs /\ Q gh2 d2 hs r) gh' d ((false, h, t) :: hs) (func t)) ->
    safe Q gh d hs (p_with h func).
  Proof.
    intros R N X F. unfold p_with. apply sf_rlock; auto. intros gh' w t I Rn E. cbn.
    eapply sf_get; [left; reflexivity|]. eapply safe_finally; [eapply F; eauto|].
    intros gh2 d2 hs2 r [-> J]. apply sf_runlock. apply sf_done. exact J.
  Qed.

  Lemma safe_with_mut {A} (Q : hist -> hist -> list hold -> outcome A -> Prop) gh d h (func : tree -> outcome (A * tree)) :
    has_tree gh h ->
    (forall gh' w t, incl gh gh' -> run gh' w -> nth_error w h = Some t ->
      exists a t' o r, func t = Ret (a, t') /\ can_call gh' o /\
        (forall w', nth_error w' h = Some t -> tr_step w' o = (r, w_set w' h t')) /\
        Q ((o, r) :: gh') ((o, r) :: d) [] (Ret a)) ->
    safe Q gh d [] (p_with_mut h func).
  Proof.
    intros X F. unfold p_with_mut. apply sf_wlock; [exact X|]. intros gh' w t I Rn E. cbn.
    eapply sf_get; [left; reflexivity|]. destruct (F gh' w t I Rn E) as (a & t' & o & r & Ef & K & St & J). rewrite Ef.
    eapply sf_put; [exact K|exact St|]. apply sf_wunlock. apply sf_done. exact J.
  Qed.

  (** ** Facts about held handles *)
  Lemma known_has_tree gh h : known_tree gh h -> has_tree gh h.
  Proof.
    intros K gh' w I R. pose proof (run_inv _ _ R) as J. apply tree_at. apply (hi_tree _ _ J). eapply known_tree_incl; eauto.
  Qed.
  Lemma node_has_tree gh n : known_node gh n -> has_tree gh (nd_inner n).
  Proof.
    intros K gh' w I R. pose proof (run_inv _ _ R) as J.
    destruct (hi_node _ _ J n) as (t & E & _); [eapply known_node_incl; eauto|eauto].
  Qed.
  Lemma alt_has_tree gh a : known_alt gh a -> has_tree gh (al_inner a).
  Proof.
    intros K gh' w I R. pose proof (run_inv _ _ R) as J.
    destruct (hi_alt _ _ J a) as (c & E); [eapply known_alt_incl; eauto|]. unfold wcont in E.
    destruct (nth_error w (al_inner a)); [eauto|discriminate].
  Qed.

  Lemma run_suffix (l1 : hist) : forall l2 (w : wld), run (l1 ++ l2) w -> exists w0, run l2 w0 /\ wle w0 w.
  Proof. intros. eapply run_app; eauto. Qed.
  Lemma content_event gh (w : wld) a c : run gh w -> In (TContent a, Ret (RContent c)) gh -> w_content w a = Ret c.
  Proof.
    intros R J. apply in_split in J. destruct J as (l1 & l2 & ->). destruct (run_app _ _ _ R) as (w0 & R0 & L).
    inversion R0; subst. match goal with X : tr_step _ _ = _ |- _ => cbn [tr_step] in X; rename X into St end.
    destruct (w_content w1 a) as [x| |] eqn:E; cbn in St; [|discriminate|discriminate]. injection St as <- <-.
    apply w_content_iff in E. destruct E as (k & Ek & ->). apply w_content_iff. exists k. split; [|reflexivity].
    eapply wle_wcont; eauto.
  Qed.

  (** ** The operations *)
  (** Ends without guards, having performed exactly [o] more, with a result satisfying [P] or, if [pn], a
      panic. *)
  Definition did {A} (gh d : hist) (o : op) (f : A -> val) (P : A -> Prop) (pn : bool)
    : hist -> hist -> list hold -> outcome A -> Prop :=
    fun gh' d' hs r => hs = [] /\
      ((exists a, r = Ret a /\ P a /\ d' = (o, Ret (f a)) :: d) \/
       (exists m, pn = true /\ r = Panic m /\ d' = (o, Panic m) :: d)) /\
      incl d' (d ++ gh') /\ incl gh gh'.
  (** Ends with the guards it started with, having performed nothing. *)
  Definition saw {A} (gh d : hist) (hs : list hold) (P : outcome A -> Prop) : hist -> hist -> list hold -> outcome A -> Prop :=
    fun gh' d' hs' r => hs' = hs /\ d' = d /\ P r /\ incl gh gh'.

  Lemma did_cons {A} gh gh' d (o : op) (f : A -> val) (P : A -> Prop) pn a : incl gh gh' -> P a ->
    did gh d o f P pn ((o, Ret (f a)) :: gh') ((o, Ret (f a)) :: d) [] (Ret a).
  Proof.
    intros I Pa. split; [reflexivity|]. split; [left; eauto|]. split; [|apply incl_tl; exact I].
    intros x [<-|J]; apply in_or_app; [right; left; reflexivity|left; exact J].
  Qed.
  Lemma did_panic {A} gh gh' d (o : op) (f : A -> val) (P : A -> Prop) m : incl gh gh' ->
    did gh d o f P true ((o, Panic m) :: gh') ((o, Panic m) :: d) [] (Panic m).
  Proof.
    intro I. split; [reflexivity|]. split; [right; eauto|]. split; [|apply incl_tl; exact I].
    intros x [<-|J]; apply in_or_app; [right; left; reflexivity|left; exact J].
  Qed.

  Lemma safe_make_node gh d h : known_tree gh h -> safe (did gh d (TMakeNode h) RNode (fun n => nd_inner n = h) false) gh d [] (p_make_node h).
  Proof.
    intro K. apply safe_with_mut; [apply known_has_tree; exact K|]. intros gh' w t I R E.
    do 2 eexists. exists (TMakeNode h). eexists. split; [reflexivity|]. split; [exact (known_tree_incl _ _ _ I K)|]. split.
    - intros w' E'. cbn [tr_step]. unfold w_make_node, with_. rewrite E'. reflexivity.
    - apply did_cons; [exact I|reflexivity].
  Qed.
  Lemma safe_make_leaf_alt gh d h k v : known_tree gh h -> safe (did gh d (TMakeLeafAlt h k v) RAlt (fun a => al_inner a = h) false) gh d [] (p_make_leaf_alt h k v).
  Proof.
    intro K. apply safe_with_mut; [apply known_has_tree; exact K|]. intros gh' w t I R E.
    destruct (in_make_alt t (CLeaf k v)) as [index t'] eqn:Em.
    do 2 eexists. exists (TMakeLeafAlt h k v). eexists. split; [reflexivity|]. split; [exact (known_tree_incl _ _ _ I K)|]. split.
    - intros w' E'. cbn [tr_step]. unfold w_make_leaf_alt, w_make_alt, with_. rewrite E'. cbn. rewrite Em. reflexivity.
    - apply did_cons; [exact I|reflexivity].
  Qed.

  Lemma safe_read {A} gh d hs h (r : outcome A) :
    all_reads hs -> (nest = false -> hs = []) -> has_tree gh h ->
    safe (saw gh d hs (eq r)) gh d hs (p_with h (fun _ => Done r)).
  Proof.
    intros R N X. apply safe_with; auto. intros gh' w t I Rn E. apply sf_done. split; [reflexivity|].
    split; [reflexivity|]. split; [reflexivity|]. split; [reflexivity|exact I].
  Qed.

  Lemma all_reads_cons h t hs : all_reads hs -> all_reads ((false, h, t) :: hs).
  Proof. intros R m h' t' [J|J]; [congruence|eapply R; eauto]. Qed.
  Lemma all_reads_nil : all_reads [].
  Proof. intros m h t []. Qed.

  Lemma safe_collect h d hs : nest = true -> all_reads hs -> forall ns gh, Forall (known_node gh) ns ->
    safe (saw gh d hs (eq (collect_indexes h ns))) gh d hs (p_collect h (map (fun n => Done (Ret n)) ns)).
  Proof.
    intros N R. induction ns as [|n ns IH]; intros gh F.
    - cbn. apply sf_done. split; [reflexivity|]. split; [reflexivity|]. split; [reflexivity|apply incl_refl].
    - inversion F as [|? ? Kn F']; subst. cbn [map p_collect collect_indexes]. unfold pbind at 1. cbn [pfinally].
      eapply safe_bind.
      + apply safe_read; [exact R|intro X; rewrite X in N; discriminate|apply node_has_tree; exact Kn].
      + intros gh1 d1 hs1 b (-> & -> & [= <-] & I1). rewrite (Nat.eqb_sym h (nd_inner n)).
        destruct (Nat.eqb (nd_inner n) h); cbn [assert_ pbind pfinally obind].
        * eapply safe_bind; [apply IH; eapply Forall_impl; [|exact F']; intros x Kx; exact (known_node_incl _ _ _ I1 Kx)| | |].
          -- intros gh2 d2 hs2 is (-> & -> & E & I2). apply sf_done. rewrite E. split; [reflexivity|]. split; [reflexivity|].
             split; [reflexivity|]. eapply incl_tran; eauto.
          -- intros gh2 d2 hs2 m (-> & -> & E & I2). rewrite E. split; [reflexivity|]. split; [reflexivity|].
             split; [reflexivity|]. eapply incl_tran; eauto.
          -- intros gh2 d2 hs2 (_ & _ & E & _). clear - E. revert E. induction ns as [|x ns IH]; cbn; [discriminate|].
             destruct (Nat.eqb (nd_inner x) h); cbn; [|discriminate]. destruct (collect_indexes h ns); cbn; [discriminate|discriminate|auto].
        * apply sf_done. split; [reflexivity|]. split; [reflexivity|]. split; [reflexivity|exact I1].
      + intros gh1 d1 hs1 m (_ & _ & E & _). discriminate.
      + intros gh1 d1 hs1 (_ & _ & E & _). discriminate.
  Qed.

  Lemma collect_not_nofuel h ns : collect_indexes h ns <> NoFuel.
  Proof.
    induction ns as [|x ns IH]; cbn; [discriminate|]. destruct (Nat.eqb (nd_inner x) h); cbn; [|discriminate].
    destruct (collect_indexes h ns); cbn; [discriminate|discriminate|auto].
  Qed.

  Lemma safe_make_branch_alt gh d h x ns : nest = true -> known_tree gh h -> Forall (known_node gh) ns ->
    safe (did gh d (TMakeBranchAlt h x ns) RAlt (fun a => al_inner a = h) true) gh d [] (p_make_branch_alt h x ns).
  Proof.
    intros N K F. unfold p_make_branch_alt, p_make_branch_alt_iter.
    eapply safe_finally with (Q1 := saw gh d [] (eq (collect_indexes h ns))).
    - apply safe_with; [apply all_reads_nil|reflexivity|apply known_has_tree; exact K|]. intros gh1 w t I R E.
      eapply safe_weaken.
      + apply safe_collect; [exact N|apply all_reads_cons, all_reads_nil|].
        eapply Forall_impl; [|exact F]. intros y Ky. exact (known_node_incl _ _ _ I Ky).
      + intros gh2 d2 hs2 r (-> & -> & <- & I2). split; [reflexivity|]. split; [reflexivity|]. split; [reflexivity|].
        split; [reflexivity|]. eapply incl_tran; eauto.
    - intros gh1 d1 hs1 r (-> & -> & <- & I1). destruct (collect_indexes h ns) as [is|m|] eqn:Ec.
      + unfold p_make_alt. apply safe_with_mut; [apply known_has_tree; exact (known_tree_incl _ _ _ I1 K)|].
        intros gh2 w t I2 R E. destruct (in_make_alt t (CBranch x is)) as [index t'] eqn:Em.
        do 2 eexists. exists (TMakeBranchAlt h x ns). eexists. split; [reflexivity|]. split.
        * apply can_call_incl with gh; [eapply incl_tran; eauto|]. split; assumption.
        * split.
          -- intros w' E'. cbn [tr_step]. unfold w_make_branch_alt, w_make_alt, with_. rewrite E'. cbn. rewrite Ec. cbn.
             rewrite Em. reflexivity.
          -- apply did_cons; [eapply incl_tran; eauto|reflexivity].
      + eapply sf_commit with (o := TMakeBranchAlt h x ns) (r := Panic m).
        * apply can_call_incl with gh; [exact I1|]. split; assumption.
        * intros gh2 w I2 R _. destruct (known_has_tree _ _ (known_tree_incl _ _ _ I1 K) gh2 w I2 R) as (t & E).
          cbn [tr_step]. unfold w_make_branch_alt, with_. rewrite E. cbn. rewrite Ec. reflexivity.
        * apply sf_done. apply did_panic. exact I1.
      + destruct (collect_not_nofuel _ _ Ec).
  Qed.

  Lemma safe_is_same gh d a b : nest = true -> has_tree gh a -> has_tree gh b ->
    safe (saw gh d [] (eq (Ret (is_same a b)))) gh d [] (p_is_same a b).
  Proof.
    intros N A B. apply safe_with; [apply all_reads_nil|reflexivity|exact A|]. intros gh1 w t I R E.
    eapply safe_weaken.
    - apply safe_read; [apply all_reads_cons, all_reads_nil|intro X; rewrite X in N; discriminate|].
      exact (has_tree_incl _ _ _ I B).
    - intros gh2 d2 hs2 r (-> & -> & <- & I2). split; [reflexivity|]. split; [reflexivity|]. split; [reflexivity|].
      split; [reflexivity|]. eapply incl_tran; eauto.
  Qed.

  (** After the ownership check of [add_alt] and [add_all]. *)
  Lemma safe_checked {A} pn gh d a b msg (o : op) (f : A -> val) (body : pr A) :
    nest = true -> has_tree gh a -> has_tree gh b -> can_call gh o ->
    (a <> b -> pn = true /\ forall (w : wld), tr_step w o = (Panic msg, w)) ->
    (a = b -> forall gh', incl gh gh' -> safe (did gh' d o f (fun _ => True) pn) gh' d [] body) ->
    safe (did gh d o f (fun _ => True) pn) gh d [] (pbind (p_is_same a b) (fun same => pbind (Done (assert_ same msg)) (fun _ => body))).
  Proof.
    intros N Ha Hb K Bad Good. eapply safe_bind; [apply safe_is_same; eassumption| | |].
    - intros gh1 d1 hs1 s (-> & -> & [= <-] & I1). unfold is_same. destruct (Nat.eqb_spec a b) as [Eq|Ne]; cbn [assert_ pbind pfinally].
      + unfold pbind. cbn. eapply safe_weaken; [apply Good; eassumption|].
        intros gh2 d2 hs2 r (-> & R & I2 & I3). split; [reflexivity|]. split; [exact R|]. split; [exact I2|]. eapply incl_tran; eauto.
      + unfold pbind. cbn. destruct (Bad Ne) as [-> Bad']. eapply sf_commit with (o := o) (r := Panic msg).
        * eapply can_call_incl; eassumption.
        * intros gh2 w _ _ _. apply Bad'.
        * apply sf_done. apply did_panic. exact I1.
    - intros gh1 d1 hs1 m (_ & _ & E & _). discriminate.
    - intros gh1 d1 hs1 (_ & _ & E & _). discriminate.
  Qed.

  Lemma safe_add_alt pn gh d n a : nest = true -> known_node gh n -> known_alt gh a ->
    (nd_inner n <> al_inner a -> pn = true) ->
    safe (did gh d (TAddAlt n a) RChanged (fun _ => True) pn) gh d [] (p_add_alt n a).
  Proof.
    intros N Kn Ka Pn. apply safe_checked; [exact N|apply node_has_tree; exact Kn|apply alt_has_tree; exact Ka|split; assumption| |].
    - intros Ne. split; [auto|]. intro w. cbn [tr_step]. unfold w_add_alt, is_same. rewrite (proj2 (Nat.eqb_neq _ _) Ne). reflexivity.
    - intros Eq gh1 I1. apply safe_with_mut; [exact (has_tree_incl _ _ _ I1 (node_has_tree _ _ Kn))|].
      intros gh2 w t I2 R E. pose proof (run_inv _ _ R) as J. pose proof (incl_tran I1 I2) as I3.
      destruct (hi_node _ _ J n (known_node_incl _ _ _ I3 Kn)) as (t' & E' & Ok). rewrite E in E'. injection E' as <-.
      destruct (hi_alt _ _ J a (known_alt_incl _ _ _ I3 Ka)) as (c & Ec). unfold wcont in Ec. rewrite <- Eq, E in Ec.
      destruct (add_node_alt_spec t (nd_index n) (al_index a) (hi_w _ _ J _ _ E) Ok (ex_intro _ c Ec)) as (t2 & Ea & _).
      do 2 eexists. exists (TAddAlt n a). eexists. split; [exact Ea|]. split; [|split].
      + exact (can_call_incl gh gh2 (TAddAlt n a) I3 (conj Kn Ka)).
      + intros w' Ew. cbn [tr_step]. unfold w_add_alt, is_same, with_. rewrite Eq, Nat.eqb_refl, <- Eq, Ew. cbn. rewrite Ea. reflexivity.
      + apply did_cons; [exact I2|exact I].
  Qed.
  Lemma safe_add_all gh d n m : nest = true -> known_node gh n -> known_node gh m ->
    safe (did gh d (TAddAll n m) RChanged (fun _ => True) true) gh d [] (p_add_all n m).
  Proof.
    intros N Kn Ka. apply safe_checked; [exact N|apply node_has_tree; exact Kn|apply node_has_tree; exact Ka|split; assumption| |].
    - intros Ne. split; [reflexivity|]. intro w. cbn [tr_step]. unfold w_add_all, is_same. rewrite (proj2 (Nat.eqb_neq _ _) Ne). reflexivity.
    - intros Eq gh1 I1. apply safe_with_mut; [exact (has_tree_incl _ _ _ I1 (node_has_tree _ _ Kn))|].
      intros gh2 w t I2 R E. pose proof (run_inv _ _ R) as J. pose proof (incl_tran I1 I2) as I3.
      destruct (hi_node _ _ J n (known_node_incl _ _ _ I3 Kn)) as (t' & E' & Ok). rewrite E in E'. injection E' as <-.
      destruct (hi_node _ _ J m (known_node_incl _ _ _ I3 Ka)) as (t' & E' & Om). rewrite <- Eq, E in E'. injection E' as <-.
      destruct (add_all_spec t (nd_index n) (nd_index m) (hi_w _ _ J _ _ E) Ok Om) as (c & t2 & Ea & _).
      do 2 eexists. exists (TAddAll n m). eexists. split; [exact Ea|]. split; [|split].
      + exact (can_call_incl gh gh2 (TAddAll n m) I3 (conj Kn Ka)).
      + intros w' Ew. cbn [tr_step]. unfold w_add_all, is_same, with_. rewrite Eq, Nat.eqb_refl, <- Eq, Ew. cbn. rewrite Ea. reflexivity.
      + apply did_cons; [exact I2|exact I].
  Qed.

  Lemma safe_alts gh d n : known_node gh n -> safe (did gh d (TAlts n) RAlts (fun _ => True) false) gh d [] (p_alts n).
  Proof.
    intro Kn. unfold p_alts. eapply safe_bind with (Q1 := fun gh' d' hs r => hs = [] /\ exists is, r = Ret is /\
      d' = (TAlts n, Ret (RAlts (map (fun i => {| al_index := i; al_inner := nd_inner n |}) is))) :: d /\ incl d' (d ++ gh') /\ incl gh gh').
    - apply safe_with; [apply all_reads_nil|reflexivity|apply node_has_tree; exact Kn|]. intros gh1 w t I R E.
      pose proof (run_inv _ _ R) as J. destruct (hi_node _ _ J n (known_node_incl _ _ _ I Kn)) as (t' & E' & Ok).
      rewrite E in E'. injection E' as <-. unfold node_ok in Ok.
      destruct (nth_error (in_nodes t) (nd_index n)) as [is|] eqn:En; [|apply nth_error_None in En; lia].
      eapply sf_commit with (o := TAlts n).
      + exact (known_node_incl _ _ _ I Kn).
      + intros gh2 w2 _ _ Ag. specialize (Ag false (nd_inner n) t (or_introl eq_refl)).
        cbn [tr_step]. unfold w_alts, with_, get_node. rewrite Ag. cbn. rewrite En. cbn. reflexivity.
      + apply sf_done. unfold get_node. rewrite En. cbn. split; [reflexivity|]. split; [reflexivity|]. eexists. split; [reflexivity|].
        split; [reflexivity|]. split; [|apply incl_tl; exact I].
        intros x [<-|Jx]; apply in_or_app; [right; left; reflexivity|left; exact Jx].
    - intros gh1 d1 hs1 is (-> & is' & [= <-] & -> & I & I'). apply sf_done. split; [reflexivity|]. split; [left; eauto|]. split; assumption.
    - intros gh1 d1 hs1 m (_ & is & E & _). discriminate.
    - intros gh1 d1 hs1 (_ & is & E & _). discriminate.
  Qed.

  (** A later look at an alternative whose content was read before. *)
  Lemma safe_look {A} gh d a (g : ContentInner T AK V -> outcome A) c :
    known_alt gh a -> In (TContent a, Ret (RContent (cext (al_inner a) c))) gh ->
    safe (saw gh d [] (eq (g c))) gh d []
      (p_with (al_inner a) (fun t => Done (x <- get_alt t (al_index a) ;; g x))).
  Proof.
    intros Ka J. apply safe_with; [apply all_reads_nil|reflexivity|apply alt_has_tree; exact Ka|]. intros gh1 w t I R E.
    apply sf_done. split; [reflexivity|]. split; [reflexivity|]. split; [reflexivity|]. split; [|exact I].
    pose proof (content_event gh1 w a _ R (I _ J)) as Ec. apply w_content_iff in Ec. destruct Ec as (c' & Ec & Ex).
    apply cext_inj in Ex. subst c'. unfold wcont in Ec. rewrite E in Ec. unfold acont in Ec. unfold get_alt. rewrite Ec. reflexivity.
  Qed.

  Lemma safe_content gh d a : known_alt gh a -> safe (did gh d (TContent a) RContent (fun _ => True) false) gh d [] (p_content a).
  Proof.
    intro Ka. unfold p_content.
    eapply safe_bind with (Q1 := fun gh' d' hs r => hs = [] /\ exists c,
      r = Ret (match c with CLeaf _ _ => true | CBranch _ _ => false end) /\
      d' = (TContent a, Ret (RContent (cext (al_inner a) c))) :: d /\
      In (TContent a, Ret (RContent (cext (al_inner a) c))) gh' /\ incl gh gh').
    - apply safe_with; [apply all_reads_nil|reflexivity|apply alt_has_tree; exact Ka|]. intros gh1 w t I R E.
      pose proof (run_inv _ _ R) as J. destruct (hi_alt _ _ J a (known_alt_incl _ _ _ I Ka)) as (c & Ec).
      unfold wcont in Ec. rewrite E in Ec. unfold acont in Ec.
      eapply sf_commit with (o := TContent a) (r := Ret (RContent (cext (al_inner a) c))).
      + exact (known_alt_incl _ _ _ I Ka).
      + intros gh2 w2 _ _ Ag. specialize (Ag false (al_inner a) t (or_introl eq_refl)).
        cbn [tr_step]. unfold w_content, with_, get_alt. rewrite Ag. cbn. rewrite Ec. destruct c; reflexivity.
      + apply sf_done. unfold get_alt. rewrite Ec. cbn. split; [reflexivity|]. split; [reflexivity|]. exists c.
        split; [reflexivity|]. split; [reflexivity|]. split; [left; reflexivity|apply incl_tl; exact I].
    - assert (Fin : forall gh1 gh2 c x, In (TContent a, Ret (RContent (cext (al_inner a) c))) gh1 -> incl gh gh1 -> incl gh1 gh2 ->
        x = cext (al_inner a) c ->
        did gh d (TContent a) RContent (fun _ => True) false gh2 ((TContent a, Ret (RContent (cext (al_inner a) c))) :: d) [] (Ret x)).
      { intros gh1 gh2 c x J I1 I2 ->. split; [reflexivity|]. split; [left; eauto|]. split; [|eapply incl_tran; eauto].
        intros y [<-|Jy]; apply in_or_app; [right; apply I2; exact J|left; exact Jy]. }
      intros gh1 d1 hs1 leaf (-> & c & [= ->] & -> & J & I1).
      assert (K1 : known_alt gh1 a) by exact (known_alt_incl _ _ _ I1 Ka).
      destruct c as [k v|x is].
      + eapply safe_bind; [apply (safe_look gh1 _ a (fun c => match c with CLeaf k _ => Ret k | CBranch _ _ => Panic _ end) (CLeaf k v) K1 J)| | |].
        * intros gh2 d2 hs2 k' (-> & -> & [= <-] & I2).
          eapply safe_bind; [apply (safe_look gh2 _ a (fun c => match c with CLeaf _ v => Ret v | CBranch _ _ => Panic _ end) (CLeaf k v)
             (known_alt_incl _ _ _ I2 K1) (I2 _ J))| | |].
          -- intros gh3 d3 hs3 v' (-> & -> & [= <-] & I3). apply sf_done. apply (Fin gh1); auto. eapply incl_tran; eauto.
          -- intros gh3 d3 hs3 m (_ & _ & E & _). discriminate.
          -- intros gh3 d3 hs3 (_ & _ & E & _). discriminate.
        * intros gh3 d3 hs3 m (_ & _ & E & _). discriminate.
        * intros gh3 d3 hs3 (_ & _ & E & _). discriminate.
      + eapply safe_bind; [apply (safe_look gh1 _ a (fun c => match c with CBranch x _ => Ret x | CLeaf _ _ => Panic _ end) (CBranch x is) K1 J)| | |].
        * intros gh2 d2 hs2 k' (-> & -> & [= <-] & I2).
          eapply safe_bind; [apply (safe_look gh2 _ a (fun c => match c with CBranch _ is => Ret is | CLeaf _ _ => Panic _ end) (CBranch x is)
             (known_alt_incl _ _ _ I2 K1) (I2 _ J))| | |].
          -- intros gh3 d3 hs3 v' (-> & -> & [= <-] & I3). apply sf_done. apply (Fin gh1); auto. eapply incl_tran; eauto.
          -- intros gh3 d3 hs3 m (_ & _ & E & _). discriminate.
          -- intros gh3 d3 hs3 (_ & _ & E & _). discriminate.
        * intros gh3 d3 hs3 m (_ & _ & E & _). discriminate.
        * intros gh3 d3 hs3 (_ & _ & E & _). discriminate.
    - intros gh1 d1 hs1 m (_ & is & E & _). discriminate.
    - intros gh1 d1 hs1 (_ & is & E & _). discriminate.
  Qed.

  (** A program that follows the discipline can come to its end. *)
  Lemma safe_ends {A} (Q : hist -> hist -> list hold -> outcome A -> Prop) gh d hs p : safe Q gh d hs p ->
    forall gh' w, incl gh gh' -> run gh' w -> agree w hs -> exists gh2 d' hs2 r, Q gh2 (d' ++ d) hs2 r.
  Proof.
    assert (Snoc : forall (x : op * outcome val) (d' e : hist), d' ++ x :: e = (d' ++ [x]) ++ e) by (intros; rewrite <- app_assoc; reflexivity).
    intro Sf. induction Sf as [gh d hs r q|gh d k F IH|gh d hs h k Ar Ne Ht F IH|gh d hs h t k Sf IH|gh d h k Ht F IH|gh d h t k Sf IH|gh d hs m h t k J Sf IH
      |gh d h t t' k o r K St Sf IH|gh d hs p o r K St Sf IH]; intros gh' w I R Ag.
    - exists gh, [], hs, r. exact q.
    - destruct (IH gh' w I R ((TNewTree, Ret (RHandle (length w))) :: gh') (w ++ [in_new])%list) as (g2 & d' & h2 & r & q).
      + apply incl_refl.
      + eapply run_step; [exact R|exact Logic.I|reflexivity].
      + intros m h t [].
      + rewrite Snoc in q. eauto.
    - destruct (Ht gh' w I R) as (t & E). destruct (IH gh' w t I R E gh' w (incl_refl _) R) as (g2 & d' & h2 & r & q); [|eauto].
      intros m h' t' [[= <- <- <-]|J]; [exact E|eapply Ag; eauto].
    - apply (IH gh' w I R). intros m h' t' J. apply (Ag m h' t'). right; exact J.
    - destruct (Ht gh' w I R) as (t & E). destruct (IH gh' w t I R E gh' w (incl_refl _) R) as (g2 & d' & h2 & r & q); [|eauto].
      intros m h' t' [[= <- <- <-]|[]]; exact E.
    - apply (IH gh' w I R). intros m h' t' [].
    - apply (IH gh' w I R). exact Ag.
    - assert (E : nth_error w h = Some t) by (apply (Ag true); left; reflexivity).
      destruct (IH ((o, r) :: gh') (w_set w h t')) as (g2 & d' & h2 & r2 & q).
      + intros x [<-|J]; [left; reflexivity|right; apply I; exact J].
      + eapply run_step; [exact R|exact (can_call_incl _ _ _ I K)|apply St; exact E].
      + intros m h' t2 [[= <- <- <-]|[]]. unfold w_set. rewrite nth_list_set, Nat.eqb_refl, E. reflexivity.
      + rewrite Snoc in q. eauto.
    - destruct (IH ((o, r) :: gh') w) as (g2 & d' & h2 & r2 & q).
      + intros x [<-|J]; [left; reflexivity|right; apply I; exact J].
      + eapply run_step; [exact R|exact (can_call_incl _ _ _ I K)|apply (St gh'); assumption].
      + exact Ag.
      + rewrite Snoc in q. eauto.
  Qed.

  (** ** All operations *)
  Definition Qop (o : op) : hist -> hist -> list hold -> outcome val -> Prop :=
    fun _ d hs r => hs = [] /\ parts o r (rev d).

  (** What a call has done so far are the first parts of its operation. *)
  Lemma safe_parts (o : op) gh d hs p (w : wld) x d0 : safe (Qop o) gh d hs p -> run gh w -> agree w hs -> d = x :: d0 ->
    exists r more, parts o r (rev d0 ++ x :: more).
  Proof.
    intros Sf R Ag ->. destruct (safe_ends _ _ _ _ _ Sf gh w (incl_refl _) R Ag) as (g2 & d' & h2 & r & _ & P).
    exists r, (rev d'). rewrite rev_app_distr in P. simpl in P. rewrite <- app_assoc in P. exact P.
  Qed.

  Lemma safe_pmap {A} gh (o : op) (f : A -> val) P pn p :
    (forall h k v, o <> TMakeLeafNode h k v) -> (forall h x ns, o <> TMakeBranchNode h x ns) ->
    safe (did gh [] o f P pn) gh [] [] p -> safe (Qop o) gh [] [] (pmap f p).
  Proof.
    intros N1 N2 S. eapply safe_bind; [exact S| | |].
    - intros gh1 d1 hs1 a (-> & [(a' & [= <-] & _ & ->)|(m & _ & X & _)] & _); [|discriminate].
      apply sf_done. split; [reflexivity|]. apply parts_one; assumption.
    - intros gh1 d1 hs1 m (-> & [(a' & X & _)|(m' & _ & [= <-] & ->)] & _); [discriminate|].
      split; [reflexivity|]. apply parts_one; assumption.
    - intros gh1 d1 hs1 (-> & [(a' & X & _)|(m' & _ & X & _)] & _); discriminate.
  Qed.

  (** The last part of [make_leaf_node] and [make_branch_node]. *)
  Lemma safe_node_alt (gh : hist) h (o alt_op : op) (mk : pr Alternative) pn :
    nest = true -> known_tree gh h ->
    (forall gh' d, incl gh gh' -> safe (did gh' d alt_op RAlt (fun a => al_inner a = h) pn) gh' d [] mk) ->
    (forall n a c, parts o (Ret (RNode n)) [(TMakeNode h, Ret (RNode n)); (alt_op, Ret (RAlt a)); (TAddAlt n a, Ret (RChanged c))]) ->
    (forall n m, pn = true -> parts o (Panic m) [(TMakeNode h, Ret (RNode n)); (alt_op, Panic m)]) ->
    safe (Qop o) gh [] []
      (pmap RNode (pbind (p_make_node h) (fun node => pbind mk (fun a => pbind (p_add_alt node a) (fun _ => Done (Ret node)))))).
  Proof.
    intros N K Mk P1 P2. unfold pmap.
    eapply safe_bind with (Q1 := fun gh' d hs r => hs = [] /\
      ((exists n, r = Ret n /\ parts o (Ret (RNode n)) (rev d)) \/ (exists m, r = Panic m /\ parts o (Panic m) (rev d)))).
    - eapply safe_bind; [apply safe_make_node; exact K| | |].
      + intros gh1 d1 hs1 n (-> & [(n' & [= <-] & En & ->)|(m & X & _)] & I1 & J1); [|discriminate].
        simpl in En, I1. assert (Kn : In (TMakeNode h, Ret (RNode n)) gh1) by (apply I1; left; reflexivity).
        eapply safe_bind; [apply Mk; exact J1| | |].
        * intros gh2 d2 hs2 a (-> & [(a' & [= <-] & Ea & ->)|(m & _ & X & _)] & I2 & J2); [|discriminate]. simpl in Ea.
          assert (Kn2 : known_node gh2 n) by (left; exists (TMakeNode h); apply J2; exact Kn).
          assert (Ka2 : known_alt gh2 a).
          { left. exists alt_op. specialize (I2 _ (or_introl eq_refl)). apply in_app_or in I2. destruct I2 as [X|X]; [|exact X].
            destruct X as [X|[]]. injection X as _ X. discriminate. }
          eapply safe_bind; [apply (safe_add_alt false); [exact N|exact Kn2|exact Ka2|]| | |].
          -- intro X. destruct X. congruence.
          -- intros gh3 d3 hs3 c (-> & [(c' & [= <-] & _ & ->)|(m & X & _)] & _); [|discriminate].
             apply sf_done. split; [reflexivity|]. left. exists n. split; [reflexivity|]. cbn. apply P1.
          -- intros gh3 d3 hs3 m (-> & [(c' & X & _)|(m' & X & _)] & _); discriminate.
          -- intros gh3 d3 hs3 (-> & [(c' & X & _)|(m' & X & _)] & _); discriminate.
        * intros gh2 d2 hs2 m (-> & [(a' & X & _)|(m' & Pn & [= <-] & ->)] & I2 & J2); [discriminate|].
          split; [reflexivity|]. right. exists m. split; [reflexivity|]. cbn. apply P2. exact Pn.
        * intros gh2 d2 hs2 (-> & [(a' & X & _)|(m' & _ & X & _)] & _); discriminate.
      + intros gh1 d1 hs1 m (-> & [(c' & X & _)|(m' & X & _)] & _); discriminate.
      + intros gh1 d1 hs1 (-> & [(c' & X & _)|(m' & X & _)] & _); discriminate.
    - intros gh1 d1 hs1 n (-> & [(n' & [= <-] & P)|(m & X & _)]); [|discriminate]. apply sf_done. split; [reflexivity|exact P].
    - intros gh1 d1 hs1 m (-> & [(n' & X & _)|(m' & [= <-] & P)]); [discriminate|]. split; [reflexivity|exact P].
    - intros gh1 d1 hs1 (-> & [(n' & X & _)|(m' & X & _)]); discriminate.
  Qed.

  Theorem op_safe gh (o : op) : can_call gh o -> (nests o -> nest = true) -> safe (Qop o) gh [] [] (op_prog o).
  Proof.
    intros K N. destruct o; cbn [op_prog]; cbn [can_call] in K; cbn [nests] in N.
    - unfold pmap, pbind, p_new_tree. cbn [pfinally]. apply sf_new. intros gh' w I R. apply sf_done. split; [reflexivity|].
      cbn. apply parts_one; discriminate.
    - eapply safe_pmap; [discriminate|discriminate|]. apply safe_make_node. exact K.
    - eapply safe_pmap; [discriminate|discriminate|]. apply safe_make_leaf_alt. exact K.
    - eapply safe_pmap; [discriminate|discriminate|]. apply safe_make_branch_alt; [auto|apply K|apply K].
    - eapply (safe_node_alt gh h _ (TMakeLeafAlt h kind value) (p_make_leaf_alt h kind value) false); [auto|exact K| | |].
      + intros gh' d I. apply safe_make_leaf_alt. exact (known_tree_incl _ _ _ I K).
      + intros. apply parts_leaf.
      + discriminate.
    - destruct K as [K F].
      eapply (safe_node_alt gh h _ (TMakeBranchAlt h action nodes) (p_make_branch_alt h action nodes) true); [auto|exact K| | |].
      + intros gh' d I. apply safe_make_branch_alt; [auto|exact (known_tree_incl _ _ _ I K)|].
        eapply Forall_impl; [|exact F]. intros y Ky. exact (known_node_incl _ _ _ I Ky).
      + intros. apply parts_branch.
      + intros. apply parts_branch_panic.
    - eapply safe_pmap; [discriminate|discriminate|]. apply (safe_add_alt true); [auto|apply K|apply K|reflexivity].
    - eapply safe_pmap; [discriminate|discriminate|]. apply safe_add_all; [auto|apply K|apply K].
    - eapply safe_pmap; [discriminate|discriminate|]. apply safe_alts. exact K.
    - eapply safe_pmap; [discriminate|discriminate|]. apply safe_content. exact K.
  Qed.
End Safe.
