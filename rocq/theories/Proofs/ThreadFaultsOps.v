(** The programs of the calls follow the discipline. *)
From Coq Require Import String List Arith Lia Bool.
From Verif.Model Require Import Ord BTree Outcome Utils Tree RwLock ThreadFaults.
From Verif.Model Require TreeFaults.
From Verif.Spec Require Import TreeSpec TreeFaultsSpec RwLockSpec ThreadFaultsSpec.
From Verif.Proofs Require Import OrdFacts BTreeFacts LoopFacts UtilsFacts TreeFacts TreeHist RwLockSafe TreeFaultsFacts ThreadFaultsSafe.
Import ListNotations.

Section Ops.
  Context {T AK V : Type} `{OrdEq T} `{OrdEq AK} `{OrdEq V}.
  Local Notation tree := (Inner T AK V).
  Local Notation fault := TreeFaults.fault.
  Local Notation pt := (TreeFaults.ptree T AK V).
  Local Notation pwld := (TreeFaults.pworld T AK V).
  Local Notation hist := (history T AK V).
  Local Notation op := (tr_op T AK V).
  Local Notation val := (tr_val T AK V).
  Local Notation pr := (prog T AK V).
  Local Notation hold := (@phold T AK V).
  Local Notation f_step := TreeFaults.f_step.
  Local Notation poison_text := TreeFaults.poison_text.
  Local Notation pt_poisoned := TreeFaults.pt_poisoned.
  Local Notation pt_tree := TreeFaults.pt_tree.
  Variable F : fault -> Prop.
  Hypothesis F0 : F TreeFaults.NoFault.
  Local Notation frun := (frun_of F).
  Local Notation safe := (psafe F).

  Lemma pall_nil : pall_reads (@nil hold).
  Proof using Type. intros m h t []. Qed.
  Lemma pall_cons h t (hs : list hold) : pall_reads hs -> pall_reads ((false, h, t) :: hs).
  Proof using Type. intros A m h' t' [[= <- _ _]|J]; [reflexivity|exact (A _ _ _ J)]. Qed.

  Lemma psafe_with {A} (Q : hist -> hist -> list hold -> outcome A -> Prop) gh d hs h (func : tree -> pr A) :
    phas_tree F gh h -> pall_reads hs ->
    (forall gh' w t, incl gh gh' -> frun gh' w -> pagree w hs -> nth_error w h = Some t ->
      safe (fun gh2 d2 hs2 r => hs2 = (false, h, t) :: hs /\ Q gh2 d2 hs r) gh' d ((false, h, t) :: hs)
        (if pt_poisoned t then Done (Panic poison_text) else func (pt_tree t))) ->
    safe Q gh d hs (p_with h func).
  Proof using Type.
    intros X Rd Y. unfold p_with. apply ps_rlock; [split; [exact X|exact Rd]|]. intros gh' w t I R Ag E. specialize (Y gh' w t I R Ag E).
    pose proof (psafe_finally F _ Q _ _ _ _ (fun r => RUnlock h (Done r)) Y) as Z.
    destruct (pt_poisoned t).
    - apply Z. intros gh2 d2 hs2 r [-> J]. apply ps_runlock. apply ps_done. exact J.
    - eapply ps_get; [left; reflexivity|]. apply Z. intros gh2 d2 hs2 r [-> J]. apply ps_runlock. apply ps_done. exact J.
  Qed.

  (** Ends without guards, having performed exactly [o] more. *)
  Definition pdid {A} (gh d : hist) (o : op) (g : A -> val) (P : A -> Prop) : hist -> hist -> list hold -> outcome A -> Prop :=
    fun gh' d' hs r => hs = [] /\
      ((exists a, r = Ret a /\ P a /\ d' = (o, Ret (g a)) :: d) \/ (exists m, r = Panic m /\ d' = (o, Panic m) :: d)) /\
      incl d' (d ++ gh') /\ incl gh gh'.
  Lemma incl_one (x : op * outcome val) (d gh : hist) : incl (x :: d) (d ++ x :: gh).
  Proof using Type. intros y [<-|J]; apply in_or_app; [right; left; reflexivity|left; exact J]. Qed.
  Lemma pdid_ret {A} gh gh' d (o : op) (g : A -> val) (P : A -> Prop) a : incl gh gh' -> P a ->
    pdid gh d o g P ((o, Ret (g a)) :: gh') ((o, Ret (g a)) :: d) [] (Ret a).
  Proof using Type. intros I Pa. split; [reflexivity|]. split; [left; eauto|]. split; [apply incl_one|apply incl_tl; exact I]. Qed.
  Lemma pdid_panic {A} gh gh' d (o : op) (g : A -> val) (P : A -> Prop) m : incl gh gh' ->
    pdid gh d o g P ((o, Panic m) :: gh') ((o, Panic m) :: d) [] (Panic m).
  Proof using Type. intro I. split; [reflexivity|]. split; [right; eauto|]. split; [apply incl_one|apply incl_tl; exact I]. Qed.
  Lemma pdid_le {A} gh gh1 d (o : op) (g : A -> val) (P : A -> Prop) gh' d' hs r : incl gh gh1 -> pdid gh1 d o g P gh' d' hs r -> pdid gh d o g P gh' d' hs r.
  Proof using Type. intros I (-> & X & Y & Z). split; [reflexivity|]. split; [exact X|]. split; [exact Y|]. eapply incl_tran; eauto. Qed.

  (** A write section that is the sequential operation [o]. *)
  Lemma psafe_with_mut {A} gh d h (func : tree -> outcome A * tree) f (o : op) (g : A -> val) (P : A -> Prop) :
    phas_tree F gh h -> can_call gh o -> F f ->
    (forall w t, nth_error w h = Some t -> f_step f w o = TreeFaults.fmap_ g (TreeFaults.p_with_mut w h func)) ->
    (forall t, fst (func t) <> NoFuel) -> (forall t a t', func t = (Ret a, t') -> P a) ->
    safe (pdid gh d o g P) gh d [] (q_with_mut h func).
  Proof using F0.
    intros X K Ff St Nf Pa. unfold q_with_mut. apply ps_wlock; [exact X|]. intros gh' w t I R E.
    destruct t as [t []]; cbn [TreeFaults.pt_poisoned].
    - eapply ps_commit with (f := f) (o := o) (r := Panic poison_text).
      + eapply can_call_incl; eassumption.
      + exact Ff.
      + intros gh2 w2 _ _ Ag. specialize (Ag true h _ (or_introl eq_refl)). rewrite (St w2 _ Ag). unfold TreeFaults.p_with_mut, TreeFaults.p_lock.
        rewrite Ag. reflexivity.
      + apply (ps_wunlock F _ _ _ h {| TreeFaults.pt_tree := t; TreeFaults.pt_poisoned := true |}). apply ps_done. apply pdid_panic. exact I.
    - eapply ps_get; [left; reflexivity|]. cbn [TreeFaults.pt_tree]. specialize (Nf t). specialize (Pa t).
      destruct (func t) as [r t'] eqn:Ef. cbn [fst] in Nf.
      eapply ps_put with (f := f) (o := o) (b := match r with Panic _ => true | _ => false end)
        (r := match r with Ret a => Ret (g a) | Panic m => Panic m | NoFuel => NoFuel end); [reflexivity|eapply can_call_incl; eassumption|exact Ff| |].
      + intros w2 E2. rewrite (St w2 _ E2). unfold TreeFaults.p_with_mut, TreeFaults.p_lock. rewrite E2. cbn [expect TreeFaults.pt_poisoned obind TreeFaults.pt_tree].
        cbn. rewrite Ef. destruct r; reflexivity.
      + match goal with |- psafe _ _ _ _ [(true, _, ?p)] _ => apply (ps_wunlock F _ _ _ h p) end.
        apply ps_done. destruct r as [a|m|]; [apply pdid_ret; [exact I|eapply Pa; reflexivity]|apply pdid_panic; exact I|destruct (Nf eq_refl)].
  Qed.

  Lemma psafe_make_node gh d h : known_tree gh h -> safe (pdid gh d (TMakeNode h) RNode (fun n => nd_inner n = h)) gh d [] (q_make_node h).
  Proof using Type*.
    intro K. apply (psafe_with_mut gh d h _ TreeFaults.NoFault (TMakeNode h)); [apply (pknown_has_tree F F0); exact K|exact K|exact F0| | |].
    - intros w t _. reflexivity.
    - discriminate.
    - intros t a t' [= <- _]. reflexivity.
  Qed.
  Lemma make_alt_fuel f c (t : tree) : fst (TreeFaults.f_inner_make_alt f c t) <> NoFuel.
  Proof using Type.
    unfold TreeFaults.f_inner_make_alt, TreeFaults.f_altset_add.
    destruct f; try discriminate; destruct (bt_get c (value_to_id (in_alts t))); discriminate.
  Qed.
  Lemma psafe_make_alt gh d h c f (o : op) : known_tree gh h -> can_call gh o -> F f ->
    (forall w t, nth_error w h = Some t -> f_step f w o = TreeFaults.fmap_ RAlt (TreeFaults.f_make_alt f w h c)) ->
    safe (pdid gh d o RAlt (fun a => al_inner a = h)) gh d [] (q_make_alt f h c).
  Proof using Type*.
    intros K C Ff St. apply psafe_with_mut with (f := f); [apply (pknown_has_tree F F0); exact K|exact C|exact Ff|exact St| |].
    - intro t. pose proof (make_alt_fuel f c t) as N. destruct (TreeFaults.f_inner_make_alt f c t) as [[i|m|] t']; [discriminate|discriminate|destruct (N eq_refl)].
    - intros t a t' E. destruct (TreeFaults.f_inner_make_alt f c t) as [[i|m|] t2]; cbn in E; [injection E as <- _; reflexivity|discriminate|discriminate].
  Qed.

  (** ** The iterator of [make_branch_alt] *)
  Definition next_fault (f : fault) : fault :=
    match f with TreeFaults.InIterator (S k) m => TreeFaults.InIterator k m | _ => f end.
  Lemma items_cons f n ns : (forall m, f <> TreeFaults.InIterator 0 m) ->
    @items T AK V f (n :: ns) = Done (Ret n) :: items (next_fault f) ns.
  Proof using Type.
    intro N. destruct f as [|k m| | | |]; try reflexivity. destruct k as [|k]; [destruct (N m eq_refl)|]. cbn.
    destruct (Nat.leb k (List.length ns)); reflexivity.
  Qed.

  (** While the tree is held, either all nodes belong to it, or the call panics as the sequential one. *)
  Lemma psafe_collect (o : op) f0 h t hs gh d : F f0 -> In (false, h, {| TreeFaults.pt_tree := t; TreeFaults.pt_poisoned := false |}) hs -> pall_reads hs ->
    forall ns f gh1, incl gh gh1 -> Forall (known_node gh1) ns -> can_call gh1 o ->
    (forall (w : pwld) m t, healthy w h t -> TreeFaults.f_collect w h f ns = Panic m -> f_step f0 w o = (Panic m, w)) ->
    safe (fun gh' d' hs' r => hs' = hs /\ incl gh gh' /\
        ((exists is, r = Ret is /\ d' = d /\ forall (w : pwld) t, healthy w h t -> TreeFaults.f_collect w h f ns = Ret is) \/
         (exists m, r = Panic m /\ d' = (o, Panic m) :: d /\ In (o, Panic m) gh'))) gh1 d hs (p_collect h (items f ns)).
  Proof using Type*.
    intros Ff Jh Rd.
    assert (Hp : forall w : pwld, pagree w hs -> healthy w h t) by (intros w Ag; exact (Ag _ _ _ Jh)).
    assert (Stop : forall f ns gh1 m, incl gh gh1 -> can_call gh1 o ->
      (forall (w : pwld) m t, healthy w h t -> TreeFaults.f_collect w h f ns = Panic m -> f_step f0 w o = (Panic m, w)) ->
      (forall w : pwld, TreeFaults.f_collect w h f ns = Panic m) ->
      safe (fun gh' d' hs' r => hs' = hs /\ incl gh gh' /\
        ((exists is, r = Ret is /\ d' = d /\ forall (w : pwld) t, healthy w h t -> TreeFaults.f_collect w h f ns = Ret is) \/
         (exists m, r = Panic m /\ d' = (o, Panic m) :: d /\ In (o, Panic m) gh'))) gh1 d hs (Done (Panic m))).
    { intros f ns gh1 m I K C X. eapply ps_commit with (o := o) (r := Panic m); [exact K|exact Ff| |].
      - intros gh2 w _ _ Ag. apply (C w m t); [apply Hp; exact Ag|apply X].
      - apply ps_done. split; [reflexivity|]. split; [apply incl_tl; exact I|]. right. exists m. split; [reflexivity|]. split; [reflexivity|left; reflexivity]. }
    induction ns as [|n ns IH]; intros f gh1 I Kn K C.
    - destruct f as [|[|k] m| | | |]; try (apply (Stop _ _ _ _ I K C); reflexivity);
        (apply ps_done; split; [reflexivity|]; split; [exact I|]; left; exists []; split; [reflexivity|]; split; reflexivity).
    - destruct (match f with TreeFaults.InIterator 0 m => Some m | _ => None end) as [m|] eqn:Z.
      { assert (Ez : f = TreeFaults.InIterator 0 m) by (destruct f as [|[|k] m'| | | |]; congruence). subst f. apply (Stop _ _ _ _ I K C). reflexivity. }
      assert (Nz : forall m, f <> TreeFaults.InIterator 0 m) by (intros m ->; discriminate).
      rewrite items_cons by exact Nz. cbn [p_collect]. unfold pbind at 1. cbn [pfinally].
      assert (Ec : forall w : pwld, TreeFaults.f_collect w h f (n :: ns) =
        (same <- TreeFaults.p_with w (nd_inner n) (fun _ => Ret (Nat.eqb (nd_inner n) h)) ;;
         _ <- assert_ same "assertion failed: n.inner.with(is_same)" ;;
         is <- TreeFaults.f_collect w h (next_fault f) ns ;; Ret (nd_index n :: is))).
      { intro w. destruct f as [|[|k] m'| | | |]; try reflexivity. destruct (Nz m' eq_refl). }
      inversion Kn as [|? ? Kn1 Kn2]; subst.
      eapply psafe_bind with (Q1 := fun gh' d' hs' r => hs' = hs /\ incl gh1 gh' /\
        ((nd_inner n = h /\ r = Ret true /\ d' = d) \/
         (exists m, (r = Ret false /\ m = "assertion failed: n.inner.with(is_same)"%string \/ r = Panic m) /\ d' = (o, Panic m) :: d /\ In (o, Panic m) gh'))).
      + apply psafe_with; [apply (pnode_has_tree F F0); exact Kn1|exact Rd|]. intros gh2 w tn I2 R Ag E.
        destruct (Nat.eq_dec (nd_inner n) h) as [Eh|Nh].
        * assert (Et : tn = {| TreeFaults.pt_tree := t; TreeFaults.pt_poisoned := false |}).
          { pose proof (Hp w Ag) as X. unfold healthy in X. congruence. }
          subst tn. cbn. apply ps_done. split; [reflexivity|]. split; [reflexivity|]. split; [exact I2|]. left.
          split; [exact Eh|]. split; [|reflexivity]. rewrite Eh, Nat.eqb_refl. reflexivity.
        * destruct tn as [tn []]; cbn [TreeFaults.pt_poisoned TreeFaults.pt_tree].
          -- eapply ps_commit with (o := o) (r := Panic poison_text); [eapply can_call_incl; eassumption|exact Ff| |].
             ++ intros gh3 w3 _ _ Ag3. apply (C w3 poison_text t).
                ** apply Hp. intros a b c J. apply (Ag3 a b c). right. exact J.
                ** rewrite Ec. unfold TreeFaults.p_with, TreeFaults.p_lock. rewrite (Ag3 _ _ _ (or_introl eq_refl)). reflexivity.
             ++ apply ps_done. split; [reflexivity|]. split; [reflexivity|]. split; [apply incl_tl; exact I2|]. right. exists poison_text.
                split; [right; reflexivity|]. split; [reflexivity|left; reflexivity].
          -- eapply ps_commit with (o := o) (r := Panic "assertion failed: n.inner.with(is_same)"%string); [eapply can_call_incl; eassumption|exact Ff| |].
             ++ intros gh3 w3 _ _ Ag3. apply (C w3 _ t).
                ** apply Hp. intros a b c J. apply (Ag3 a b c). right. exact J.
                ** rewrite Ec. unfold TreeFaults.p_with, TreeFaults.p_lock. rewrite (Ag3 _ _ _ (or_introl eq_refl)). cbn.
                   rewrite (proj2 (Nat.eqb_neq _ _) Nh). reflexivity.
             ++ apply ps_done. split; [reflexivity|]. split; [reflexivity|]. split; [apply incl_tl; exact I2|]. right. eexists.
                split; [left; split; [|reflexivity]; f_equal; apply Nat.eqb_neq; congruence|]. split; [reflexivity|left; reflexivity].
      + intros gh2 d2 hs2 b (-> & I2 & [(Eh & [= ->] & ->)|(m & [([= ->] & ->)|X] & -> & J)]); [| |discriminate].
        * unfold pbind at 1. cbn [assert_ pfinally].
          eapply psafe_bind; [apply (IH (next_fault f) gh2)| | |].
          -- eapply incl_tran; eassumption.
          -- eapply Forall_impl; [|exact Kn2]. intros y Ky. exact (known_node_incl _ _ _ I2 Ky).
          -- eapply can_call_incl; eassumption.
          -- intros w m t' Hw X. apply (C w m t' Hw). rewrite Ec. unfold TreeFaults.p_with, TreeFaults.p_lock. rewrite Eh, Hw. cbn.
             rewrite Nat.eqb_refl. cbn. rewrite X. reflexivity.
          -- intros gh3 d3 hs3 is (-> & I3 & [(is' & [= <-] & -> & X)|(m & X & _)]); [|discriminate].
             apply ps_done. split; [reflexivity|]. split; [exact I3|]. left. eexists. split; [reflexivity|]. split; [reflexivity|].
             intros w t' Hw. rewrite Ec. unfold TreeFaults.p_with, TreeFaults.p_lock. rewrite Eh, Hw. cbn. rewrite Nat.eqb_refl. cbn. rewrite (X w t' Hw). reflexivity.
          -- intros gh3 d3 hs3 m (-> & I3 & [(is' & X & _)|(m' & [= <-] & -> & J)]); [discriminate|].
             split; [reflexivity|]. split; [exact I3|]. right. eauto.
          -- intros gh3 d3 hs3 (-> & I3 & [(is' & X & _)|(m' & X & _)]); discriminate.
        * unfold pbind. cbn [assert_ pfinally]. apply ps_done. split; [reflexivity|]. split; [eapply incl_tran; eassumption|]. right. eauto.
      + intros gh2 d2 hs2 m (-> & I2 & [(Eh & X & _)|(m' & [(X & _)|[= <-]] & -> & J)]); [discriminate|discriminate|].
        split; [reflexivity|]. split; [eapply incl_tran; eassumption|]. right. eauto.
      + intros gh2 d2 hs2 (-> & I2 & [(Eh & X & _)|(m' & [(X & _)|X] & _)]); discriminate.
  Qed.
  Lemma psafe_make_branch_alt f gh d h x ns : F f -> known_tree gh h -> Forall (known_node gh) ns ->
    safe (pdid gh d (TMakeBranchAlt h x ns) RAlt (fun a => al_inner a = h)) gh d [] (q_make_branch_alt f h x ns).
  Proof using Type*.
    intros Ff K Kn. unfold q_make_branch_alt.
    eapply psafe_bind with (Q1 := fun gh' d' hs' r => hs' = [] /\ incl gh gh' /\
        ((exists is, r = Ret is /\ d' = d /\ forall (w : pwld) t, healthy w h t -> TreeFaults.f_collect w h f ns = Ret is) \/
         (exists m, r = Panic m /\ d' = (TMakeBranchAlt h x ns, Panic m) :: d /\ In (TMakeBranchAlt h x ns, Panic m) gh'))).
    - apply psafe_with; [apply (pknown_has_tree F F0); exact K|apply pall_nil|]. intros gh1 w t I R _ E. destruct t as [t []]; cbn [TreeFaults.pt_poisoned TreeFaults.pt_tree].
      + eapply ps_commit with (o := TMakeBranchAlt h x ns) (r := Panic poison_text).
        * exact (can_call_incl gh gh1 (TMakeBranchAlt h x ns) I (conj K Kn)).
        * exact Ff.
        * intros gh2 w2 _ _ Ag. cbn [TreeFaults.f_step]. unfold TreeFaults.f_make_branch_alt, TreeFaults.p_with, TreeFaults.p_lock.
          rewrite (Ag _ _ _ (or_introl eq_refl)). reflexivity.
        * apply ps_done. split; [reflexivity|]. split; [reflexivity|]. split; [apply incl_tl; exact I|]. right. exists poison_text.
          split; [reflexivity|]. split; [reflexivity|left; reflexivity].
      + eapply psafe_weaken.
        * apply (psafe_collect (TMakeBranchAlt h x ns) f h t) with (gh := gh1); [exact Ff|left; reflexivity|apply pall_cons, pall_nil|apply incl_refl| | |].
          -- eapply Forall_impl; [|exact Kn]. intros y Ky. exact (known_node_incl _ _ _ I Ky).
          -- exact (can_call_incl gh gh1 (TMakeBranchAlt h x ns) I (conj K Kn)).
          -- intros w2 m t2 Hw X. cbn [TreeFaults.f_step]. unfold TreeFaults.f_make_branch_alt, TreeFaults.p_with at 1, TreeFaults.p_lock at 1.
             rewrite Hw. cbn. rewrite X. reflexivity.
        * intros gh2 d2 hs2 r (-> & I2 & Y). split; [reflexivity|]. split; [reflexivity|]. split; [eapply incl_tran; eassumption|exact Y].
    - intros gh1 d1 hs1 is (-> & I & [(is' & [= <-] & -> & X)|(m & X & _)]); [|discriminate].
      eapply psafe_weaken.
      + apply (psafe_make_alt gh1 d h (CBranch x is) f (TMakeBranchAlt h x ns)).
        * exact (known_tree_incl _ _ _ I K).
        * exact (can_call_incl gh gh1 (TMakeBranchAlt h x ns) I (conj K Kn)).
        * exact Ff.
        * intros w t E. cbn [TreeFaults.f_step]. unfold TreeFaults.f_make_branch_alt, TreeFaults.p_with, TreeFaults.p_lock. rewrite E.
          destruct t as [t []]; cbn [expect obind TreeFaults.pt_poisoned TreeFaults.pt_tree].
          -- cbn. unfold TreeFaults.f_make_alt, TreeFaults.p_with_mut, TreeFaults.p_lock. rewrite E. reflexivity.
          -- cbn. rewrite (X w t E). reflexivity.
      + intros gh2 d2 hs2 r Y. eapply pdid_le; eassumption.
    - intros gh1 d1 hs1 m (-> & I & [(is' & X & _)|(m' & [= <-] & -> & J)]); [discriminate|].
      split; [reflexivity|]. split; [right; eauto|]. split; [|exact I].
      intros y [<-|Jy]; apply in_or_app; [right; exact J|left; exact Jy].
    - intros gh1 d1 hs1 (-> & I & [(is' & X & _)|(m' & X & _)]); discriminate.
  Qed.

  (** ** [add_alt] and [add_all] *)
  Lemma psafe_checked {A} gh d a b msg (o : op) (g : A -> val) (body : pr A) :
    phas_tree F gh a -> phas_tree F gh b -> can_call gh o ->
    (forall w : pwld, a <> b \/ (exists t, nth_error w a = Some {| TreeFaults.pt_tree := t; TreeFaults.pt_poisoned := true |}) ->
       forall m, (same <- TreeFaults.f_is_same w a b ;; assert_ same msg) = Panic m -> f_step TreeFaults.NoFault w o = (Panic m, w)) ->
    (a = b -> forall gh', incl gh gh' -> safe (pdid gh' d o g (fun _ => True)) gh' d [] body) ->
    safe (pdid gh d o g (fun _ => True)) gh d [] (pbind (p_is_same a b) (fun same => pbind (Done (assert_ same msg)) (fun _ => body))).
  Proof using Type*.
    intros Ha Hb K St Good.
    eapply psafe_bind with (Q1 := fun gh' d' hs' r => hs' = [] /\ incl gh gh' /\
        ((a = b /\ r = Ret true /\ d' = d) \/
         (exists m, (r = Ret false /\ m = msg \/ r = Panic m) /\ d' = (o, Panic m) :: d /\ In (o, Panic m) gh'))).
    - apply psafe_with; [exact Ha|apply pall_nil|]. intros gh1 w ta I R _ E. destruct ta as [ta []]; cbn [TreeFaults.pt_poisoned TreeFaults.pt_tree].
      + eapply ps_commit with (o := o) (r := Panic poison_text); [eapply can_call_incl; eassumption|exact F0| |].
        * intros gh2 w2 _ _ Ag. pose proof (Ag _ _ _ (or_introl eq_refl)) as E2. apply St; [right; eauto|].
          unfold TreeFaults.f_is_same, TreeFaults.p_with, TreeFaults.p_lock. rewrite E2. reflexivity.
        * apply ps_done. split; [reflexivity|]. split; [reflexivity|]. split; [apply incl_tl; exact I|]. right. exists poison_text.
          split; [right; reflexivity|]. split; [reflexivity|left; reflexivity].
      + eapply psafe_weaken with (Q1 := fun gh' d' hs' r => hs' = [(false, a, {| TreeFaults.pt_tree := ta; TreeFaults.pt_poisoned := false |})] /\ incl gh1 gh' /\
          ((a = b /\ r = Ret true /\ d' = d) \/ (exists m, (r = Ret false /\ m = msg \/ r = Panic m) /\ d' = (o, Panic m) :: d /\ In (o, Panic m) gh'))).
        * apply psafe_with; [exact (phas_tree_incl F _ _ _ I Hb)|apply pall_cons, pall_nil|]. intros gh2 w2 tb I2 R2 Ag2 E2.
          destruct (Nat.eq_dec a b) as [Eq|Ne].
          -- subst b. pose proof (Ag2 _ _ _ (or_introl eq_refl)) as E3. rewrite E2 in E3. injection E3 as ->. cbn. apply ps_done.
             split; [reflexivity|]. split; [reflexivity|]. split; [exact I2|]. left. split; [reflexivity|]. split; [|reflexivity].
             unfold is_same. rewrite Nat.eqb_refl. reflexivity.
          -- destruct tb as [tb []]; cbn [TreeFaults.pt_poisoned TreeFaults.pt_tree].
             ++ eapply ps_commit with (o := o) (r := Panic poison_text); [eapply can_call_incl; [|exact K]; eapply incl_tran; eassumption|exact F0| |].
                ** intros gh3 w3 _ _ Ag. apply St; [left; exact Ne|].
                   unfold TreeFaults.f_is_same, TreeFaults.p_with, TreeFaults.p_lock.
                   rewrite (Ag _ _ _ (or_introl eq_refl)), (Ag _ _ _ (or_intror (or_introl eq_refl))). reflexivity.
                ** apply ps_done. split; [reflexivity|]. split; [reflexivity|]. split; [apply incl_tl; exact I2|]. right. exists poison_text.
                   split; [right; reflexivity|]. split; [reflexivity|left; reflexivity].
             ++ eapply ps_commit with (o := o) (r := Panic msg); [eapply can_call_incl; [|exact K]; eapply incl_tran; eassumption|exact F0| |].
                ** intros gh3 w3 _ _ Ag. apply St; [left; exact Ne|].
                   unfold TreeFaults.f_is_same, TreeFaults.p_with, TreeFaults.p_lock.
                   rewrite (Ag _ _ _ (or_introl eq_refl)), (Ag _ _ _ (or_intror (or_introl eq_refl))). cbn.
                   rewrite (proj2 (Nat.eqb_neq _ _) Ne). reflexivity.
                ** apply ps_done. split; [reflexivity|]. split; [reflexivity|]. split; [apply incl_tl; exact I2|]. right. exists msg.
                   split; [left; split; [|reflexivity]; f_equal; apply Nat.eqb_neq; exact Ne|]. split; [reflexivity|left; reflexivity].
        * intros gh2 d2 hs2 r (-> & I2 & Y). split; [reflexivity|]. split; [reflexivity|]. split; [eapply incl_tran; eassumption|exact Y].
    - intros gh1 d1 hs1 s (-> & I & [(Eq & [= ->] & ->)|(m & [([= ->] & ->)|X] & -> & J)]); [| |discriminate].
      + unfold pbind. cbn [assert_ pfinally]. eapply psafe_weaken; [apply (Good Eq gh1 I)|]. intros gh2 d2 hs2 r Y. eapply pdid_le; eassumption.
      + unfold pbind. cbn [assert_ pfinally]. apply ps_done. split; [reflexivity|]. split; [right; eauto|]. split; [|exact I].
        intros y [<-|Jy]; apply in_or_app; [right; exact J|left; exact Jy].
    - intros gh1 d1 hs1 m (-> & I & [(Eq & X & _)|(m' & [(X & _)|[= <-]] & -> & J)]); [discriminate|discriminate|].
      split; [reflexivity|]. split; [right; eauto|]. split; [|exact I].
      intros y [<-|Jy]; apply in_or_app; [right; exact J|left; exact Jy].
    - intros gh1 d1 hs1 (-> & I & [(Eq & X & _)|(m' & [(X & _)|X] & _)]); discriminate.
  Qed.
  Lemma psafe_add_alt gh d n a : known_node gh n -> known_alt gh a ->
    safe (pdid gh d (TAddAlt n a) RChanged (fun _ => True)) gh d [] (q_add_alt n a).
  Proof using Type*.
    intros Kn Ka. apply psafe_checked; [apply (pnode_has_tree F F0); exact Kn|apply (palt_has_tree F F0); exact Ka|split; assumption| |].
    - intros w _ m X. cbn [TreeFaults.f_step]. unfold TreeFaults.f_add_alt. rewrite X. reflexivity.
    - intros Eq gh1 I. apply psafe_with_mut with (f := TreeFaults.NoFault).
      + exact (phas_tree_incl F _ _ _ I (pnode_has_tree F F0 _ _ Kn)).
      + exact (can_call_incl gh gh1 (TAddAlt n a) I (conj Kn Ka)).
      + exact F0.
      + intros w t E. cbn [TreeFaults.f_step]. unfold TreeFaults.f_add_alt, TreeFaults.f_is_same, TreeFaults.p_with, TreeFaults.p_with_mut, TreeFaults.p_lock.
        rewrite <- Eq, E. destruct t as [t []]; cbn; [reflexivity|]. rewrite Nat.eqb_refl. reflexivity.
      + intro t. pose proof (in_add_node_alt_fuel (nd_index n) (al_index a) t) as N. unfold TreeFaults.undone.
        destruct (in_add_node_alt (nd_index n) (al_index a) t) as [[c t']| |]; [discriminate|discriminate|destruct (N eq_refl)].
      + auto.
  Qed.
  Lemma psafe_add_all gh d n m : known_node gh n -> known_node gh m ->
    safe (pdid gh d (TAddAll n m) RChanged (fun _ => True)) gh d [] (q_add_all n m).
  Proof using Type*.
    intros Kn Ka. apply psafe_checked; [apply (pnode_has_tree F F0); exact Kn|apply (pnode_has_tree F F0); exact Ka|split; assumption| |].
    - intros w _ e X. cbn [TreeFaults.f_step]. unfold TreeFaults.f_add_all. rewrite X. reflexivity.
    - intros Eq gh1 I. apply psafe_with_mut with (f := TreeFaults.NoFault).
      + exact (phas_tree_incl F _ _ _ I (pnode_has_tree F F0 _ _ Kn)).
      + exact (can_call_incl gh gh1 (TAddAll n m) I (conj Kn Ka)).
      + exact F0.
      + intros w t E. cbn [TreeFaults.f_step]. unfold TreeFaults.f_add_all, TreeFaults.f_is_same, TreeFaults.p_with, TreeFaults.p_with_mut, TreeFaults.p_lock.
        rewrite <- Eq, E. destruct t as [t []]; cbn; [reflexivity|]. rewrite Nat.eqb_refl. reflexivity.
      + intro t. pose proof (in_add_all_fuel (nd_index n) (nd_index m) t) as N. unfold TreeFaults.undone.
        destruct (in_add_all (nd_index n) (nd_index m) t) as [[c t']| |]; [discriminate|discriminate|destruct (N eq_refl)].
      + auto.
  Qed.

  (** ** Reading *)
  Definition Fop (o : op) : hist -> hist -> list hold -> outcome val -> Prop :=
    fun _ d hs r => hs = [] /\ fparts o r (rev d).
  Lemma no_alt_call (o : op) : (forall h k v, o <> TMakeLeafNode h k v) -> (forall h x ns, o <> TMakeBranchNode h x ns) -> forall h ao, ~ alt_call o h ao.
  Proof using Type. intros N1 N2 h ao C. destruct C; [eapply N1|eapply N2]; reflexivity. Qed.
  Lemma psafe_pmap {A} gh (o : op) (g : A -> val) P p :
    (forall h k v, o <> TMakeLeafNode h k v) -> (forall h x ns, o <> TMakeBranchNode h x ns) ->
    safe (pdid gh [] o g P) gh [] [] p -> safe (Fop o) gh [] [] (pmap g p).
  Proof using Type.
    intros N1 N2 S. eapply psafe_bind; [exact S| | |].
    - intros gh1 d1 hs1 a (-> & [(a' & [= <-] & _ & ->)|(m & X & _)] & _); [|discriminate].
      apply ps_done. split; [reflexivity|]. apply fp_one. apply no_alt_call; assumption.
    - intros gh1 d1 hs1 m (-> & [(a' & X & _)|(m' & [= <-] & ->)] & _); [discriminate|].
      split; [reflexivity|]. apply fp_one. apply no_alt_call; assumption.
    - intros gh1 d1 hs1 (-> & [(a' & X & _)|(m' & X & _)] & _); discriminate.
  Qed.

  Lemma healthy_node gh (w : pwld) n t : frun gh w -> known_node gh n -> healthy w (nd_inner n) t -> exists is, get_node t (nd_index n) = Ret is.
  Proof using Type*.
    intros R K E. destruct (sim_lt F F0 _ _ R) as (tr0 & w0 & W & R0 & [_ S]).
    destruct (hi_node _ _ (run_inv _ _ R0) n (wp_known_node _ _ _ W K)) as (t' & E' & Ok).
    rewrite (S _ _ E) in E'. injection E' as <-. unfold node_ok in Ok. unfold get_node.
    destruct (nth_error (in_nodes t) (nd_index n)) as [is|] eqn:En; [exists is; reflexivity|apply nth_error_None in En; lia].
  Qed.
  Lemma healthy_alt gh (w : pwld) a t : frun gh w -> known_alt gh a -> healthy w (al_inner a) t -> exists c, get_alt t (al_index a) = Ret c.
  Proof using Type*.
    intros R K E. destruct (sim_lt F F0 _ _ R) as (tr0 & w0 & W & R0 & [_ S]).
    destruct (hi_alt _ _ (run_inv _ _ R0) a (wp_known_alt _ _ _ W K)) as (c & Ec). unfold wcont in Ec. rewrite (S _ _ E) in Ec.
    unfold acont in Ec. unfold get_alt. rewrite Ec. exists c. reflexivity.
  Qed.
  (** What was read before is there still. *)
  Lemma read_before gh (w : pwld) a t c : frun gh w -> In (TContent a, Ret (RContent (cext (al_inner a) c))) gh -> healthy w (al_inner a) t ->
    get_alt t (al_index a) = Ret c.
  Proof using Type*.
    intros R J E. destruct (sim_lt F F0 _ _ R) as (tr0 & w0 & W & R0 & [_ S]).
    pose proof (content_event tr0 w0 a _ R0 (wp_in _ _ _ _ W J)) as Ec. apply w_content_iff in Ec. destruct Ec as (c' & Ec & Ex).
    apply cext_inj in Ex. subst c'. unfold wcont in Ec. rewrite (S _ _ E) in Ec. unfold acont in Ec. unfold get_alt. rewrite Ec. reflexivity.
  Qed.

  Lemma psafe_alts gh d n : known_node gh n -> safe (pdid gh d (TAlts n) RAlts (fun _ => True)) gh d [] (p_alts n).
  Proof using Type*.
    intro Kn. unfold p_alts. eapply psafe_bind with (Q1 := fun gh' d' hs r => hs = [] /\ incl gh gh' /\ incl d' (d ++ gh') /\
      ((exists is, r = Ret is /\ d' = (TAlts n, Ret (RAlts (map (fun i => {| al_index := i; al_inner := nd_inner n |}) is))) :: d) \/
       (exists m, r = Panic m /\ d' = (TAlts n, Panic m) :: d))).
    - apply psafe_with; [apply (pnode_has_tree F F0); exact Kn|apply pall_nil|]. intros gh1 w t I R _ E. destruct t as [t []]; cbn [TreeFaults.pt_poisoned TreeFaults.pt_tree].
      + eapply ps_commit with (o := TAlts n) (r := Panic poison_text); [exact (known_node_incl _ _ _ I Kn)|exact F0| |].
        * intros gh2 w2 _ _ Ag. cbn [TreeFaults.f_step]. unfold TreeFaults.f_alts, TreeFaults.p_with, TreeFaults.p_lock.
          rewrite (Ag _ _ _ (or_introl eq_refl)). reflexivity.
        * apply ps_done. split; [reflexivity|]. split; [reflexivity|]. split; [apply incl_tl; exact I|]. split; [apply incl_one|]. right. eauto.
      + destruct (healthy_node gh1 w n t R (known_node_incl _ _ _ I Kn) E) as (is & En).
        eapply ps_commit with (o := TAlts n); [exact (known_node_incl _ _ _ I Kn)|exact F0| |].
        * intros gh2 w2 _ _ Ag. cbn [TreeFaults.f_step]. unfold TreeFaults.f_alts, TreeFaults.p_with, TreeFaults.p_lock.
          rewrite (Ag _ _ _ (or_introl eq_refl)). cbn. rewrite En. cbn. reflexivity.
        * apply ps_done. rewrite En. split; [reflexivity|]. split; [reflexivity|]. split; [apply incl_tl; exact I|]. split; [apply incl_one|]. left. eauto.
    - intros gh1 d1 hs1 is (-> & I & I' & [(is' & [= <-] & ->)|(m & X & _)]); [|discriminate]. apply ps_done. split; [reflexivity|]. split; [left; eauto|]. split; assumption.
    - intros gh1 d1 hs1 m (-> & I & I' & [(is & X & _)|(m' & [= <-] & ->)]); [discriminate|]. split; [reflexivity|]. split; [right; eauto|]. split; assumption.
    - intros gh1 d1 hs1 (-> & I & I' & [(is & X & _)|(m' & X & _)]); discriminate.
  Qed.

  (** Looking again at an alternative whose content was read before. *)
  Lemma psafe_look {A} f gh a (g : ContentInner T AK V -> outcome A) c d : F f -> known_alt gh a ->
    In (TContent a, Ret (RContent (cext (al_inner a) c))) gh ->
    (exists x, g c = Ret x) \/ (exists m, g c = Panic m /\ f = TreeFaults.InClone m) ->
    safe (fun gh' d' hs r => hs = [] /\ incl gh gh' /\
        ((exists x, r = Ret x /\ g c = Ret x /\ d' = d) \/ (exists m, r = Panic m /\ d' = (TContent a, Panic m) :: d))) gh d []
      (p_with (al_inner a) (fun t => Done (x <- get_alt t (al_index a) ;; g x))).
  Proof using Type*.
    intros Ff Ka J Cl. apply psafe_with; [apply (palt_has_tree F F0); exact Ka|apply pall_nil|]. intros gh1 w t I R _ E.
    destruct t as [t []]; cbn [TreeFaults.pt_poisoned TreeFaults.pt_tree].
    - eapply ps_commit with (o := TContent a) (r := Panic poison_text); [exact (known_alt_incl _ _ _ I Ka)|exact F0| |].
      + intros gh2 w2 _ _ Ag. cbn [TreeFaults.f_step]. unfold TreeFaults.f_content, TreeFaults.p_with, TreeFaults.p_lock.
        rewrite (Ag _ _ _ (or_introl eq_refl)). reflexivity.
      + apply ps_done. split; [reflexivity|]. split; [reflexivity|]. split; [apply incl_tl; exact I|]. right. eauto.
    - pose proof (read_before gh1 w a t c R (I _ J) E) as Ec. rewrite Ec. cbn [obind]. destruct Cl as [(x & Eg)|(m & Eg & ->)]; rewrite Eg.
      + apply ps_done. split; [reflexivity|]. split; [reflexivity|]. split; [exact I|]. left. eauto.
      + eapply ps_commit with (o := TContent a) (r := Panic m); [exact (known_alt_incl _ _ _ I Ka)|exact Ff| |].
        * intros gh2 w2 _ _ Ag. cbn [TreeFaults.f_step]. unfold TreeFaults.f_content, TreeFaults.p_with, TreeFaults.p_lock.
          rewrite (Ag _ _ _ (or_introl eq_refl)). cbn. rewrite Ec. reflexivity.
        * apply ps_done. split; [reflexivity|]. split; [reflexivity|]. split; [apply incl_tl; exact I|]. right. eauto.
  Qed.

  Lemma cloned_cases {A} f (x : A) : (exists y, cloned f x = Ret y) \/ (exists m, cloned f x = Panic m /\ f = TreeFaults.InClone m).
  Proof using Type. destruct f; cbn; eauto. Qed.
  Lemma cloned_ret {A} f (x y : A) : cloned f x = Ret y -> y = x.
  Proof using Type. destruct f; cbn; congruence. Qed.
  Lemma psafe_content f gh a : F f -> known_alt gh a -> safe (Fop (TContent a)) gh [] [] (pmap RContent (q_content f a)).
  Proof using Type*.
    intros Ff Ka.
    assert (One : forall r, fparts (TContent a) r [(TContent a, r)]) by (intro r; apply fp_one; apply no_alt_call; discriminate).
    unfold pmap. eapply psafe_bind with (Q1 := fun gh' d' hs r => hs = [] /\
        ((exists x, r = Ret x /\ fparts (TContent a) (Ret (RContent x)) (rev d')) \/ (exists m, r = Panic m /\ fparts (TContent a) (Panic m) (rev d')))).
    - unfold q_content.
      eapply psafe_bind with (Q1 := fun gh' d' hs r => hs = [] /\ incl gh gh' /\
        ((exists c, r = Ret (match c with CLeaf _ _ => true | CBranch _ _ => false end) /\
            d' = [(TContent a, Ret (RContent (cext (al_inner a) c)))] /\ In (TContent a, Ret (RContent (cext (al_inner a) c))) gh') \/
         (exists m, r = Panic m /\ d' = [(TContent a, Panic m)]))).
      + apply psafe_with; [apply (palt_has_tree F F0); exact Ka|apply pall_nil|]. intros gh1 w t I R _ E.
        destruct t as [t []]; cbn [TreeFaults.pt_poisoned TreeFaults.pt_tree].
        * eapply ps_commit with (o := TContent a) (r := Panic poison_text); [exact (known_alt_incl _ _ _ I Ka)|exact F0| |].
          -- intros gh2 w2 _ _ Ag. cbn [TreeFaults.f_step]. unfold TreeFaults.f_content, TreeFaults.p_with, TreeFaults.p_lock.
             rewrite (Ag _ _ _ (or_introl eq_refl)). reflexivity.
          -- apply ps_done. split; [reflexivity|]. split; [reflexivity|]. split; [apply incl_tl; exact I|]. right. eauto.
        * destruct (healthy_alt gh1 w a t R (known_alt_incl _ _ _ I Ka) E) as (c & Ec).
          eapply ps_commit with (o := TContent a) (r := Ret (RContent (cext (al_inner a) c))); [exact (known_alt_incl _ _ _ I Ka)|exact F0| |].
          -- intros gh2 w2 _ _ Ag. cbn [TreeFaults.f_step]. unfold TreeFaults.f_content, TreeFaults.p_with, TreeFaults.p_lock.
             rewrite (Ag _ _ _ (or_introl eq_refl)). cbn. rewrite Ec. destruct c; reflexivity.
          -- apply ps_done. rewrite Ec. cbn [obind]. split; [reflexivity|]. split; [reflexivity|]. split; [apply incl_tl; exact I|]. left.
             exists c. split; [reflexivity|]. split; [reflexivity|left; reflexivity].
      + intros gh1 d1 hs1 leaf (-> & I1 & [(c & [= ->] & -> & J)|(m & X & _)]); [|discriminate].
        assert (K1 : known_alt gh1 a) by exact (known_alt_incl _ _ _ I1 Ka).
        assert (Two : forall m, fparts (TContent a) (Panic m) (rev [(TContent a, Panic m); (TContent a, Ret (RContent (cext (al_inner a) c)))])) by (intro m; apply fp_reread).
        destruct c as [k v|x is].
        * eapply psafe_bind; [apply (psafe_look f gh1 a (fun c => match c with CLeaf k _ => cloned f k | CBranch _ _ => Panic _ end) (CLeaf k v) _ Ff K1 J (cloned_cases f k))| | |].
          -- intros gh2 d2 hs2 k' (-> & I2 & [(x & [= <-] & Ex & ->)|(m & X & _)]); [|discriminate]. apply cloned_ret in Ex. subst k'.
             eapply psafe_bind; [apply (psafe_look f gh2 a (fun c => match c with CLeaf _ v => Ret v | CBranch _ _ => Panic _ end) (CLeaf k v) _ Ff
               (known_alt_incl _ _ _ I2 K1) (I2 _ J)); left; eauto| | |].
             ++ intros gh3 d3 hs3 v' (-> & I3 & [(x & [= <-] & [= <-] & ->)|(m & X & _)]); [|discriminate].
                apply ps_done. split; [reflexivity|]. left. eexists. split; [reflexivity|]. apply One.
             ++ intros gh3 d3 hs3 m (-> & I3 & [(x & X & _)|(m' & [= <-] & ->)]); [discriminate|]. split; [reflexivity|]. right. eauto.
             ++ intros gh3 d3 hs3 (-> & I3 & [(x & X & _)|(m' & X & _)]); discriminate.
          -- intros gh3 d3 hs3 m (-> & I3 & [(x & X & _)|(m' & [= <-] & ->)]); [discriminate|]. split; [reflexivity|]. right. eauto.
          -- intros gh3 d3 hs3 (-> & I3 & [(x & X & _)|(m' & X & _)]); discriminate.
        * eapply psafe_bind; [apply (psafe_look f gh1 a (fun c => match c with CBranch x _ => cloned f x | CLeaf _ _ => Panic _ end) (CBranch x is) _ Ff K1 J (cloned_cases f x))| | |].
          -- intros gh2 d2 hs2 k' (-> & I2 & [(y & [= <-] & Ex & ->)|(m & X & _)]); [|discriminate]. apply cloned_ret in Ex. subst k'.
             eapply psafe_bind; [apply (psafe_look f gh2 a (fun c => match c with CBranch _ is => Ret is | CLeaf _ _ => Panic _ end) (CBranch x is) _ Ff
               (known_alt_incl _ _ _ I2 K1) (I2 _ J)); left; eauto| | |].
             ++ intros gh3 d3 hs3 v' (-> & I3 & [(y & [= <-] & [= <-] & ->)|(m & X & _)]); [|discriminate].
                apply ps_done. split; [reflexivity|]. left. eexists. split; [reflexivity|]. apply One.
             ++ intros gh3 d3 hs3 m (-> & I3 & [(y & X & _)|(m' & [= <-] & ->)]); [discriminate|]. split; [reflexivity|]. right. eauto.
             ++ intros gh3 d3 hs3 (-> & I3 & [(y & X & _)|(m' & X & _)]); discriminate.
          -- intros gh3 d3 hs3 m (-> & I3 & [(y & X & _)|(m' & [= <-] & ->)]); [discriminate|]. split; [reflexivity|]. right. eauto.
          -- intros gh3 d3 hs3 (-> & I3 & [(y & X & _)|(m' & X & _)]); discriminate.
      + intros gh1 d1 hs1 m (-> & I1 & [(c & X & _)|(m' & [= <-] & ->)]); [discriminate|]. split; [reflexivity|]. right. exists m. split; [reflexivity|]. apply One.
      + intros gh1 d1 hs1 (-> & I1 & [(c & X & _)|(m' & X & _)]); discriminate.
    - intros gh1 d1 hs1 x (-> & [(x' & [= <-] & P)|(m & X & _)]); [|discriminate]. apply ps_done. split; [reflexivity|exact P].
    - intros gh1 d1 hs1 m (-> & [(x' & X & _)|(m' & [= <-] & P)]); [discriminate|]. split; [reflexivity|exact P].
    - intros gh1 d1 hs1 (-> & [(x' & X & _)|(m' & X & _)]); discriminate.
  Qed.

  (** ** [make_leaf_node] and [make_branch_node] *)
  Lemma psafe_node_alt (gh : hist) h (o ao : op) (mk : pr Alternative) : alt_call o h ao -> known_tree gh h ->
    (forall gh' d, incl gh gh' -> safe (pdid gh' d ao RAlt (fun a => al_inner a = h)) gh' d [] mk) ->
    safe (Fop o) gh [] []
      (pmap RNode (pbind (q_make_node h) (fun node => pbind mk (fun a => pbind (q_add_alt node a) (fun _ => Done (Ret node)))))).
  Proof using Type*.
    intros C K Mk. unfold pmap.
    eapply psafe_bind with (Q1 := fun gh' d hs r => hs = [] /\
      ((exists n, r = Ret n /\ fparts o (Ret (RNode n)) (rev d)) \/ (exists m, r = Panic m /\ fparts o (Panic m) (rev d)))).
    - eapply psafe_bind; [apply psafe_make_node; exact K| | |].
      + intros gh1 d1 hs1 n (-> & [(n' & [= <-] & En & ->)|(m & X & _)] & I1 & J1); [|discriminate].
        assert (Kn : In (TMakeNode h, Ret (RNode n)) gh1) by (apply I1; left; reflexivity).
        eapply psafe_bind; [apply Mk; exact J1| | |].
        * intros gh2 d2 hs2 a (-> & [(a' & [= <-] & Ea & ->)|(m & X & _)] & I2 & J2); [|discriminate].
          assert (Kn2 : known_node gh2 n) by (left; exists (TMakeNode h); apply J2; exact Kn).
          assert (Ka2 : known_alt gh2 a).
          { left. exists ao. specialize (I2 _ (or_introl eq_refl)). apply in_app_or in I2. destruct I2 as [X|X]; [|exact X].
            destruct X as [X|[]]. injection X as _ X. discriminate. }
          eapply psafe_bind; [apply psafe_add_alt; [exact Kn2|exact Ka2]| | |].
          -- intros gh3 d3 hs3 c (-> & [(c' & [= <-] & _ & ->)|(m & X & _)] & _); [|discriminate].
             apply ps_done. split; [reflexivity|]. left. exists n. split; [reflexivity|]. cbn. eapply fp_node; exact C.
          -- intros gh3 d3 hs3 m (-> & [(c' & X & _)|(m' & [= <-] & ->)] & _); [discriminate|].
             split; [reflexivity|]. right. exists m. split; [reflexivity|]. cbn. eapply fp_panic3; exact C.
          -- intros gh3 d3 hs3 (-> & [(c' & X & _)|(m' & X & _)] & _); discriminate.
        * intros gh2 d2 hs2 m (-> & [(a' & X & _)|(m' & [= <-] & ->)] & I2 & J2); [discriminate|].
          split; [reflexivity|]. right. exists m. split; [reflexivity|]. cbn. eapply fp_panic2; exact C.
        * intros gh2 d2 hs2 (-> & [(a' & X & _)|(m' & X & _)] & _); discriminate.
      + intros gh1 d1 hs1 m (-> & [(c' & X & _)|(m' & [= <-] & ->)] & _); [discriminate|].
        split; [reflexivity|]. right. exists m. split; [reflexivity|]. cbn. eapply fp_panic1; exact C.
      + intros gh1 d1 hs1 (-> & [(c' & X & _)|(m' & X & _)] & _); discriminate.
    - intros gh1 d1 hs1 n (-> & [(n' & [= <-] & P)|(m & X & _)]); [|discriminate]. apply ps_done. split; [reflexivity|exact P].
    - intros gh1 d1 hs1 m (-> & [(n' & X & _)|(m' & [= <-] & P)]); [discriminate|]. split; [reflexivity|exact P].
    - intros gh1 d1 hs1 (-> & [(n' & X & _)|(m' & X & _)]); discriminate.
  Qed.

  Theorem fop_safe f gh (o : op) : F f -> can_call gh o -> safe (Fop o) gh [] [] (fop_prog f o).
  Proof using Type*.
    intros Ff K. destruct o; cbn [fop_prog]; cbn [can_call] in K.
    - unfold pmap, pbind, p_new_tree. cbn [pfinally]. apply ps_new. intros gh' w I R. apply ps_done. split; [reflexivity|].
      cbn. apply fp_one. apply no_alt_call; discriminate.
    - eapply psafe_pmap; [discriminate|discriminate|]. apply psafe_make_node. exact K.
    - eapply psafe_pmap; [discriminate|discriminate|]. apply psafe_make_alt; [exact K|exact K|exact Ff|reflexivity].
    - eapply psafe_pmap; [discriminate|discriminate|]. apply psafe_make_branch_alt; [exact Ff|apply K|apply K].
    - eapply psafe_node_alt; [apply ac_leaf|exact K|]. intros gh' d I. pose proof (known_tree_incl _ _ _ I K) as K'.
      apply psafe_make_alt; [exact K'|exact K'|exact Ff|reflexivity].
    - destruct K as [K Kn]. eapply psafe_node_alt; [apply ac_branch|exact K|]. intros gh' d I.
      apply psafe_make_branch_alt; [exact Ff|exact (known_tree_incl _ _ _ I K)|].
      eapply Forall_impl; [|exact Kn]. intros y Ky. exact (known_node_incl _ _ _ I Ky).
    - eapply psafe_pmap; [discriminate|discriminate|]. apply psafe_add_alt; apply K.
    - eapply psafe_pmap; [discriminate|discriminate|]. apply psafe_add_all; apply K.
    - eapply psafe_pmap; [discriminate|discriminate|]. apply psafe_alts. exact K.
    - apply psafe_content; [exact Ff|exact K].
  Qed.
  Lemma psafe_parts (o : op) gh d hs p (w : pwld) x d0 : safe (Fop o) gh d hs p -> frun gh w -> pagree w hs -> d = x :: d0 ->
    exists r more, fparts o r (rev d0 ++ x :: more).
  Proof using F0.
    intros Sf R Ag ->. destruct (psafe_ends F F0 _ _ _ _ _ Sf gh w (incl_refl _) R Ag) as (g2 & d' & h2 & r & _ & P).
    exists r, (rev d'). rewrite rev_app_distr in P. simpl in P. rewrite <- app_assoc in P. exact P.
  Qed.
End Ops.
