(** Programs of calls in which the caller's code may panic: they follow the locking discipline and do what their
    sequential counterparts do. *)
From Coq Require Import String List Arith Lia Bool.
From Verif.Model Require Import Ord BTree Outcome Utils Tree RwLock ThreadFaults.
From Verif.Model Require TreeFaults.
From Verif.Spec Require Import TreeSpec TreeFaultsSpec RwLockSpec ThreadFaultsSpec.
From Verif.Proofs Require Import OrdFacts BTreeFacts LoopFacts UtilsFacts TreeFacts TreeHist RwLockSafe TreeFaultsFacts.
Import ListNotations TreeFaults.

Section Safe.
  Context {T AK V : Type} `{OrdEq T} `{OrdEq AK} `{OrdEq V}.
  Local Notation tree := (Inner T AK V).
  Local Notation pt := (ptree T AK V).
  Local Notation pwld := (pworld T AK V).
  Local Notation hist := (history T AK V).
  Local Notation op := (tr_op T AK V).
  Local Notation val := (tr_val T AK V).
  Local Notation pr := (prog T AK V).
  Variable F : fault -> Prop.
  Hypothesis F0 : F NoFault.
  Local Notation frun := (frun_of F).

  Lemma frun_of_frun tr (pw : pwld) : frun tr pw -> TreeFaultsSpec.frun tr pw.
  Proof using Type. intro R. induction R; [constructor|econstructor; eassumption]. Qed.

  (** A guard: write or read, of which tree, with what it protects. *)
  Definition phold : Type := bool * TreeHandle * pt.
  Definition pagree (w : pwld) (hs : list phold) : Prop := forall m h t, In (m, h, t) hs -> nth_error w h = Some t.
  Definition phas_tree (gh : hist) (h : TreeHandle) : Prop :=
    forall gh' (w : pwld), incl gh gh' -> frun gh' w -> exists t, nth_error w h = Some t.

  Definition pall_reads (hs : list phold) : Prop := forall m h t, In (m, h, t) hs -> m = false.

  Inductive psafe {A} (Q : hist -> hist -> list phold -> outcome A -> Prop) : hist -> hist -> list phold -> pr A -> Prop :=
  | ps_done gh d hs r : Q gh d hs r -> psafe Q gh d hs (Done r)
  | ps_new gh d k :
      (forall gh' w, incl gh gh' -> frun gh' w ->
        psafe Q ((TNewTree, Ret (RHandle (length w))) :: gh') ((TNewTree, Ret (RHandle (length w))) :: d) [] (k (length w))) ->
      psafe Q gh d [] (New k)
  | ps_rlock gh d hs h k : phas_tree gh h /\ pall_reads hs ->
      (forall gh' w t, incl gh gh' -> frun gh' w -> pagree w hs -> nth_error w h = Some t -> psafe Q gh' d ((false, h, t) :: hs) (k (pt_poisoned t))) ->
      psafe Q gh d hs (RLock h k)
  | ps_runlock gh d hs h t k : psafe Q gh d hs k -> psafe Q gh d ((false, h, t) :: hs) (RUnlock h k)
  | ps_wlock gh d h k : phas_tree gh h ->
      (forall gh' w t, incl gh gh' -> frun gh' w -> nth_error w h = Some t -> psafe Q gh' d [(true, h, t)] (k (pt_poisoned t))) ->
      psafe Q gh d [] (WLock h k)
  | ps_wunlock gh d h t k : psafe Q gh d [] k -> psafe Q gh d [(true, h, t)] (WUnlock h (pt_poisoned t) k)
  | ps_get gh d hs m h t k : In (m, h, t) hs -> psafe Q gh d hs (k (pt_tree t)) -> psafe Q gh d hs (Get h k)
  | ps_put gh d h t t' b k f o r : pt_poisoned t = false -> can_call gh o -> F f ->
      (forall w, nth_error w h = Some t -> f_step f w o = (r, list_set w h {| pt_tree := t'; pt_poisoned := b |})) ->
      psafe Q ((o, r) :: gh) ((o, r) :: d) [(true, h, {| pt_tree := t'; pt_poisoned := b |})] k ->
      psafe Q gh d [(true, h, t)] (Put h t' k)
  | ps_commit gh d hs p f o r : can_call gh o -> F f ->
      (forall gh' w, incl gh gh' -> frun gh' w -> pagree w hs -> f_step f w o = (r, w)) ->
      psafe Q ((o, r) :: gh) ((o, r) :: d) hs p ->
      psafe Q gh d hs p.

  Lemma phas_tree_incl (gh gh' : hist) h : incl gh gh' -> phas_tree gh h -> phas_tree gh' h.
  Proof using Type. intros I A gh2 w I2 R. apply (A gh2 w); [eapply incl_tran; eauto|exact R]. Qed.

  Lemma psafe_mono {A} (Q : hist -> hist -> list phold -> outcome A -> Prop) gh d hs p :
    (forall gh gh' d hs r, incl gh gh' -> Q gh d hs r -> Q gh' d hs r) ->
    psafe Q gh d hs p -> forall gh', incl gh gh' -> psafe Q gh' d hs p.
  Proof using Type.
    intros M S. induction S as [gh d hs r q|gh d k X IH|gh d hs h k Ht X IH|gh d hs h t k S IH|gh d h k Ht X IH|gh d h t k S IH|gh d hs m h t k J S IH
      |gh d h t t' b k f o r E K Ff St S IH|gh d hs p f o r K Ff St S IH]; intros gh2 I.
    - apply ps_done. eauto.
    - apply ps_new. intros gh3 w I3 R. eapply X; [|exact R]. eapply incl_tran; eauto.
    - apply ps_rlock; [split; [eapply phas_tree_incl; [eauto|apply Ht]|apply Ht]|]. intros gh3 w t I3 R Ag E.
      eapply X; [|exact R|exact Ag|exact E]. eapply incl_tran; eauto.
    - apply ps_runlock. auto.
    - apply ps_wlock; [eapply phas_tree_incl; eauto|]. intros gh3 w t I3 R E.
      eapply X; [|exact R|exact E]. eapply incl_tran; eauto.
    - apply ps_wunlock. auto.
    - eapply ps_get; eauto.
    - eapply ps_put; [exact E|eapply can_call_incl; eauto|exact Ff|eassumption|]. apply IH. apply incl_cons; [left; reflexivity|apply incl_tl; exact I].
    - eapply ps_commit; [eapply can_call_incl; eauto|exact Ff| |].
      + intros gh3 w I3 R G. apply (St gh3 w); [eapply incl_tran; eauto|exact R|exact G].
      + apply IH. apply incl_cons; [left; reflexivity|apply incl_tl; exact I].
  Qed.

  Lemma psafe_finally {A B} (Q1 : hist -> hist -> list phold -> outcome A -> Prop)
    (Q2 : hist -> hist -> list phold -> outcome B -> Prop) gh d hs p f :
    psafe Q1 gh d hs p -> (forall gh' d' hs' r, Q1 gh' d' hs' r -> psafe Q2 gh' d' hs' (f r)) ->
    psafe Q2 gh d hs (pfinally p f).
  Proof using Type.
    intros S X. induction S; cbn [pfinally]; auto.
    - apply ps_new. auto.
    - apply ps_rlock; eauto.
    - apply ps_runlock. auto.
    - apply ps_wlock; eauto.
    - apply ps_wunlock. auto.
    - eapply ps_get; eauto.
    - eapply ps_put; eauto.
    - eapply ps_commit; eauto.
  Qed.
  Lemma psafe_bind {A B} (Q1 : hist -> hist -> list phold -> outcome A -> Prop)
    (Q2 : hist -> hist -> list phold -> outcome B -> Prop) gh d hs p f :
    psafe Q1 gh d hs p ->
    (forall gh' d' hs' a, Q1 gh' d' hs' (Ret a) -> psafe Q2 gh' d' hs' (f a)) ->
    (forall gh' d' hs' m, Q1 gh' d' hs' (Panic m) -> Q2 gh' d' hs' (Panic m)) ->
    (forall gh' d' hs', ~ Q1 gh' d' hs' NoFuel) ->
    psafe Q2 gh d hs (pbind p f).
  Proof using Type.
    intros S X P N. apply (psafe_finally Q1 Q2 _ _ _ _ _ S). intros gh' d' hs' [a|m|] Y; [auto|apply ps_done; auto|destruct (N _ _ _ Y)].
  Qed.
  Lemma psafe_weaken {A} (Q1 Q2 : hist -> hist -> list phold -> outcome A -> Prop) gh d hs p :
    psafe Q1 gh d hs p -> (forall gh' d' hs' r, Q1 gh' d' hs' r -> Q2 gh' d' hs' r) -> psafe Q2 gh d hs p.
  Proof using Type.
    intros S M. induction S.
    - apply ps_done. auto.
    - apply ps_new. auto.
    - apply ps_rlock; eauto.
    - apply ps_runlock. auto.
    - apply ps_wlock; eauto.
    - apply ps_wunlock. auto.
    - eapply ps_get; eauto.
    - eapply ps_put; eauto.
    - eapply ps_commit; eauto.
  Qed.

  (** A program that follows the discipline can come to its end. *)
  Lemma psafe_ends {A} (Q : hist -> hist -> list phold -> outcome A -> Prop) gh d hs p : psafe Q gh d hs p ->
    forall gh' w, incl gh gh' -> frun gh' w -> pagree w hs -> exists gh2 d' hs2 r, Q gh2 (d' ++ d) hs2 r.
  Proof using F0.
    assert (Snoc : forall (x : op * outcome val) (d' e : hist), d' ++ x :: e = (d' ++ [x]) ++ e) by (intros; rewrite <- app_assoc; reflexivity).
    intro Sf. induction Sf as [gh d hs r q|gh d k X IH|gh d hs h k Ht X IH|gh d hs h t k S IH|gh d h k Ht X IH|gh d h t k S IH|gh d hs m h t k J S IH
      |gh d h t t' b k f o r E K Ff St S IH|gh d hs p f o r K Ff St S IH]; intros gh' w I R Ag.
    - exists gh, [], hs, r. exact q.
    - destruct (IH gh' w I R ((TNewTree, Ret (RHandle (length w))) :: gh') (w ++ [{| pt_tree := in_new; pt_poisoned := false |}])%list) as (g2 & d' & h2 & r & q).
      + apply incl_refl.
      + eapply fo_step; [exact R|exact Logic.I|exact F0|reflexivity].
      + intros m h t [].
      + rewrite Snoc in q. eauto.
    - destruct (proj1 Ht gh' w I R) as (t & E). destruct (IH gh' w t I R Ag E gh' w (incl_refl _) R) as (g2 & d' & h2 & r & q); [|eauto].
      intros m h' t' [[= <- <- <-]|J]; [exact E|eapply Ag; eauto].
    - apply (IH gh' w I R). intros m h' t' J. apply (Ag m h' t'). right; exact J.
    - destruct (Ht gh' w I R) as (t & E). destruct (IH gh' w t I R E gh' w (incl_refl _) R) as (g2 & d' & h2 & r & q); [|eauto].
      intros m h' t' [[= <- <- <-]|[]]; exact E.
    - apply (IH gh' w I R). intros m h' t' [].
    - apply (IH gh' w I R). exact Ag.
    - assert (Et : nth_error w h = Some t) by (apply (Ag true); left; reflexivity).
      destruct (IH ((o, r) :: gh') (list_set w h {| pt_tree := t'; pt_poisoned := b |})) as (g2 & d' & h2 & r2 & q).
      + intros x [<-|J]; [left; reflexivity|right; apply I; exact J].
      + eapply fo_step; [exact R|exact (can_call_incl _ _ _ I K)|exact Ff|apply St; exact Et].
      + intros m h' t2 [[= <- <- <-]|[]]. rewrite nth_list_set, Nat.eqb_refl, Et. reflexivity.
      + rewrite Snoc in q. eauto.
    - destruct (IH ((o, r) :: gh') w) as (g2 & d' & h2 & r2 & q).
      + intros x [<-|J]; [left; reflexivity|right; apply I; exact J].
      + eapply fo_step; [exact R|exact (can_call_incl _ _ _ I K)|exact Ff|apply (St gh'); assumption].
      + exact Ag.
      + rewrite Snoc in q. eauto.
  Qed.

  (** ** Facts about held handles *)
  Lemma sim_lt tr (w : pwld) : frun tr w -> exists tr0 w0, without_panics tr tr0 /\ run tr0 w0 /\ sim w w0.
  Proof using Type*. intro R. apply frun_sim. apply frun_of_frun. exact R. Qed.
  Lemma lt_tree {X} (w : list X) h : h < length w -> exists t, nth_error w h = Some t.
  Proof using Type. intro L. destruct (nth_error w h) as [t|] eqn:E; [eauto|]. apply nth_error_None in E. lia. Qed.
  Lemma pknown_has_tree gh h : known_tree gh h -> phas_tree gh h.
  Proof using Type*.
    intros K gh' w I R. destruct (sim_lt _ _ R) as (tr0 & w0 & W & R0 & S). apply lt_tree. rewrite (sim_len _ _ S).
    apply (hi_tree _ _ (run_inv _ _ R0)). eapply wp_tree; [exact W|]. eapply known_tree_incl; eauto.
  Qed.
  Lemma pnode_has_tree gh n : known_node gh n -> phas_tree gh (nd_inner n).
  Proof using Type*.
    intros K gh' w I R. destruct (sim_lt _ _ R) as (tr0 & w0 & W & R0 & S). apply lt_tree. rewrite (sim_len _ _ S).
    destruct (hi_node _ _ (run_inv _ _ R0) n) as (t & E & _); [eapply wp_known_node; [exact W|eapply known_node_incl; eauto]|].
    apply nth_error_Some. congruence.
  Qed.
  Lemma palt_has_tree gh a : known_alt gh a -> phas_tree gh (al_inner a).
  Proof using Type*.
    intros K gh' w I R. destruct (sim_lt _ _ R) as (tr0 & w0 & W & R0 & S). apply lt_tree. rewrite (sim_len _ _ S).
    destruct (hi_alt _ _ (run_inv _ _ R0) a) as (c & E); [eapply wp_known_alt; [exact W|eapply known_alt_incl; eauto]|].
    unfold wcont in E. apply nth_error_Some. destruct (nth_error w0 (al_inner a)); congruence.
  Qed.
End Safe.
