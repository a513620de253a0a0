(** Every configuration reached with panics of the caller's code comes with a sequential history that explains it. *)
From Coq Require Import String List Arith Lia Bool.
From Verif.Model Require Import Ord BTree Outcome Utils Tree RwLock ThreadFaults.
From Verif.Model Require TreeFaults.
From Verif.Spec Require Import TreeSpec TreeFaultsSpec RwLockSpec ThreadFaultsSpec.
From Verif.Proofs Require Import OrdFacts BTreeFacts LoopFacts UtilsFacts TreeFacts TreeHist RwLockSafe RwLockInv TreeFaultsFacts ThreadFaultsSafe ThreadFaultsOps.
Import ListNotations.

Section Inv.
  Context {T AK V : Type} `{OrdEq T} `{OrdEq AK} `{OrdEq V}.
  Local Notation tree := (Inner T AK V).
  Local Notation fault := TreeFaults.fault.
  Local Notation pt := (TreeFaults.ptree T AK V).
  Local Notation pwld := (TreeFaults.pworld T AK V).
  Local Notation hist := (history T AK V).
  Local Notation op := (tr_op T AK V).
  Local Notation val := (tr_val T AK V).
  Local Notation pr := (prog T AK V).
  Local Notation cfg := (config T AK V).
  Local Notation hold := (@phold T AK V).
  Local Notation lst := (list (lin_event T AK V)).
  Local Notation f_step := TreeFaults.f_step.
  Local Notation pt_poisoned := TreeFaults.pt_poisoned.
  Local Notation pt_tree := TreeFaults.pt_tree.
  Variable F : fault -> Prop.
  Hypothesis F0 : F TreeFaults.NoFault.
  Local Notation frun := (frun_of F).
  Local Notation safe := (psafe F).
  (** Anything else that the calls one after the other keep. *)
  Variable Jv : hist -> pwld -> Prop.
  Hypothesis JS : forall tr pw f o r pw', frun tr pw -> Jv tr pw -> can_call tr o -> F f -> f_step f pw o = (r, pw') -> Jv ((o, r) :: tr) pw'.
  Definition jrun (tr : hist) (pw : pwld) : Prop := frun tr pw /\ Jv tr pw.
  Lemma jrun_step tr pw f o r pw' : jrun tr pw -> can_call tr o -> F f -> f_step f pw o = (r, pw') -> jrun ((o, r) :: tr) pw'.
  Proof using JS. intros [R Q] K Ff St. split; [eapply fo_step; eassumption|eapply JS; eassumption]. Qed.

  Definition preads (h : TreeHandle) (x : hold) : bool := match x with (false, h', _) => Nat.eqb h' h | _ => false end.
  Definition prd_count (h : TreeHandle) (hs : list hold) : nat := length (filter (preads h) hs).

  Record plock_ok (thr : nat -> tstate T AK V) (hs : nat -> list hold) (pw : pwld) (h : TreeHandle) (l : lock) : Prop := {
    pl_poison : poisoned l = true -> exists t, nth_error pw h = Some t /\ pt_poisoned t = true;
    pl_free : writer l = None -> forall t, nth_error pw h = Some t -> pt_poisoned t = poisoned l;
    pl_read : forall i, count_occ Nat.eq_dec (readers l) i = prd_count h (hs i);
    pl_write : forall i, writer l = Some i <-> exists t, In (true, h, t) (hs i);
    pl_excl : writer l <> None -> readers l = [];
    pl_nodup : NoDup (waiting l);
    pl_wait : forall i, In i (waiting l) -> exists o k, thr i = Running o (WLock h k)
  }.

  Record pgood (c : cfg) (L : lst) (st : nat -> option (op * hist)) (hs : nat -> list hold) (pw : pwld) : Prop := {
    pg_lin : flin L st;
    pg_erase : erase L = c_trace c;
    pg_run : jrun (effects L) pw;
    pg_world : map pt_tree pw = c_world c;
    pg_known : known_ret (c_trace c) (effects L);
    pg_idle : forall i, c_thread c i = Idle -> st i = None /\ hs i = [];
    pg_running : forall i o p, c_thread c i = Running o p ->
      exists d, st i = Some (o, d) /\ incl d (effects L) /\ safe (Fop o) (effects L) d (hs i) p;
    pg_agree : forall i, pagree pw (hs i);
    pg_lock : forall h, plock_ok (c_thread c) hs pw h (c_lock c h)
  }.

  Lemma Fop_mono (o : op) : forall gh gh' d hs r, incl gh gh' -> Fop o gh d hs r -> Fop o gh' d hs r.
  Proof using Type. intros gh gh' d hs r _ Q. exact Q. Qed.

  (** ** One more effect *)
  Lemma pgood_effect c L st hs pw i o d f o' r' :
    pgood c L st hs pw -> st i = Some (o, d) -> can_call (effects L) o' -> F f -> f_step f pw o' = (r', pw) ->
    (exists p, c_thread c i = Running o p /\ safe (Fop o) ((o', r') :: effects L) ((o', r') :: d) (hs i) p) ->
    pgood c (LEffect i o' r' :: L) (upd st i (Some (o, (o', r') :: d))) hs pw.
  Proof using F0 JS.
    intros G E K Ff St (p0 & Ep0 & Sf). destruct G as [Gl Ge Gr Gw Gk Gi Gu Ga Gc].
    assert (R1 : jrun ((o', r') :: effects L) pw) by (eapply jrun_step; eassumption). constructor; auto.
    - apply fl_effect; [assumption|assumption|]. exact (psafe_parts F F0 _ _ _ _ _ _ _ _ Sf (proj1 R1) (Ga i) eq_refl).
    - intros o1 r1 J. destruct (Gk o1 r1 J) as [X|[X|(n & o2 & X & Y)]]; [left; right; exact X|right; left; exact X|].
      right; right. exists n, o2. split; [exact X|right; exact Y].
    - intros j Ej. destruct (Gi j Ej) as [A B]. split; [|exact B]. destruct (Nat.eq_dec j i) as [->|N]; [congruence|].
      rewrite upd_other by exact N. exact A.
    - intros j o1 p Ej. destruct (Gu j o1 p Ej) as (d1 & A & I & S). destruct (Nat.eq_dec j i) as [->|N].
      + rewrite E in A. injection A as <- <-. rewrite upd_same. eexists. split; [reflexivity|]. split; [|rewrite Ep0 in Ej; injection Ej as <-; exact Sf].
        apply incl_cons; [left; reflexivity|apply incl_tl; exact I].
      + rewrite upd_other by exact N. exists d1. split; [exact A|]. split; [apply incl_tl; exact I|].
        eapply psafe_mono; [apply Fop_mono|exact S|apply incl_tl, incl_refl].
  Qed.

  (** ** What a program is about to do, after the effects it already had *)
  Definition pshape (Q : hist -> hist -> list hold -> outcome val -> Prop) (gh d : hist) (hs : list hold) (p : pr val) : Prop :=
    match p with
    | Done r => Q gh d hs r
    | New k => hs = [] /\ forall w, frun gh w ->
        safe Q ((TNewTree, Ret (RHandle (length w))) :: gh) ((TNewTree, Ret (RHandle (length w))) :: d) [] (k (length w))
    | RLock h k => (phas_tree F gh h /\ pall_reads hs) /\
        forall w t, frun gh w -> pagree w hs -> nth_error w h = Some t -> safe Q gh d ((false, h, t) :: hs) (k (pt_poisoned t))
    | RUnlock h k => exists t hs', hs = (false, h, t) :: hs' /\ safe Q gh d hs' k
    | WLock h k => hs = [] /\ phas_tree F gh h /\
        forall w t, frun gh w -> nth_error w h = Some t -> safe Q gh d [(true, h, t)] (k (pt_poisoned t))
    | WUnlock h b k => exists t, hs = [(true, h, t)] /\ b = pt_poisoned t /\ safe Q gh d [] k
    | Get h k => exists m t, In (m, h, t) hs /\ safe Q gh d hs (k (pt_tree t))
    | Put h t' k => exists t b f o r, hs = [(true, h, t)] /\ pt_poisoned t = false /\ can_call gh o /\ F f /\
        (forall w, nth_error w h = Some t -> f_step f w o = (r, list_set w h {| TreeFaults.pt_tree := t'; TreeFaults.pt_poisoned := b |})) /\
        safe Q ((o, r) :: gh) ((o, r) :: d) [(true, h, {| TreeFaults.pt_tree := t'; TreeFaults.pt_poisoned := b |})] k
    end.

  Lemma psafe_normal Q gh d hs p : safe Q gh d hs p ->
    forall c L st hst pw i o, pgood c L st hst pw -> c_thread c i = Running o p -> st i = Some (o, d) -> hst i = hs ->
      effects L = gh -> Q = Fop o ->
      exists E st' d', pgood c (E ++ L) st' hst pw /\ st' i = Some (o, d') /\ incl d' (effects (E ++ L)) /\ pshape Q (effects (E ++ L)) d' hs p.
  Proof using F0 JS.
    intros Sf. induction Sf as [gh d hs r q|gh d k X IH|gh d hs h k Ht X IH|gh d hs h t k S IH|gh d h k Ht X IH|gh d h t k S IH|gh d hs m h t k J S IH
      |gh d h t t' b k f o r E K Ff St S IH|gh d hs p f o r K Ff St S IH]; intros c L st hst pw i oo G Et Es Eh El Eq; subst.
    1-8: (exists [], st, d; split; [exact G|]; split; [exact Es|]; split;
           [destruct (pg_running _ _ _ _ _ G _ _ _ Et) as (d2 & A & B & _); rewrite Es in A; injection A as <-; exact B|]; cbn [pshape]).
    - assumption.
    - split; [congruence|]. intros w R. apply (X (effects L) w); [apply incl_refl|exact R].
    - split; [assumption|]. intros w t R Ag E. apply (X (effects L) w t); [apply incl_refl|exact R|exact Ag|exact E].
    - eexists. eexists. split; [eassumption || reflexivity|]. exact S.
    - split; [congruence|]. split; [assumption|]. intros w t R E. apply (X (effects L) w t); [apply incl_refl|exact R|exact E].
    - eexists. split; [eassumption || reflexivity|]. split; [reflexivity|exact S].
    - eauto.
    - do 5 eexists. split; [eassumption || reflexivity|]. split; [exact E|]. split; [eassumption|]. split; [eassumption|]. split; [eassumption|exact S].
    - assert (G' : pgood c (LEffect i o r :: L) (upd st i (Some (oo, (o, r) :: d))) hst pw).
      { eapply pgood_effect; [exact G|exact Es|assumption|exact Ff| |].
        - apply (St (effects L)); [apply incl_refl|apply (proj1 (pg_run _ _ _ _ _ G))|apply (pg_agree _ _ _ _ _ G)].
        - eexists. split; [exact Et|exact S]. }
      destruct (IH c _ _ hst pw i oo G' Et) as (E & Y); [apply upd_same|reflexivity|reflexivity|reflexivity|].
      exists (E ++ [LEffect i o r]). rewrite <- app_assoc. exact Y.
  Qed.
  Lemma pnormal c L st hs pw i o p : pgood c L st hs pw -> c_thread c i = Running o p ->
    exists E st' d, pgood c (E ++ L) st' hs pw /\ st' i = Some (o, d) /\ incl d (effects (E ++ L)) /\ pshape (Fop o) (effects (E ++ L)) d (hs i) p.
  Proof using F0 JS.
    intros G E. destruct (pg_running _ _ _ _ _ G _ _ _ E) as (d & A & B & S).
    eapply psafe_normal; eauto.
  Qed.

  (** ** Locks *)
  Lemma prd_count_pos h hs (x : pt) : In (false, h, x) hs -> prd_count h hs <> 0.
  Proof using Type.
    intros J E. unfold prd_count in E. apply length_zero_iff_nil in E.
    assert (X : In (false, h, x) (filter (preads h) hs)) by (apply filter_In; split; [exact J|simpl; apply Nat.eqb_refl]).
    rewrite E in X. destruct X.
  Qed.
  Lemma pexcl c L st hs pw i j m h t t' : pgood c L st hs pw -> In (true, h, t) (hs i) -> In (m, h, t') (hs j) -> j = i.
  Proof using Type.
    intros G Ji Jj. pose proof (pg_lock _ _ _ _ _ G h) as Lk.
    assert (W : writer (c_lock c h) = Some i) by (apply (pl_write _ _ _ _ _ Lk); eauto).
    destruct m.
    - assert (W' : writer (c_lock c h) = Some j) by (apply (pl_write _ _ _ _ _ Lk); eauto). congruence.
    - pose proof (pl_read _ _ _ _ _ Lk j) as C. rewrite (pl_excl _ _ _ _ _ Lk) in C by congruence.
      symmetry in C. destruct (prd_count_pos _ _ _ Jj C).
  Qed.
  Lemma pnot_waiting c L st hs pw i o p h : pgood c L st hs pw -> c_thread c i = Running o p -> (forall k, p <> WLock h k) ->
    ~ In i (waiting (c_lock c h)).
  Proof using Type. intros G E N J. destruct (pl_wait _ _ _ _ _ (pg_lock _ _ _ _ _ G h) i J) as (o' & k & E'). rewrite E in E'. injection E' as _ X. exact (N _ X). Qed.

  (** Nothing about the lock changes, except that thread [i] has gone on. *)
  Lemma plock_ok_goto (thr : nat -> tstate T AK V) hs pw pw' h l i x hsi : plock_ok thr hs pw h l -> ~ In i (waiting l) ->
    nth_error pw' h = nth_error pw h ->
    prd_count h hsi = prd_count h (hs i) -> ((exists t, In (true, h, t) hsi) <-> (exists t, In (true, h, t) (hs i))) ->
    plock_ok (upd thr i x) (upd hs i hsi) pw' h l.
  Proof using Type.
    intros [P Fr R W X N Wt] Ni En Er Ew. constructor; auto.
    - rewrite En. exact P.
    - rewrite En. exact Fr.
    - intro j. rewrite R. destruct (Nat.eq_dec j i) as [->|Ne]; [rewrite upd_same; auto|rewrite upd_other by exact Ne; reflexivity].
    - intro j. rewrite W. destruct (Nat.eq_dec j i) as [->|Ne]; [rewrite upd_same; symmetry; exact Ew|rewrite upd_other by exact Ne; reflexivity].
    - intros j J. destruct (Nat.eq_dec j i) as [->|Ne]; [contradiction|rewrite upd_other by exact Ne; auto].
  Qed.

  (** The parts of the invariant about threads, when thread [i] goes on. *)
  Lemma pgood_goto c L st hs pw i o p d p' w' pw' ls' L' st' hsi' :
    pgood c L st hs pw -> c_thread c i = Running o p -> st i = Some (o, d) -> incl d (effects L) ->
    (L' = L /\ st' = st /\ safe (Fop o) (effects L) d hsi' p' \/
     exists o' r', L' = LEffect i o' r' :: L /\ st' = upd st i (Some (o, (o', r') :: d)) /\
       safe (Fop o) ((o', r') :: effects L) ((o', r') :: d) hsi' p') ->
    jrun (effects L') pw' -> map pt_tree pw' = w' ->
    pagree pw' hsi' -> (forall j, j <> i -> pagree pw' (hs j)) ->
    (forall h, plock_ok (upd (c_thread c) i (Running o p')) (upd hs i hsi') pw' h (ls' h)) ->
    exists E st' hs' pw', pgood {| c_world := w'; c_lock := ls'; c_thread := upd (c_thread c) i (Running o p'); c_trace := c_trace c |} (E ++ L) st' hs' pw'.
  Proof using F0 JS.
    intros G Et Es Id Sf R Mw Ai Aj Lk.
    assert (X : exists E, L' = E ++ L) by (destruct Sf as [(-> & _)|(o' & r' & -> & _)]; [exists []|exists [LEffect i o' r']]; reflexivity).
    destruct X as (E & EL). exists E, st', (upd hs i hsi'), pw'. rewrite <- EL. clear E EL.
    assert (I : incl (effects L) (effects L')).
    { destruct Sf as [(-> & _)|(o' & r' & -> & _)]; [apply incl_refl|simpl; apply incl_tl, incl_refl]. }
    assert (Sn : forall j, j <> i -> st' j = st j).
    { intros j N. destruct Sf as [(_ & -> & _)|(o' & r' & _ & -> & _)]; [reflexivity|apply upd_other; exact N]. }
    destruct G as [Gl Ge Gr Gw Gk Gi Gu Ga Gc]. constructor; cbn [c_world c_lock c_thread c_trace]; auto.
    - destruct Sf as [(-> & -> & _)|(o' & r' & -> & -> & S)]; [exact Gl|apply fl_effect; [assumption|assumption|]].
      exact (psafe_parts F F0 _ _ _ _ _ _ _ _ S (proj1 R) Ai eq_refl).
    - destruct Sf as [(-> & _)|(o' & r' & -> & _)]; [exact Ge|exact Ge].
    - intros o1 r1 J. destruct (Gk o1 r1 J) as [X|[X|(n & o2 & X & Y)]]; [left; auto|auto|right; right; eauto].
    - intros j. destruct (Nat.eq_dec j i) as [->|N]; [rewrite upd_same; discriminate|]. rewrite !upd_other by exact N.
      intro E. destruct (Gi j E) as [A B]. rewrite (Sn j N). split; assumption.
    - intros j o1 p1. destruct (Nat.eq_dec j i) as [->|N].
      + rewrite !upd_same. intros [= <- <-]. destruct Sf as [(-> & -> & S)|(o' & r' & -> & -> & S)].
        * exists d. split; [exact Es|]. split; [exact Id|exact S].
        * rewrite upd_same. eexists. split; [reflexivity|]. split; [|exact S]. simpl. apply incl_cons; [left; reflexivity|apply incl_tl; exact Id].
      + rewrite !upd_other by exact N. intro E. destruct (Gu j o1 p1 E) as (d1 & A & B & S). exists d1. rewrite (Sn j N).
        split; [exact A|]. split; [eapply incl_tran; eauto|]. eapply psafe_mono; [apply Fop_mono|exact S|exact I].
    - intros j. destruct (Nat.eq_dec j i) as [->|N]; [rewrite upd_same; exact Ai|rewrite upd_other by exact N; auto].
  Qed.

  Lemma pwrite_cons (h h' : TreeHandle) (b : bool) (t : pt) hs : b = false \/ h' <> h ->
    (exists t1 : pt, In (true, h, t1) ((b, h', t) :: hs)) <-> (exists t1 : pt, In (true, h, t1) hs).
  Proof using Type.
    intro N. split; intros (t0 & J).
    - destruct J as [E|J]; [|eauto]. injection E as -> -> _. destruct N as [N|N]; [discriminate|congruence].
    - exists t0. right. exact J.
  Qed.
  Lemma prd_count_cons h h' b t hs : b = true \/ h' <> h -> prd_count h ((b, h', t) :: hs) = prd_count h hs.
  Proof using Type.
    intros [->|N]; unfold prd_count; simpl; [reflexivity|]. destruct b; [reflexivity|].
    rewrite (proj2 (Nat.eqb_neq _ _) N). reflexivity.
  Qed.
  Lemma map_set (pw : pwld) h (t : tree) b : map pt_tree (list_set pw h {| TreeFaults.pt_tree := t; TreeFaults.pt_poisoned := b |}) = w_set (map pt_tree pw) h t.
  Proof using Type.
    unfold w_set. revert h. induction pw as [|x pw IH]; intros [|h]; cbn; try reflexivity. rewrite IH. reflexivity.
  Qed.

  Lemma pthread_step_good wp c c' L st hs pw i : pgood c L st hs pw -> thread_step wp i c = Some c' ->
    exists E st' hs' pw', pgood c' (E ++ L) st' hs' pw'.
  Proof using F0 JS.
    intros G0 Ts. unfold thread_step in Ts. destruct (c_thread c i) as [|o p] eqn:Et; [discriminate|].
    destruct (pnormal _ _ _ _ _ _ _ _ G0 Et) as (E1 & st1 & d & G & Es & Id & Sh). clear G0.
    cut (exists E st' hs' pw', pgood c' (E ++ (E1 ++ L)) st' hs' pw').
    { intros (E & a & b & pw' & X). exists (E ++ E1), a, b, pw'. rewrite <- app_assoc. exact X. }
    remember (E1 ++ L) as L1 eqn:EL1. clear L st E1 EL1.
    pose proof (fun h N => pnot_waiting _ _ _ _ _ _ _ _ h G Et N) as Nw.
    pose proof (pg_run _ _ _ _ _ G) as JR. pose proof (proj1 JR) as R. pose proof (pg_world _ _ _ _ _ G) as Wd.
    destruct p as [r|k|h k|h k|h k|h b k|h k|h t k]; cbn [pshape] in Sh; cbv zeta in Ts.
    - discriminate.
    - injection Ts as <-. destruct Sh as [Eh Sf].
      assert (Ln : length (c_world c) = length pw) by (rewrite <- Wd; apply map_length). rewrite Ln.
      eapply (pgood_goto c L1 st1 hs pw i o _ d) with (hsi' := []) (pw' := pw ++ [{| TreeFaults.pt_tree := in_new; TreeFaults.pt_poisoned := false |}]);
        [exact G|exact Et|exact Es|exact Id| | | | | |].
      + right. do 2 eexists. split; [reflexivity|]. split; [reflexivity|]. apply Sf. exact R.
      + simpl. eapply jrun_step; [exact JR|exact I|exact F0|]. cbn [TreeFaults.f_step]. reflexivity.
      + rewrite map_app, Wd. reflexivity.
      + intros m h t [].
      + intros j N m h t J. pose proof (pg_agree _ _ _ _ _ G j m h t J) as E. rewrite nth_error_app1; [exact E|].
        apply nth_error_Some. congruence.
      + intro h. pose proof (pg_lock _ _ _ _ _ G h) as Lk. destruct (Nat.lt_ge_cases h (length pw)) as [Lt|Ge].
        * apply plock_ok_goto with pw; [exact Lk|apply Nw; discriminate|apply nth_error_app1; exact Lt|rewrite Eh; reflexivity|rewrite Eh; reflexivity].
        * assert (Np : poisoned (c_lock c h) = false).
          { destruct (poisoned (c_lock c h)) eqn:Ep; [|reflexivity]. destruct (pl_poison _ _ _ _ _ Lk Ep) as (t & E & _).
            assert (h < length pw) by (apply nth_error_Some; congruence). lia. }
          assert (Lk' : plock_ok (c_thread c) hs (pw ++ [{| TreeFaults.pt_tree := in_new; TreeFaults.pt_poisoned := false |}]) h (c_lock c h)).
          { destruct Lk as [P Fr Rd W X Nd Wt]. constructor; auto; [congruence|]. intros _ t E. rewrite Np.
            rewrite nth_error_app2 in E by exact Ge. destruct (h - length pw) as [|q]; cbn in E; [injection E as <-; reflexivity|destruct q; discriminate]. }
          eapply plock_ok_goto; [exact Lk'|apply Nw; discriminate|reflexivity|rewrite Eh; reflexivity|rewrite Eh; reflexivity].
    - destruct (may_read wp (c_lock c h)) eqn:Mr; [|discriminate]. injection Ts as <-. destruct Sh as (Ht & Sf).
      destruct (proj1 Ht (effects L1) pw (incl_refl _) R) as (t & E).
      pose proof (pg_lock _ _ _ _ _ G h) as Lk.
      assert (Wn : writer (c_lock c h) = None) by (unfold may_read in Mr; destruct (writer (c_lock c h)); [discriminate|reflexivity]).
      rewrite <- (pl_free _ _ _ _ _ Lk Wn t E).
      eapply (pgood_goto c L1 st1 hs pw i o _ d) with (hsi' := (false, h, t) :: hs i) (pw' := pw); [exact G|exact Et|exact Es|exact Id| | | | | |].
      + left. split; [reflexivity|]. split; [reflexivity|]. apply (Sf pw); [exact R|apply (pg_agree _ _ _ _ _ G)|exact E].
      + exact JR.
      + exact Wd.
      + intros m h' t' [[= <- <- <-]|J]; [exact E|exact (pg_agree _ _ _ _ _ G i m h' t' J)].
      + intros j _. apply (pg_agree _ _ _ _ _ G).
      + intro h'. destruct (Nat.eq_dec h' h) as [->|N].
        * rewrite upd_same. destruct Lk as [P Fr Rd W X Nd Wt]. constructor; cbn [with_readers poisoned readers writer waiting]; auto.
          -- intro j. simpl. destruct (Nat.eq_dec i j) as [<-|Nj].
             ++ rewrite upd_same, Rd. unfold prd_count. simpl. rewrite Nat.eqb_refl. reflexivity.
             ++ rewrite upd_other by congruence. apply Rd.
          -- intro j. rewrite W. destruct (Nat.eq_dec j i) as [->|Nj]; [rewrite upd_same|rewrite upd_other by exact Nj; reflexivity].
             symmetry. apply pwrite_cons. left; reflexivity.
          -- congruence.
          -- intros j J. destruct (Nat.eq_dec j i) as [->|Nj]; [destruct (Nw h); [discriminate|exact J]|rewrite upd_other by exact Nj; auto].
        * rewrite upd_other by exact N. apply plock_ok_goto with pw; [apply (pg_lock _ _ _ _ _ G)|apply Nw; discriminate|reflexivity| |].
          -- apply prd_count_cons. right; congruence.
          -- apply pwrite_cons. left; reflexivity.
    - injection Ts as <-. destruct Sh as (t & hs1 & Eh & Sf). pose proof (pg_lock _ _ _ _ _ G h) as Lk.
      eapply (pgood_goto c L1 st1 hs pw i o _ d) with (hsi' := hs1) (pw' := pw); [exact G|exact Et|exact Es|exact Id| | | | | |].
      + left. split; [reflexivity|]. split; [reflexivity|exact Sf].
      + exact JR.
      + exact Wd.
      + intros m h' t' J. apply (pg_agree _ _ _ _ _ G i m h' t'). rewrite Eh. right. exact J.
      + intros j _. apply (pg_agree _ _ _ _ _ G).
      + intro h'. destruct (Nat.eq_dec h' h) as [->|N].
        * rewrite upd_same. destruct Lk as [P Fr Rd W X Nd Wt]. constructor; cbn [with_readers poisoned readers writer waiting]; auto.
          -- intro j. destruct (Nat.eq_dec j i) as [->|Nj].
             ++ rewrite upd_same, drop_one_count, Rd, Eh. unfold prd_count. simpl. rewrite Nat.eqb_refl. reflexivity.
             ++ rewrite upd_other, drop_one_count_other by exact Nj. apply Rd.
          -- intro j. rewrite W. destruct (Nat.eq_dec j i) as [->|Nj]; [rewrite upd_same|rewrite upd_other by exact Nj; reflexivity].
             rewrite Eh. apply pwrite_cons. left; reflexivity.
          -- intro Wn. rewrite (X Wn). reflexivity.
          -- intros j J. destruct (Nat.eq_dec j i) as [->|Nj]; [destruct (Nw h); [discriminate|exact J]|rewrite upd_other by exact Nj; auto].
        * rewrite upd_other by exact N. apply plock_ok_goto with pw; [apply (pg_lock _ _ _ _ _ G)|apply Nw; discriminate|reflexivity| |].
          -- rewrite Eh. symmetry. apply prd_count_cons. right; congruence.
          -- rewrite Eh. symmetry. apply pwrite_cons. left; reflexivity.
    - destruct Sh as (Eh & Ht & Sf). pose proof (pg_lock _ _ _ _ _ G h) as Lk.
      destruct (may_write (c_lock c h)) eqn:Mw.
      + injection Ts as <-. destruct (Ht (effects L1) pw (incl_refl _) R) as (t & E).
        unfold may_write in Mw.
        destruct (writer (c_lock c h)) eqn:Wn; [discriminate|]. destruct (readers (c_lock c h)) eqn:Rn; [|discriminate].
        pose proof (pl_free _ _ _ _ _ Lk Wn t E) as Ep. rewrite <- Ep.
        eapply (pgood_goto c L1 st1 hs pw i o _ d) with (hsi' := [(true, h, t)]) (pw' := pw); [exact G|exact Et|exact Es|exact Id| | | | | |].
        * left. split; [reflexivity|]. split; [reflexivity|]. apply (Sf pw); assumption.
        * exact JR.
        * exact Wd.
        * intros m h' t' [[= <- <- <-]|[]]. exact E.
        * intros j _. apply (pg_agree _ _ _ _ _ G).
        * intro h'. destruct (Nat.eq_dec h' h) as [->|N].
          -- rewrite upd_same. destruct Lk as [P Fr Rd W X Nd Wt]. rewrite Rn in Rd. rewrite Wn in W. constructor; cbn [poisoned readers writer waiting]; auto.
             ++ intros Y. exists t. split; [exact E|congruence].
             ++ discriminate.
             ++ intro j. simpl. destruct (Nat.eq_dec j i) as [->|Nj]; [rewrite upd_same; reflexivity|rewrite upd_other by exact Nj].
                rewrite <- Rd. reflexivity.
             ++ intro j. destruct (Nat.eq_dec j i) as [->|Nj]; [rewrite upd_same|rewrite upd_other by exact Nj].
                ** split; [intros _; exists t; left; reflexivity|reflexivity].
                ** split; [congruence|]. intro J. apply W in J. discriminate.
             ++ apply drop_one_nodup. exact Nd.
             ++ intros j J. destruct (Nat.eq_dec j i) as [->|Nj]; [|rewrite upd_other by exact Nj; apply Wt; eapply drop_one_incl; exact J].
                destruct (drop_one_nodup i _ Nd) as [_ Ni]. contradiction.
          -- rewrite upd_other by exact N. apply plock_ok_goto with pw; [apply (pg_lock _ _ _ _ _ G)|apply Nw; congruence|reflexivity| |].
             ++ rewrite Eh. apply prd_count_cons. left; reflexivity.
             ++ rewrite Eh. apply pwrite_cons. right; congruence.
      + destruct (existsb (Nat.eqb i) (waiting (c_lock c h))) eqn:Ex; [discriminate|]. injection Ts as <-.
        destruct (pg_running _ _ _ _ _ G _ _ _ Et) as (d' & Es' & _ & Sf'). rewrite Es in Es'. injection Es' as <-.
        eapply (pgood_goto c L1 st1 hs pw i o _ d) with (hsi' := hs i) (pw' := pw); [exact G|exact Et|exact Es|exact Id| | | | | |].
        * left. split; [reflexivity|]. split; [reflexivity|exact Sf'].
        * exact JR.
        * exact Wd.
        * apply (pg_agree _ _ _ _ _ G).
        * intros j _. apply (pg_agree _ _ _ _ _ G).
        * intro h'. destruct (Nat.eq_dec h' h) as [->|N].
          -- rewrite upd_same. destruct Lk as [P Fr Rd W X Nd Wt]. constructor; cbn [poisoned readers writer waiting]; auto.
             ++ intro j. rewrite Rd. destruct (Nat.eq_dec j i) as [->|Nj]; [rewrite upd_same; reflexivity|rewrite upd_other by exact Nj; reflexivity].
             ++ intro j. rewrite W. destruct (Nat.eq_dec j i) as [->|Nj]; [rewrite upd_same; reflexivity|rewrite upd_other by exact Nj; reflexivity].
             ++ constructor; [|exact Nd]. intro J. assert (Y : existsb (Nat.eqb i) (waiting (c_lock c h)) = true); [|congruence].
                apply existsb_exists. exists i. split; [exact J|apply Nat.eqb_refl].
             ++ intros j J. destruct (Nat.eq_dec j i) as [->|Nj]; [rewrite upd_same; eauto|rewrite upd_other by exact Nj].
                destruct J as [->|J]; [congruence|auto].
          -- rewrite upd_other by exact N. apply plock_ok_goto with pw; [apply (pg_lock _ _ _ _ _ G)|apply Nw; congruence|reflexivity|reflexivity|reflexivity].
    - injection Ts as <-. destruct Sh as (t & Eh & -> & Sf). pose proof (pg_lock _ _ _ _ _ G h) as Lk.
      assert (Wi : writer (c_lock c h) = Some i) by (apply (pl_write _ _ _ _ _ Lk); rewrite Eh; exists t; left; reflexivity).
      assert (E : nth_error pw h = Some t) by (apply (pg_agree _ _ _ _ _ G i true); rewrite Eh; left; reflexivity).
      assert (Ep : poisoned (c_lock c h) || pt_poisoned t = pt_poisoned t).
      { destruct (poisoned (c_lock c h)) eqn:Y; [|reflexivity]. destruct (pl_poison _ _ _ _ _ Lk Y) as (t' & E' & Z). cbn. congruence. }
      eapply (pgood_goto c L1 st1 hs pw i o _ d) with (hsi' := []) (pw' := pw); [exact G|exact Et|exact Es|exact Id| | | | | |].
      + left. split; [reflexivity|]. split; [reflexivity|exact Sf].
      + exact JR.
      + exact Wd.
      + intros m h' t' [].
      + intros j _. apply (pg_agree _ _ _ _ _ G).
      + intro h'. destruct (Nat.eq_dec h' h) as [->|N].
        * rewrite upd_same, Ep. destruct Lk as [P Fr Rd W X Nd Wt]. constructor; cbn [with_readers poisoned readers writer waiting]; auto.
          -- intro Y. exists t. split; [exact E|exact Y].
          -- intros _ t' E'. congruence.
          -- intro j. rewrite Rd. destruct (Nat.eq_dec j i) as [->|Nj]; [rewrite upd_same, Eh; reflexivity|rewrite upd_other by exact Nj; reflexivity].
          -- intro j. destruct (Nat.eq_dec j i) as [->|Nj]; [rewrite upd_same|rewrite upd_other by exact Nj].
             ++ split; [discriminate|intros (? & [])].
             ++ split; [discriminate|]. intro J. apply W in J. congruence.
          -- intros j J. destruct (Nat.eq_dec j i) as [->|Nj]; [destruct (Nw h); [discriminate|exact J]|rewrite upd_other by exact Nj; auto].
        * rewrite upd_other by exact N. apply plock_ok_goto with pw; [apply (pg_lock _ _ _ _ _ G)|apply Nw; discriminate|reflexivity| |].
          -- rewrite Eh. reflexivity.
          -- rewrite Eh. symmetry. apply pwrite_cons. right; congruence.
    - destruct Sh as (m & t & J & Sf). pose proof (pg_agree _ _ _ _ _ G i m h t J) as E.
      assert (Ew : nth_error (c_world c) h = Some (pt_tree t)) by (rewrite <- Wd; apply map_nth_error; exact E).
      rewrite Ew in Ts. injection Ts as <-.
      eapply (pgood_goto c L1 st1 hs pw i o _ d) with (hsi' := hs i) (pw' := pw); [exact G|exact Et|exact Es|exact Id| | | | | |].
      + left. split; [reflexivity|]. split; [reflexivity|exact Sf].
      + exact JR.
      + exact Wd.
      + apply (pg_agree _ _ _ _ _ G).
      + intros j _. apply (pg_agree _ _ _ _ _ G).
      + intro h'. apply plock_ok_goto with pw; [apply (pg_lock _ _ _ _ _ G)|apply Nw; discriminate|reflexivity|reflexivity|reflexivity].
    - injection Ts as <-. destruct Sh as (t0 & b & f & o' & r' & Eh & Hp & K & Ff & St & Sf).
      assert (E : nth_error pw h = Some t0) by (apply (pg_agree _ _ _ _ _ G i true); rewrite Eh; left; reflexivity).
      eapply (pgood_goto c L1 st1 hs pw i o _ d) with (hsi' := [(true, h, {| TreeFaults.pt_tree := t; TreeFaults.pt_poisoned := b |})])
        (pw' := list_set pw h {| TreeFaults.pt_tree := t; TreeFaults.pt_poisoned := b |}); [exact G|exact Et|exact Es|exact Id| | | | | |].
      + right. exists o', r'. split; [reflexivity|]. split; [reflexivity|exact Sf].
      + simpl. eapply jrun_step; [exact JR|exact K|exact Ff|]. apply St. exact E.
      + rewrite map_set, Wd. reflexivity.
      + intros m h' t' [[= <- <- <-]|[]]. rewrite nth_list_set, Nat.eqb_refl, E. reflexivity.
      + intros j N m h' t' J. rewrite nth_list_set. destruct (Nat.eqb_spec h h') as [<-|_]; [|exact (pg_agree _ _ _ _ _ G j m h' t' J)].
        destruct N. apply (pexcl c L1 st1 hs pw i j m h t0 t' G); [rewrite Eh; left; reflexivity|exact J].
      + intro h'. pose proof (pg_lock _ _ _ _ _ G h') as Lk. destruct (Nat.eq_dec h' h) as [->|N].
        * assert (Wi : writer (c_lock c h) = Some i) by (apply (pl_write _ _ _ _ _ Lk); rewrite Eh; exists t0; left; reflexivity).
          assert (Np : poisoned (c_lock c h) = false).
          { destruct (poisoned (c_lock c h)) eqn:Ep; [|reflexivity]. destruct (pl_poison _ _ _ _ _ Lk Ep) as (t' & E' & Z). congruence. }
          destruct Lk as [P Fr Rd W X Nd Wt]. constructor; auto.
          -- congruence.
          -- congruence.
          -- intro j. rewrite Rd. destruct (Nat.eq_dec j i) as [->|Nj]; [rewrite upd_same, Eh; reflexivity|rewrite upd_other by exact Nj; reflexivity].
          -- intro j. rewrite W. destruct (Nat.eq_dec j i) as [->|Nj]; [rewrite upd_same, Eh|rewrite upd_other by exact Nj; reflexivity].
             split; intros (t1 & _); eexists; left; reflexivity.
          -- intros j J. destruct (Nat.eq_dec j i) as [->|Nj]; [destruct (Nw h); [discriminate|exact J]|rewrite upd_other by exact Nj; auto].
        * apply plock_ok_goto with pw; [exact Lk|apply Nw; discriminate| | |].
          -- rewrite nth_list_set. destruct (Nat.eqb_spec h h'); [congruence|reflexivity].
          -- rewrite Eh. reflexivity.
          -- rewrite Eh. rewrite !pwrite_cons by (right; congruence). reflexivity.
  Qed.

  Lemma fparts_ret o r (l : hist) : fparts o r l ->
    In (o, r) l \/ (exists m, r = Panic m) \/ (exists n o', r = Ret (RNode n) /\ In (o', Ret (RNode n)) l).
  Proof using Type.
    intros P. destruct P; [left; left; reflexivity|right; left; eauto| |right; left; eauto|right; left; eauto|right; left; eauto].
    right; right; do 2 eexists; (split; [reflexivity|left; reflexivity]).
  Qed.

  Lemma preturn_good c L st hs pw i o r : pgood c L st hs pw -> c_thread c i = Running o (Done r) ->
    exists E st' hs' pw', pgood {| c_world := c_world c; c_lock := c_lock c; c_thread := upd (c_thread c) i Idle;
           c_trace := ERet i o r :: c_trace c |} (E ++ L) st' hs' pw'.
  Proof using F0 JS.
    intros G0 Et. destruct (pnormal _ _ _ _ _ _ _ _ G0 Et) as (E1 & st1 & d & G & Es & Id & Sh). clear G0.
    destruct Sh as [Eh P]. exists (LRet i o r :: E1), (upd st1 i None), hs, pw. cbn [app].
    remember (E1 ++ L) as L1 eqn:EL1. clear L st E1 EL1.
    pose proof (fun h N => pnot_waiting _ _ _ _ _ _ _ _ h G Et N) as Nw.
    destruct G as [Gl Ge Gr Gw Gk Gi Gu Ga Gc]. constructor; cbn [c_world c_lock c_thread c_trace]; auto.
    - eapply fl_ret; eauto.
    - simpl. rewrite Ge. reflexivity.
    - intros o1 r1 J. simpl in J. destruct J as [[= <- <-]|J]; [|apply Gk; exact J].
      assert (Ir : incl (rev d) (effects L1)) by (intros x Jx; apply Id; apply in_rev; exact Jx).
      destruct (fparts_ret _ _ _ P) as [X|[X|(n & o' & X & Y)]]; [left; apply Ir; exact X|right; left; exact X|right; right].
      exists n, o'. split; [exact X|apply Ir; exact Y].
    - intros j. destruct (Nat.eq_dec j i) as [->|N]; [rewrite !upd_same; auto|rewrite !upd_other by exact N; auto].
    - intros j o1 p1. destruct (Nat.eq_dec j i) as [->|N]; [rewrite upd_same; discriminate|rewrite !upd_other by exact N; apply Gu].
    - intro h. destruct (Gc h) as [A A' B C D E G]. constructor; auto.
      intros j J. destruct (Nat.eq_dec j i) as [->|N]; [destruct (Nw h); [discriminate|exact J]|rewrite upd_other by exact N; auto].
  Qed.

  Lemma pcall_good c L st hs pw i f o : pgood c L st hs pw -> c_thread c i = Idle -> can_call (returned (c_trace c)) o -> F f ->
    exists E st' hs' pw', pgood {| c_world := c_world c; c_lock := c_lock c; c_thread := upd (c_thread c) i (Running o (fop_prog f o));
           c_trace := ECall i o :: c_trace c |} (E ++ L) st' hs' pw'.
  Proof using Type*.
    intros [Gl Ge Gr Gw Gk Gi Gu Ga Gc] Et K Ff. destruct (Gi i Et) as [Es Eh].
    exists [LCall i o], (upd st i (Some (o, []))), hs, pw. cbn [app].
    constructor; cbn [c_world c_lock c_thread c_trace]; auto.
    - apply fl_call; assumption.
    - simpl. rewrite Ge. reflexivity.
    - intros j. destruct (Nat.eq_dec j i) as [->|Nj]; [rewrite upd_same; discriminate|rewrite !upd_other by exact Nj; auto].
    - intros j o1 p1. destruct (Nat.eq_dec j i) as [->|Nj]; [|rewrite !upd_other by exact Nj; apply Gu].
      rewrite !upd_same. intros [= <- <-]. exists []. split; [reflexivity|]. split; [intros x []|]. rewrite Eh.
      apply fop_safe; [exact F0|exact Ff|]. eapply known_ret_call; eassumption.
    - intro h. destruct (Gc h) as [A A' B C D E G]. constructor; auto.
      intros j J. destruct (G j J) as (o1 & k & E1). destruct (Nat.eq_dec j i) as [->|Nj]; [congruence|rewrite upd_other by exact Nj; eauto].
  Qed.

  Lemma pinit_good : Jv [] [] -> pgood c_init [] (fun _ => None) (fun _ => []) [].
  Proof using Type.
    intro J0. constructor; simpl; auto.
    - constructor.
    - split; [constructor|exact J0].
    - intros o r [].
    - discriminate.
    - intros i m h t [].
    - intro h. constructor; simpl; auto; [discriminate|intros _ t E; destruct h; discriminate| |constructor|tauto].
      intro i. split; [discriminate|intros (t & [])].
  Qed.
  Lemma fstep_good wp c c' L st hs pw : pgood c L st hs pw -> fault_step F wp c c' -> exists E st' hs' pw', pgood c' (E ++ L) st' hs' pw'.
  Proof using Type*.
    intros G St. destruct St as [i f o c Et K Ff|c c' I].
    - eapply pcall_good; eauto.
    - destruct I; [eapply pthread_step_good; eauto|eapply preturn_good; eauto].
  Qed.
  Lemma fsteps_good wp (c c' : cfg) L st hs pw : pgood c L st hs pw -> fault_steps F wp c c' ->
    exists E st' hs' pw', pgood c' (E ++ L) st' hs' pw'.
  Proof using Type*.
    intros G R. induction R as [|c1 c2 R IH St].
    - exists [], st, hs, pw. exact G.
    - destruct IH as (E1 & st1 & hs1 & pw1 & G1). destruct (fstep_good _ _ _ _ _ _ _ G1 St) as (E & st' & hs' & pw' & X).
      exists (E ++ E1), st', hs', pw'. rewrite <- app_assoc. exact X.
  Qed.
  Lemma pgood_memory c L st hs pw : pgood c L st hs pw -> in_memory_as c pw.
  Proof using Type.
    intro G. pose proof (pg_world _ _ _ _ _ G) as W. split; [rewrite <- W; symmetry; apply map_length|].
    intros h t Wn E. rewrite <- W in E. destruct (nth_error pw h) as [[t' b]|] eqn:Ep; [|rewrite nth_error_map, Ep in E; discriminate].
    rewrite nth_error_map, Ep in E. cbn in E. injection E as <-.
    rewrite <- (pl_free _ _ _ _ _ (pg_lock _ _ _ _ _ G h) Wn _ Ep). reflexivity.
  Qed.
End Inv.

Section Reach.
  Context {T AK V : Type} `{OrdEq T} `{OrdEq AK} `{OrdEq V}.
  Local Notation cfg := (config T AK V).
  Local Notation hist := (history T AK V).
  Variable F : TreeFaults.fault -> Prop.
  Hypothesis F0 : F TreeFaults.NoFault.
  Definition anything : hist -> TreeFaults.pworld T AK V -> Prop := fun _ _ => True.
  Theorem freachable_good wp (c : cfg) : fault_reachable F wp c -> exists L st hs pw, pgood F anything c L st hs pw.
  Proof using Type*.
    intro R. destruct (fsteps_good F F0 anything (fun _ _ _ _ _ _ _ _ _ _ _ => I) wp _ _ _ _ _ _ (pinit_good F anything I) R) as (E & X).
    exists (E ++ []). exact X.
  Qed.
  Lemma pgood_other (J1 J2 : hist -> TreeFaults.pworld T AK V -> Prop) (c : cfg) L st hs pw :
    pgood F J1 c L st hs pw -> J2 (effects L) pw -> pgood F J2 c L st hs pw.
  Proof using Type. intros [A B [C C'] D E G K M N] Q. constructor; try assumption. split; assumption. Qed.
End Reach.
