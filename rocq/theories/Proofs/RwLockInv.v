(** Every reachable configuration comes with a sequential history that explains it. *)
From Coq Require Import String List Arith Lia Bool.
From Verif.Model Require Import Ord BTree Outcome Utils Tree RwLock.
From Verif.Spec Require Import TreeSpec RwLockSpec.
From Verif.Proofs Require Import OrdFacts BTreeFacts LoopFacts UtilsFacts TreeFacts TreeHist RwLockSafe.
Import ListNotations.

Lemma upd_same {A} (f : nat -> A) i x : upd f i x i = x.
Proof. unfold upd. rewrite Nat.eqb_refl. reflexivity. Qed.
Lemma upd_other {A} (f : nat -> A) i j x : j <> i -> upd f i x j = f j.
Proof. intro N. unfold upd. rewrite (proj2 (Nat.eqb_neq _ _) N). reflexivity. Qed.

Lemma drop_one_In i j l : j <> i -> (In j (drop_one i l) <-> In j l).
Proof.
  intro N. induction l as [|x l IH]; simpl; [tauto|]. destruct (Nat.eqb_spec x i) as [->|]; [|simpl; tauto].
  split; [tauto|]. intros [E|E]; [congruence|exact E].
Qed.
Lemma drop_one_incl i l : incl (drop_one i l) l.
Proof.
  induction l as [|x l IH]; simpl; [apply incl_refl|]. destruct (Nat.eqb x i); [apply incl_tl, incl_refl|].
  intros y [<-|J]; [left; reflexivity|right; auto].
Qed.
Lemma drop_one_nodup i l : NoDup l -> NoDup (drop_one i l) /\ ~ In i (drop_one i l).
Proof.
  induction l as [|x l IH]; simpl; intro N; [split; [constructor|tauto]|]. inversion N as [|? ? N1 N2]; subst.
  destruct (Nat.eqb_spec x i) as [->|Ne]; [split; assumption|]. destruct (IH N2) as [A B]. split.
  - constructor; [|exact A]. intro J. apply N1. revert J. apply drop_one_incl.
  - intros [E|J]; auto.
Qed.
Lemma drop_one_count i l : count_occ Nat.eq_dec (drop_one i l) i = pred (count_occ Nat.eq_dec l i).
Proof.
  induction l as [|x l IH]; simpl; [reflexivity|]. destruct (Nat.eqb_spec x i) as [->|Ne].
  - destruct (Nat.eq_dec i i); [reflexivity|congruence].
  - simpl. destruct (Nat.eq_dec x i); [congruence|exact IH].
Qed.
Lemma drop_one_count_other i j l : j <> i -> count_occ Nat.eq_dec (drop_one i l) j = count_occ Nat.eq_dec l j.
Proof.
  intro N. induction l as [|x l IH]; simpl; [reflexivity|]. destruct (Nat.eqb_spec x i) as [->|Ne].
  - destruct (Nat.eq_dec i j); [congruence|reflexivity].
  - simpl. rewrite IH. reflexivity.
Qed.

Section Inv.
  Context {T AK V : Type} `{OrdEq T} `{OrdEq AK} `{OrdEq V}.
  Local Notation tree := (Inner T AK V).
  Local Notation wld := (world T AK V).
  Local Notation hist := (history T AK V).
  Local Notation op := (tr_op T AK V).
  Local Notation val := (tr_val T AK V).
  Local Notation pr := (prog T AK V).
  Local Notation cfg := (config T AK V).
  Local Notation hold := (@hold T AK V).
  Local Notation lst := (list (lin_event T AK V)).

  (** Whether the operation takes a read lock while it holds one. *)
  Definition nestb (o : op) : bool :=
    match o with
    | TMakeBranchAlt _ _ _ | TMakeLeafNode _ _ _ | TMakeBranchNode _ _ _ | TAddAlt _ _ | TAddAll _ _ => true
    | _ => false
    end.
  Lemma nestb_spec o : nestb o = true <-> nests o.
  Proof. destruct o; simpl; split; intro E; try exact I; try reflexivity; try discriminate; destruct E. Qed.

  Definition reads (h : TreeHandle) (x : hold) : bool := match x with (false, h', _) => Nat.eqb h' h | _ => false end.
  Definition rd_count (h : TreeHandle) (hs : list hold) : nat := length (filter (reads h) hs).

  Record lock_ok (thr : nat -> tstate T AK V) (hs : nat -> list hold) (h : TreeHandle) (l : lock) : Prop := {
    lo_poison : poisoned l = false;
    lo_read : forall i, count_occ Nat.eq_dec (readers l) i = rd_count h (hs i);
    lo_write : forall i, writer l = Some i <-> exists t, In (true, h, t) (hs i);
    lo_excl : writer l <> None -> readers l = [];
    lo_nodup : NoDup (waiting l);
    lo_wait : forall i, In i (waiting l) -> exists o k, thr i = Running o (WLock h k)
  }.

  Definition known_ret (tr : list (call_event T AK V)) (gh : hist) : Prop :=
    forall o r, In (o, r) (returned tr) ->
      In (o, r) gh \/ (exists m, r = Panic m) \/ (exists n o', r = Ret (RNode n) /\ In (o', Ret (RNode n)) gh).

  Record good (c : cfg) (L : lst) (st : nat -> option (op * hist)) (hs : nat -> list hold) : Prop := {
    g_lin : lin L st;
    g_erase : erase L = c_trace c;
    g_run : run (effects L) (c_world c);
    g_known : known_ret (c_trace c) (effects L);
    g_idle : forall i, c_thread c i = Idle -> st i = None /\ hs i = [];
    g_running : forall i o p, c_thread c i = Running o p ->
      exists d, st i = Some (o, d) /\ incl d (effects L) /\ safe (nestb o) (Qop o) (effects L) d (hs i) p;
    g_agree : forall i, agree (c_world c) (hs i);
    g_lock : forall h, lock_ok (c_thread c) hs h (c_lock c h)
  }.

  Lemma Qop_mono (o : op) : forall gh gh' d hs r, incl gh gh' -> Qop o gh d hs r -> Qop o gh' d hs r.
  Proof. intros gh gh' d hs r _ Q. exact Q. Qed.

  Lemma known_ret_tree tr gh h : known_ret tr gh -> known_tree (returned tr) h -> known_tree gh h.
  Proof.
    intros K J. destruct (K _ _ J) as [X|[(m & X)|(n & o' & X & _)]]; [exact X|discriminate|discriminate].
  Qed.
  Lemma known_ret_node tr gh n : known_ret tr gh -> known_node (returned tr) n -> known_node gh n.
  Proof.
    intros K [(o & J)|(a & x & ns & J & I)].
    - destruct (K _ _ J) as [X|[(m & X)|(n' & o' & X & Y)]]; [left; eauto|discriminate|]. injection X as <-. left; eauto.
    - destruct (K _ _ J) as [X|[(m & X)|(n' & o' & X & _)]]; [right; eauto 8|discriminate|discriminate].
  Qed.
  Lemma known_ret_alt tr gh a : known_ret tr gh -> known_alt (returned tr) a -> known_alt gh a.
  Proof.
    intros K [(o & J)|(n & l & J & I)].
    - destruct (K _ _ J) as [X|[(m & X)|(n' & o' & X & Y)]]; [left; eauto|discriminate|discriminate].
    - destruct (K _ _ J) as [X|[(m & X)|(n' & o' & X & _)]]; [right; eauto 8|discriminate|discriminate].
  Qed.
  Lemma known_ret_call tr gh (o : op) : known_ret tr gh -> can_call (returned tr) o -> can_call gh o.
  Proof.
    intros K. destruct o; simpl; auto; try (intros [A B]; split); try (intro A);
      eauto using known_ret_tree, known_ret_node, known_ret_alt;
      (eapply Forall_impl; [|exact B]; intros; eauto using known_ret_node).
  Qed.

  (** ** One more effect *)
  Lemma good_effect c L st hs i o d o' r' :
    good c L st hs -> st i = Some (o, d) -> can_call (effects L) o' -> tr_step (c_world c) o' = (r', c_world c) ->
    (exists p, c_thread c i = Running o p /\ safe (nestb o) (Qop o) ((o', r') :: effects L) ((o', r') :: d) (hs i) p) ->
    good c (LEffect i o' r' :: L) (upd st i (Some (o, (o', r') :: d))) hs.
  Proof.
    intros G E K St (p0 & Ep0 & Sf). destruct G as [Gl Ge Gr Gk Gi Gu Ga Gc].
    assert (R1 : run ((o', r') :: effects L) (c_world c)) by (eapply run_step; eassumption). constructor; auto.
    - apply lin_effect; [assumption|assumption|]. exact (safe_parts _ _ _ _ _ _ _ _ _ Sf R1 (Ga i) eq_refl).
    - intros o1 r1 J. destruct (Gk o1 r1 J) as [X|[X|(n & o2 & X & Y)]]; [left; right; exact X|right; left; exact X|].
      right; right. exists n, o2. split; [exact X|right; exact Y].
    - intros j Ej. destruct (Gi j Ej) as [A B]. split; [|exact B]. destruct (Nat.eq_dec j i) as [->|N]; [congruence|].
      rewrite upd_other by exact N. exact A.
    - intros j o1 p Ej. destruct (Gu j o1 p Ej) as (d1 & A & I & S). destruct (Nat.eq_dec j i) as [->|N].
      + rewrite E in A. injection A as <- <-. rewrite upd_same. eexists. split; [reflexivity|]. split; [|rewrite Ep0 in Ej; injection Ej as <-; exact Sf].
        apply incl_cons; [left; reflexivity|apply incl_tl; exact I].
      + rewrite upd_other by exact N. exists d1. split; [exact A|]. split; [apply incl_tl; exact I|].
        eapply safe_mono; [apply Qop_mono|exact S|apply incl_tl, incl_refl].
  Qed.

  (** ** What a program is about to do, after the effects it already had *)
  Definition shape (nest : bool) (Q : hist -> hist -> list hold -> outcome val -> Prop) (gh d : hist) (hs : list hold) (p : pr val) : Prop :=
    match p with
    | Done r => Q gh d hs r
    | New k => hs = [] /\ forall w, run gh w ->
        safe nest Q ((TNewTree, Ret (RHandle (length w))) :: gh) ((TNewTree, Ret (RHandle (length w))) :: d) [] (k (length w))
    | RLock h k => all_reads hs /\ (nest = false -> hs = []) /\ has_tree gh h /\
        forall w t, run gh w -> nth_error w h = Some t -> safe nest Q gh d ((false, h, t) :: hs) (k false)
    | RUnlock h k => exists t hs', hs = (false, h, t) :: hs' /\ safe nest Q gh d hs' k
    | WLock h k => hs = [] /\ has_tree gh h /\
        forall w t, run gh w -> nth_error w h = Some t -> safe nest Q gh d [(true, h, t)] (k false)
    | WUnlock h b k => exists t, hs = [(true, h, t)] /\ b = false /\ safe nest Q gh d [] k
    | Get h k => exists m t, In (m, h, t) hs /\ safe nest Q gh d hs (k t)
    | Put h t' k => exists t o r, hs = [(true, h, t)] /\ can_call gh o /\
        (forall w, nth_error w h = Some t -> tr_step w o = (r, w_set w h t')) /\
        safe nest Q ((o, r) :: gh) ((o, r) :: d) [(true, h, t')] k
    end.

  Lemma safe_normal nest Q gh d hs p : safe nest Q gh d hs p ->
    (forall gh gh' d hs r, incl gh gh' -> Q gh d hs r -> Q gh' d hs r) ->
    forall c L st hst i o, good c L st hst -> c_thread c i = Running o p -> st i = Some (o, d) -> hst i = hs ->
      effects L = gh -> Q = Qop o -> nest = nestb o ->
      exists E st' d', good c (E ++ L) st' hst /\ st' i = Some (o, d') /\ incl d' (effects (E ++ L)) /\ shape nest Q (effects (E ++ L)) d' hs p.
  Proof.
    intros Sf M. induction Sf; intros c L st hst i oo G Et Es Eh El Eq En; subst.
    1-8: (exists [], st, d; split; [exact G|]; split; [exact Es|]; split;
           [destruct (g_running _ _ _ _ G _ _ _ Et) as (d2 & A & B & _); rewrite Es in A; injection A as <-; exact B|]; cbn [shape]).
    - assumption.
    - split; [reflexivity|]. intros w R. apply (H5 (effects L) w); [apply incl_refl|exact R].
    - split; [assumption|]. split; [assumption|]. split; [assumption|]. intros w t R E. apply (H8 (effects L) w t); [apply incl_refl|exact R|exact E].
    - eexists. eexists. split; [reflexivity|]. exact Sf.
    - split; [reflexivity|]. split; [assumption|]. intros w t R E. apply (H6 (effects L) w t); [apply incl_refl|exact R|exact E].
    - eexists. split; [reflexivity|]. split; [reflexivity|exact Sf].
    - eauto.
    - do 3 eexists. split; [reflexivity|]. split; [eassumption|]. split; [eassumption|exact Sf].
    - assert (G' : good c (LEffect i o r :: L) (upd st i (Some (oo, (o, r) :: d))) hst).
      { eapply good_effect; [exact G|exact Es|assumption| |].
        - apply (H6 (effects L)); [apply incl_refl|apply (g_run _ _ _ _ G)|apply (g_agree _ _ _ _ G)].
        - eexists. split; [exact Et|exact Sf]. }
      destruct (IHSf c _ _ hst i oo G' Et) as (E & X); [apply upd_same|reflexivity|reflexivity|reflexivity|reflexivity|].
      exists (E ++ [LEffect i o r]). rewrite <- app_assoc. exact X.
  Qed.
  Lemma normal c L st hs i o p : good c L st hs -> c_thread c i = Running o p ->
    exists E st' d, good c (E ++ L) st' hs /\ st' i = Some (o, d) /\ incl d (effects (E ++ L)) /\ shape (nestb o) (Qop o) (effects (E ++ L)) d (hs i) p.
  Proof.
    intros G E. destruct (g_running _ _ _ _ G _ _ _ E) as (d & A & B & S).
    eapply safe_normal; eauto.
  Qed.

  (** ** Locks *)
  Lemma rd_count_pos h hs (x : tree) : In (false, h, x) hs -> rd_count h hs <> 0.
  Proof.
    intros J E. unfold rd_count in E. apply length_zero_iff_nil in E.
    assert (X : In (false, h, x) (filter (reads h) hs)) by (apply filter_In; split; [exact J|simpl; apply Nat.eqb_refl]).
    rewrite E in X. destruct X.
  Qed.
  Lemma excl c L st hs i j m h t t' : good c L st hs -> In (true, h, t) (hs i) -> In (m, h, t') (hs j) -> j = i.
  Proof.
    intros G Ji Jj. pose proof (g_lock _ _ _ _ G h) as Lk.
    assert (W : writer (c_lock c h) = Some i) by (apply (lo_write _ _ _ _ Lk); eauto).
    destruct m.
    - assert (W' : writer (c_lock c h) = Some j) by (apply (lo_write _ _ _ _ Lk); eauto). congruence.
    - pose proof (lo_read _ _ _ _ Lk j) as C. rewrite (lo_excl _ _ _ _ Lk) in C by congruence.
      symmetry in C. destruct (rd_count_pos _ _ _ Jj C).
  Qed.
  Lemma not_waiting c L st hs i o p h : good c L st hs -> c_thread c i = Running o p -> (forall k, p <> WLock h k) ->
    ~ In i (waiting (c_lock c h)).
  Proof. intros G E N J. destruct (lo_wait _ _ _ _ (g_lock _ _ _ _ G h) i J) as (o' & k & E'). rewrite E in E'. injection E' as _ X. exact (N _ X). Qed.

  (** Nothing about the lock changes, except that thread [i] has gone on. *)
  Lemma lock_ok_goto (thr : nat -> tstate T AK V) hs h l i x hsi : lock_ok thr hs h l -> ~ In i (waiting l) ->
    rd_count h hsi = rd_count h (hs i) -> ((exists t, In (true, h, t) hsi) <-> (exists t, In (true, h, t) (hs i))) ->
    lock_ok (upd thr i x) (upd hs i hsi) h l.
  Proof.
    intros [P R W X N Wt] Ni Er Ew. constructor; auto.
    - intro j. rewrite R. destruct (Nat.eq_dec j i) as [->|Ne]; [rewrite upd_same; auto|rewrite upd_other by exact Ne; reflexivity].
    - intro j. rewrite W. destruct (Nat.eq_dec j i) as [->|Ne]; [rewrite upd_same; symmetry; exact Ew|rewrite upd_other by exact Ne; reflexivity].
    - intros j J. destruct (Nat.eq_dec j i) as [->|Ne]; [contradiction|rewrite upd_other by exact Ne; auto].
  Qed.

  (** The parts of the invariant about threads, when thread [i] goes on. *)
  Lemma good_goto c L st hs i o p d p' w' ls' L' st' hsi' :
    good c L st hs -> c_thread c i = Running o p -> st i = Some (o, d) -> incl d (effects L) ->
    (L' = L /\ st' = st /\ safe (nestb o) (Qop o) (effects L) d hsi' p' \/
     exists o' r', L' = LEffect i o' r' :: L /\ st' = upd st i (Some (o, (o', r') :: d)) /\
       safe (nestb o) (Qop o) ((o', r') :: effects L) ((o', r') :: d) hsi' p') ->
    run (effects L') w' ->
    agree w' hsi' -> (forall j, j <> i -> agree w' (hs j)) ->
    (forall h, lock_ok (upd (c_thread c) i (Running o p')) (upd hs i hsi') h (ls' h)) ->
    exists E st' hs', good {| c_world := w'; c_lock := ls'; c_thread := upd (c_thread c) i (Running o p'); c_trace := c_trace c |} (E ++ L) st' hs'.
  Proof.
    intros G Et Es Id Sf R Ai Aj Lk.
    assert (X : exists E, L' = E ++ L) by (destruct Sf as [(-> & _)|(o' & r' & -> & _)]; [exists []|exists [LEffect i o' r']]; reflexivity).
    destruct X as (E & EL). exists E, st', (upd hs i hsi'). rewrite <- EL. clear E EL.
    assert (I : incl (effects L) (effects L')).
    { destruct Sf as [(-> & _)|(o' & r' & -> & _)]; [apply incl_refl|simpl; apply incl_tl, incl_refl]. }
    assert (Sn : forall j, j <> i -> st' j = st j).
    { intros j N. destruct Sf as [(_ & -> & _)|(o' & r' & _ & -> & _)]; [reflexivity|apply upd_other; exact N]. }
    destruct G as [Gl Ge Gr Gk Gi Gu Ga Gc]. constructor; cbn [c_world c_lock c_thread c_trace]; auto.
    - destruct Sf as [(-> & -> & _)|(o' & r' & -> & -> & S)]; [exact Gl|apply lin_effect; [assumption|assumption|]].
      exact (safe_parts _ _ _ _ _ _ _ _ _ S R Ai eq_refl).
    - destruct Sf as [(-> & _)|(o' & r' & -> & _)]; [exact Ge|exact Ge].
    - intros o1 r1 J. destruct (Gk o1 r1 J) as [X|[X|(n & o2 & X & Y)]]; [left; auto|auto|right; right; eauto].
    - intros j. destruct (Nat.eq_dec j i) as [->|N]; [rewrite upd_same; discriminate|]. rewrite !upd_other by exact N.
      intro E. destruct (Gi j E) as [A B]. rewrite (Sn j N). split; assumption.
    - intros j o1 p1. destruct (Nat.eq_dec j i) as [->|N].
      + rewrite !upd_same. intros [= <- <-]. destruct Sf as [(-> & -> & S)|(o' & r' & -> & -> & S)].
        * exists d. split; [exact Es|]. split; [exact Id|exact S].
        * rewrite upd_same. eexists. split; [reflexivity|]. split; [|exact S]. simpl. apply incl_cons; [left; reflexivity|apply incl_tl; exact Id].
      + rewrite !upd_other by exact N. intro E. destruct (Gu j o1 p1 E) as (d1 & A & B & S). exists d1. rewrite (Sn j N).
        split; [exact A|]. split; [eapply incl_tran; eauto|]. eapply safe_mono; [apply Qop_mono|exact S|exact I].
    - intros j. destruct (Nat.eq_dec j i) as [->|N]; [rewrite upd_same; exact Ai|rewrite upd_other by exact N; auto].
  Qed.

  Lemma reads_other h h' b t : h' <> h -> reads h (b, h', t) = false.
  Proof. intro N. destruct b; simpl; [reflexivity|]. apply Nat.eqb_neq. exact N. Qed.
  Lemma write_cons (h h' : TreeHandle) (b : bool) (t : tree) hs : b = false \/ h' <> h ->
    (exists t1 : tree, In (true, h, t1) ((b, h', t) :: hs)) <-> (exists t1 : tree, In (true, h, t1) hs).
  Proof.
    intro N. split; intros (t0 & J).
    - destruct J as [E|J]; [|eauto]. injection E as -> -> _. destruct N as [N|N]; [discriminate|congruence].
    - exists t0. right. exact J.
  Qed.
  Lemma rd_count_cons h h' b t hs : b = true \/ h' <> h -> rd_count h ((b, h', t) :: hs) = rd_count h hs.
  Proof.
    intros [->|N]; unfold rd_count; simpl; [reflexivity|]. destruct b; [reflexivity|].
    rewrite (proj2 (Nat.eqb_neq _ _) N). reflexivity.
  Qed.

  Lemma thread_step_good wp c c' L st hs i : good c L st hs -> thread_step wp i c = Some c' ->
    exists E st' hs', good c' (E ++ L) st' hs'.
  Proof.
    intros G0 Ts. unfold thread_step in Ts. destruct (c_thread c i) as [|o p] eqn:Et; [discriminate|].
    destruct (normal _ _ _ _ _ _ _ G0 Et) as (E1 & st1 & d & G & Es & Id & Sh). clear G0.
    cut (exists E st' hs', good c' (E ++ (E1 ++ L)) st' hs').
    { intros (E & a & b & X). exists (E ++ E1), a, b. rewrite <- app_assoc. exact X. }
    remember (E1 ++ L) as L1 eqn:EL1. clear L st E1 EL1.
    pose proof (fun h N => not_waiting _ _ _ _ _ _ _ h G Et N) as Nw.
    pose proof (g_run _ _ _ _ G) as R.
    destruct p as [r|k|h k|h k|h k|h b k|h k|h t k]; cbn [shape] in Sh; cbv zeta in Ts.
    - discriminate.
    - injection Ts as <-. destruct Sh as [Eh Sf].
      eapply (good_goto c L1 st1 hs i o _ d); [exact G|exact Et|exact Es|exact Id| | | | |].
      + right. do 2 eexists. split; [reflexivity|]. split; [reflexivity|]. apply Sf. exact R.
      + simpl. eapply run_step; [exact R|exact I|]. cbn [tr_step]. reflexivity.
      + intros m h t [].
      + intros j N m h t J. pose proof (g_agree _ _ _ _ G j m h t J) as E. rewrite nth_error_app1; [exact E|].
        apply nth_error_Some. congruence.
      + intro h. apply lock_ok_goto; [apply (g_lock _ _ _ _ G)|apply Nw; discriminate|rewrite Eh; reflexivity|rewrite Eh; reflexivity].
    - destruct (may_read wp (c_lock c h)) eqn:Mr; [|discriminate]. injection Ts as <-. destruct Sh as (Ar & Ne & Ht & Sf).
      destruct (Ht (effects L1) (c_world c) (incl_refl _) R) as (t & E).
      pose proof (g_lock _ _ _ _ G h) as Lk. rewrite (lo_poison _ _ _ _ Lk).
      assert (Wn : writer (c_lock c h) = None) by (unfold may_read in Mr; destruct (writer (c_lock c h)); [discriminate|reflexivity]).
      eapply (good_goto c L1 st1 hs i o _ d) with (hsi' := (false, h, t) :: hs i); [exact G|exact Et|exact Es|exact Id| | | | |].
      + left. split; [reflexivity|]. split; [reflexivity|]. apply (Sf (c_world c)); assumption.
      + exact R.
      + intros m h' t' [[= <- <- <-]|J]; [exact E|exact (g_agree _ _ _ _ G i m h' t' J)].
      + intros j _. apply (g_agree _ _ _ _ G).
      + intro h'. destruct (Nat.eq_dec h' h) as [->|N].
        * rewrite upd_same. destruct Lk as [P Rd W X Nd Wt]. constructor; cbn [with_readers poisoned readers writer waiting]; auto.
          -- intro j. simpl. destruct (Nat.eq_dec i j) as [<-|Nj].
             ++ rewrite upd_same, Rd. unfold rd_count. simpl. rewrite Nat.eqb_refl. reflexivity.
             ++ rewrite upd_other by congruence. apply Rd.
          -- intro j. rewrite W. destruct (Nat.eq_dec j i) as [->|Nj]; [rewrite upd_same|rewrite upd_other by exact Nj; reflexivity].
             symmetry. apply write_cons. left; reflexivity.
          -- congruence.
          -- intros j J. destruct (Nat.eq_dec j i) as [->|Nj]; [destruct (Nw h); [discriminate|exact J]|rewrite upd_other by exact Nj; auto].
        * rewrite upd_other by exact N. apply lock_ok_goto; [apply (g_lock _ _ _ _ G)|apply Nw; discriminate| |].
          -- apply rd_count_cons. right; congruence.
          -- apply write_cons. left; reflexivity.
    - injection Ts as <-. destruct Sh as (t & hs1 & Eh & Sf). pose proof (g_lock _ _ _ _ G h) as Lk.
      eapply (good_goto c L1 st1 hs i o _ d) with (hsi' := hs1); [exact G|exact Et|exact Es|exact Id| | | | |].
      + left. split; [reflexivity|]. split; [reflexivity|exact Sf].
      + exact R.
      + intros m h' t' J. apply (g_agree _ _ _ _ G i m h' t'). rewrite Eh. right. exact J.
      + intros j _. apply (g_agree _ _ _ _ G).
      + intro h'. destruct (Nat.eq_dec h' h) as [->|N].
        * rewrite upd_same. destruct Lk as [P Rd W X Nd Wt]. constructor; cbn [with_readers poisoned readers writer waiting]; auto.
          -- intro j. destruct (Nat.eq_dec j i) as [->|Nj].
             ++ rewrite upd_same, drop_one_count, Rd, Eh. unfold rd_count. simpl. rewrite Nat.eqb_refl. reflexivity.
             ++ rewrite upd_other, drop_one_count_other by exact Nj. apply Rd.
          -- intro j. rewrite W. destruct (Nat.eq_dec j i) as [->|Nj]; [rewrite upd_same|rewrite upd_other by exact Nj; reflexivity].
             rewrite Eh. apply write_cons. left; reflexivity.
          -- intro Wn. rewrite (X Wn). reflexivity.
          -- intros j J. destruct (Nat.eq_dec j i) as [->|Nj]; [destruct (Nw h); [discriminate|exact J]|rewrite upd_other by exact Nj; auto].
        * rewrite upd_other by exact N. apply lock_ok_goto; [apply (g_lock _ _ _ _ G)|apply Nw; discriminate| |].
          -- rewrite Eh. symmetry. apply rd_count_cons. right; congruence.
          -- rewrite Eh. symmetry. apply write_cons. left; reflexivity.
    - destruct Sh as (Eh & Ht & Sf). pose proof (g_lock _ _ _ _ G h) as Lk.
      destruct (may_write (c_lock c h)) eqn:Mw.
      + injection Ts as <-. destruct (Ht (effects L1) (c_world c) (incl_refl _) R) as (t & E).
        rewrite (lo_poison _ _ _ _ Lk). unfold may_write in Mw.
        destruct (writer (c_lock c h)) eqn:Wn; [discriminate|]. destruct (readers (c_lock c h)) eqn:Rn; [|discriminate].
        eapply (good_goto c L1 st1 hs i o _ d) with (hsi' := [(true, h, t)]); [exact G|exact Et|exact Es|exact Id| | | | |].
        * left. split; [reflexivity|]. split; [reflexivity|]. apply (Sf (c_world c)); assumption.
        * exact R.
        * intros m h' t' [[= <- <- <-]|[]]. exact E.
        * intros j _. apply (g_agree _ _ _ _ G).
        * intro h'. destruct (Nat.eq_dec h' h) as [->|N].
          -- rewrite upd_same. destruct Lk as [P Rd W X Nd Wt]. rewrite Rn in Rd. rewrite Wn in W. constructor; cbn [poisoned readers writer waiting]; auto.
             ++ intro j. simpl. destruct (Nat.eq_dec j i) as [->|Nj]; [rewrite upd_same; reflexivity|rewrite upd_other by exact Nj].
                rewrite <- Rd. reflexivity.
             ++ intro j. destruct (Nat.eq_dec j i) as [->|Nj]; [rewrite upd_same|rewrite upd_other by exact Nj].
                ** split; [intros _; exists t; left; reflexivity|reflexivity].
                ** split; [congruence|]. intro J. apply W in J. discriminate.
             ++ apply drop_one_nodup. exact Nd.
             ++ intros j J. destruct (Nat.eq_dec j i) as [->|Nj]; [|rewrite upd_other by exact Nj; apply Wt; eapply drop_one_incl; exact J].
                destruct (drop_one_nodup i _ Nd) as [_ Ni]. contradiction.
          -- rewrite upd_other by exact N. apply lock_ok_goto; [apply (g_lock _ _ _ _ G)|apply Nw; congruence| |].
             ++ rewrite Eh. apply rd_count_cons. left; reflexivity.
             ++ rewrite Eh. apply write_cons. right; congruence.
      + destruct (existsb (Nat.eqb i) (waiting (c_lock c h))) eqn:Ex; [discriminate|]. injection Ts as <-.
        destruct (g_running _ _ _ _ G _ _ _ Et) as (d' & Es' & _ & Sf'). rewrite Es in Es'. injection Es' as <-.
        eapply (good_goto c L1 st1 hs i o _ d) with (hsi' := hs i); [exact G|exact Et|exact Es|exact Id| | | | |].
        * left. split; [reflexivity|]. split; [reflexivity|exact Sf'].
        * exact R.
        * apply (g_agree _ _ _ _ G).
        * intros j _. apply (g_agree _ _ _ _ G).
        * intro h'. destruct (Nat.eq_dec h' h) as [->|N].
          -- rewrite upd_same. destruct Lk as [P Rd W X Nd Wt]. constructor; cbn [poisoned readers writer waiting]; auto.
             ++ intro j. rewrite Rd. destruct (Nat.eq_dec j i) as [->|Nj]; [rewrite upd_same; reflexivity|rewrite upd_other by exact Nj; reflexivity].
             ++ intro j. rewrite W. destruct (Nat.eq_dec j i) as [->|Nj]; [rewrite upd_same; reflexivity|rewrite upd_other by exact Nj; reflexivity].
             ++ constructor; [|exact Nd]. intro J. assert (Y : existsb (Nat.eqb i) (waiting (c_lock c h)) = true); [|congruence].
                apply existsb_exists. exists i. split; [exact J|apply Nat.eqb_refl].
             ++ intros j J. destruct (Nat.eq_dec j i) as [->|Nj]; [rewrite upd_same; eauto|rewrite upd_other by exact Nj].
                destruct J as [->|J]; [congruence|auto].
          -- rewrite upd_other by exact N. apply lock_ok_goto; [apply (g_lock _ _ _ _ G)|apply Nw; congruence|reflexivity|reflexivity].
    - injection Ts as <-. destruct Sh as (t & Eh & -> & Sf). pose proof (g_lock _ _ _ _ G h) as Lk.
      assert (Wi : writer (c_lock c h) = Some i) by (apply (lo_write _ _ _ _ Lk); rewrite Eh; exists t; left; reflexivity).
      eapply (good_goto c L1 st1 hs i o _ d) with (hsi' := []); [exact G|exact Et|exact Es|exact Id| | | | |].
      + left. split; [reflexivity|]. split; [reflexivity|exact Sf].
      + exact R.
      + intros m h' t' [].
      + intros j _. apply (g_agree _ _ _ _ G).
      + intro h'. destruct (Nat.eq_dec h' h) as [->|N].
        * rewrite upd_same. destruct Lk as [P Rd W X Nd Wt]. constructor; cbn [with_readers poisoned readers writer waiting]; auto.
          -- rewrite P. reflexivity.
          -- intro j. rewrite Rd. destruct (Nat.eq_dec j i) as [->|Nj]; [rewrite upd_same, Eh; reflexivity|rewrite upd_other by exact Nj; reflexivity].
          -- intro j. destruct (Nat.eq_dec j i) as [->|Nj]; [rewrite upd_same|rewrite upd_other by exact Nj].
             ++ split; [discriminate|intros (? & [])].
             ++ split; [discriminate|]. intro J. apply W in J. congruence.
          -- intros j J. destruct (Nat.eq_dec j i) as [->|Nj]; [destruct (Nw h); [discriminate|exact J]|rewrite upd_other by exact Nj; auto].
        * rewrite upd_other by exact N. apply lock_ok_goto; [apply (g_lock _ _ _ _ G)|apply Nw; discriminate| |].
          -- rewrite Eh. reflexivity.
          -- rewrite Eh. symmetry. apply write_cons. right; congruence.
    - destruct Sh as (m & t & J & Sf). rewrite (g_agree _ _ _ _ G i m h t J) in Ts. injection Ts as <-.
      eapply (good_goto c L1 st1 hs i o _ d) with (hsi' := hs i); [exact G|exact Et|exact Es|exact Id| | | | |].
      + left. split; [reflexivity|]. split; [reflexivity|exact Sf].
      + exact R.
      + apply (g_agree _ _ _ _ G).
      + intros j _. apply (g_agree _ _ _ _ G).
      + intro h'. apply lock_ok_goto; [apply (g_lock _ _ _ _ G)|apply Nw; discriminate|reflexivity|reflexivity].
    - injection Ts as <-. destruct Sh as (t0 & o' & r' & Eh & K & St & Sf).
      assert (E : nth_error (c_world c) h = Some t0) by (apply (g_agree _ _ _ _ G i true); rewrite Eh; left; reflexivity).
      eapply (good_goto c L1 st1 hs i o _ d) with (hsi' := [(true, h, t)]); [exact G|exact Et|exact Es|exact Id| | | | |].
      + right. exists o', r'. split; [reflexivity|]. split; [reflexivity|exact Sf].
      + simpl. eapply run_step; [exact R|exact K|]. apply St. exact E.
      + intros m h' t' [[= <- <- <-]|[]]. unfold w_set. rewrite nth_list_set, Nat.eqb_refl, E. reflexivity.
      + intros j N m h' t' J. unfold w_set. rewrite nth_list_set. destruct (Nat.eqb_spec h h') as [<-|_]; [|exact (g_agree _ _ _ _ G j m h' t' J)].
        destruct N. apply (excl c L1 st1 hs i j m h t0 t' G); [rewrite Eh; left; reflexivity|exact J].
      + intro h'. apply lock_ok_goto; [apply (g_lock _ _ _ _ G)|apply Nw; discriminate| |].
        * rewrite Eh. reflexivity.
        * rewrite Eh. split; intros (t1 & [[= <- _]|[]]); eexists; left; reflexivity.
  Qed.

  Lemma parts_ret o r (l : hist) : parts o r l ->
    In (o, r) l \/ (exists m, r = Panic m) \/ (exists n o', r = Ret (RNode n) /\ In (o', Ret (RNode n)) l).
  Proof.
    intros P. destruct P; [left; left; reflexivity| | |right; left; eauto];
      right; right; do 2 eexists; (split; [reflexivity|left; reflexivity]).
  Qed.

  Lemma return_good c L st hs i o r : good c L st hs -> c_thread c i = Running o (Done r) ->
    exists E st' hs', good {| c_world := c_world c; c_lock := c_lock c; c_thread := upd (c_thread c) i Idle;
           c_trace := ERet i o r :: c_trace c |} (E ++ L) st' hs'.
  Proof.
    intros G0 Et. destruct (normal _ _ _ _ _ _ _ G0 Et) as (E1 & st1 & d & G & Es & Id & Sh). clear G0.
    destruct Sh as [Eh P]. exists (LRet i o r :: E1), (upd st1 i None), hs. cbn [app].
    remember (E1 ++ L) as L1 eqn:EL1. clear L st E1 EL1.
    pose proof (fun h N => not_waiting _ _ _ _ _ _ _ h G Et N) as Nw.
    destruct G as [Gl Ge Gr Gk Gi Gu Ga Gc]. constructor; cbn [c_world c_lock c_thread c_trace]; auto.
    - eapply lin_ret; eauto.
    - simpl. rewrite Ge. reflexivity.
    - intros o1 r1 J. simpl in J. destruct J as [[= <- <-]|J]; [|apply Gk; exact J].
      assert (Ir : incl (rev d) (effects L1)) by (intros x Jx; apply Id; apply in_rev; exact Jx).
      destruct (parts_ret _ _ _ P) as [X|[X|(n & o' & X & Y)]]; [left; apply Ir; exact X|right; left; exact X|right; right].
      exists n, o'. split; [exact X|apply Ir; exact Y].
    - intros j. destruct (Nat.eq_dec j i) as [->|N]; [rewrite !upd_same; auto|rewrite !upd_other by exact N; auto].
    - intros j o1 p1. destruct (Nat.eq_dec j i) as [->|N]; [rewrite upd_same; discriminate|rewrite !upd_other by exact N; apply Gu].
    - intro h. destruct (Gc h) as [A B C D E F]. constructor; auto.
      intros j J. destruct (Nat.eq_dec j i) as [->|N]; [destruct (Nw h); [discriminate|exact J]|rewrite upd_other by exact N; auto].
  Qed.

  Lemma call_good c L st hs i o : good c L st hs -> c_thread c i = Idle -> can_call (returned (c_trace c)) o ->
    exists E st' hs', good {| c_world := c_world c; c_lock := c_lock c; c_thread := upd (c_thread c) i (Running o (op_prog o));
           c_trace := ECall i o :: c_trace c |} (E ++ L) st' hs'.
  Proof.
    intros [Gl Ge Gr Gk Gi Gu Ga Gc] Et K. destruct (Gi i Et) as [Es Eh].
    exists [LCall i o], (upd st i (Some (o, []))), hs. cbn [app].
    constructor; cbn [c_world c_lock c_thread c_trace]; auto.
    - apply lin_call; assumption.
    - simpl. rewrite Ge. reflexivity.
    - intros j. destruct (Nat.eq_dec j i) as [->|Nj]; [rewrite upd_same; discriminate|rewrite !upd_other by exact Nj; auto].
    - intros j o1 p1. destruct (Nat.eq_dec j i) as [->|Nj]; [|rewrite !upd_other by exact Nj; apply Gu].
      rewrite !upd_same. intros [= <- <-]. exists []. split; [reflexivity|]. split; [intros x []|]. rewrite Eh.
      apply op_safe; [|apply nestb_spec]. eapply known_ret_call; eassumption.
    - intro h. destruct (Gc h) as [A B C D E F]. constructor; auto.
      intros j J. destruct (F j J) as (o1 & k & E1). destruct (Nat.eq_dec j i) as [->|Nj]; [congruence|rewrite upd_other by exact Nj; eauto].
  Qed.

  Lemma inside_good wp c c' L st hs : good c L st hs -> inside wp c c' -> exists E st' hs', good c' (E ++ L) st' hs'.
  Proof.
    intros G I. destruct I; [eapply thread_step_good; eauto|eapply return_good; eauto].
  Qed.

  Theorem reachable_good wp (allowed : nat -> op -> Prop) (c : cfg) :
    reachable wp allowed c -> exists L st hs, good c L st hs.
  Proof.
    intros R. induction R as [|c1 c2 R IH St].
    - exists [], (fun _ => None), (fun _ => []). constructor; simpl; auto.
      + constructor.
      + constructor.
      + intros o r [].
      + discriminate.
      + intros i m h t [].
      + intro h. constructor; simpl; auto; [|constructor|tauto]. intro i. split; [discriminate|intros (t & [])].
    - destruct IH as (L & st & hs & G). destruct St as [i o c Et K Al|c c' I].
      + destruct (call_good _ _ _ _ _ _ G Et K) as (E & X). exists (E ++ L). exact X.
      + destruct (inside_good _ _ _ _ _ _ G I) as (E & X). exists (E ++ L). exact X.
  Qed.

  (** Going on only adds to what has happened. *)
  Lemma steps_good wp (allowed : nat -> op -> Prop) (c c' : cfg) L st hs : good c L st hs -> steps wp allowed c c' ->
    exists E st' hs', good c' (E ++ L) st' hs'.
  Proof.
    intros G R. induction R as [|c1 c2 R IH St].
    - exists [], st, hs. exact G.
    - destruct IH as (E1 & st1 & hs1 & G1).
      assert (X : exists E st' hs', good c2 (E ++ (E1 ++ L)) st' hs').
      { destruct St as [i o c3 Et K Al|c3 c4 I]; [eapply call_good; eauto|eapply inside_good; eauto]. }
      destruct X as (E & st' & hs' & X). exists (E ++ E1), st', hs'. rewrite <- app_assoc. exact X.
  Qed.
End Inv.
