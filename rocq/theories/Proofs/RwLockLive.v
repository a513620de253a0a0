(** Calls under way come to an end. *)
From Coq Require Import String List Arith Lia Bool.
From Verif.Model Require Import Ord BTree Outcome Utils Tree RwLock.
From Verif.Spec Require Import TreeSpec RwLockSpec.
From Verif.Proofs Require Import OrdFacts BTreeFacts LoopFacts UtilsFacts TreeFacts TreeHist RwLockSafe RwLockInv.
Import ListNotations.

(** One component of a list goes down. *)
Inductive lower {S : Type} (R : S -> S -> Prop) : list S -> list S -> Prop :=
| lower_here a a' l : R a' a -> lower R (a' :: l) (a :: l)
| lower_next a l l' : lower R l' l -> lower R (a :: l') (a :: l).
Lemma lower_acc {S} (R : S -> S -> Prop) l : Forall (Acc R) l -> Acc (lower R) l.
Proof.
  induction 1 as [|a l A F IH]; [constructor; intros y Y; inversion Y|].
  revert l F IH. induction A as [a A IHa]. intros l F IHl. induction IHl as [l Al IHl2].
  constructor. intros y Y. inversion Y as [? ? ? Ra|? ? l' Lo]; subst.
  - apply IHa; [assumption|exact F|constructor; exact Al].
  - apply IHl2; [assumption|]. clear - F Lo. induction Lo; inversion F; subst; constructor; auto. eapply Acc_inv; eauto.
Qed.

Section Live.
  Context {T AK V : Type} `{OrdEq T} `{OrdEq AK} `{OrdEq V}.
  Local Notation wld := (world T AK V).
  Local Notation hist := (history T AK V).
  Local Notation op := (tr_op T AK V).
  Local Notation val := (tr_val T AK V).
  Local Notation pr := (prog T AK V).
  Local Notation cfg := (config T AK V).
  Local Notation ts := (tstate T AK V).

  (** ** Termination *)
  Inductive psub : pr val -> pr val -> Prop :=
  | ps_new k h : psub (k h) (New k)
  | ps_rlock h k b : psub (k b) (RLock h k)
  | ps_runlock h k : psub k (RUnlock h k)
  | ps_wlock h k b : psub (k b) (WLock h k)
  | ps_wunlock h b k : psub k (WUnlock h b k)
  | ps_get h k t : psub (k t) (Get h k)
  | ps_put h t k : psub k (Put h t k).
  (** Where a thread is, and whether it waits in line there. *)
  Inductive before : ts * bool -> ts * bool -> Prop :=
  | bf_ret o r b b' : before (Idle, b') (Running o (Done r), b)
  | bf_step o p p' b b' : psub p' p -> before (Running o p', b') (Running o p, b)
  | bf_queue o p : before (Running o p, true) (Running o p, false).

  Lemma before_acc_running o p : forall b, Acc before (Running o p, b).
  Proof.
    assert (Fin : forall p, (forall p', psub p' p -> forall b, Acc before (Running o p', b)) -> forall b, Acc before (Running o p, b)).
    { clear p. intros p Sub.
      assert (Ht : Acc before (Running o p, true)).
      { constructor. intros y Y. inversion Y; subst; [constructor; intros z Z; inversion Z|auto]. }
      intros [|]; [exact Ht|]. constructor. intros y Y. inversion Y; subst; [constructor; intros z Z; inversion Z|auto|exact Ht]. }
    induction p; apply Fin; intros p' Y; inversion Y; subst; auto.
  Qed.
  Lemma before_acc x : Acc before x.
  Proof. destruct x as [[|o p] b]; [constructor; intros y Y; inversion Y|apply before_acc_running]. Qed.

  Definition queued (c : cfg) (i : nat) : bool :=
    match c_thread c i with
    | Running _ (WLock h _) => existsb (Nat.eqb i) (waiting (c_lock c h))
    | _ => false
    end.
  Definition place (c : cfg) (i : nat) : ts * bool := (c_thread c i, queued c i).

  Lemma existsb_cons_other i j l : j <> i -> existsb (Nat.eqb j) (i :: l) = existsb (Nat.eqb j) l.
  Proof. intro N. simpl. rewrite (proj2 (Nat.eqb_neq _ _) N). reflexivity. Qed.
  Lemma existsb_drop_other i j l : j <> i -> existsb (Nat.eqb j) (drop_one i l) = existsb (Nat.eqb j) l.
  Proof.
    intro N. induction l as [|x l IH]; [reflexivity|]. simpl. destruct (Nat.eqb_spec x i) as [->|Nx].
    - rewrite (proj2 (Nat.eqb_neq _ _) N). reflexivity.
    - simpl. rewrite IH. reflexivity.
  Qed.

  Lemma queued_other c c' i j : j <> i -> c_thread c' j = c_thread c j ->
    (forall h, existsb (Nat.eqb j) (waiting (c_lock c' h)) = existsb (Nat.eqb j) (waiting (c_lock c h))) ->
    queued c' j = queued c j.
  Proof. intros N Et El. unfold queued. rewrite Et. destruct (c_thread c j) as [|o []]; auto. Qed.

  Lemma thread_step_place wp i c c' : thread_step wp i c = Some c' ->
    before (place c' i) (place c i) /\ (forall j, j <> i -> place c' j = place c j).
  Proof.
    intro Ts. unfold thread_step in Ts. destruct (c_thread c i) as [|o p] eqn:Et; [discriminate|].
    assert (Fin : forall w ls p', (forall h j, j <> i -> existsb (Nat.eqb j) (waiting (ls h)) = existsb (Nat.eqb j) (waiting (c_lock c h))) ->
      let c2 := {| c_world := w; c_lock := ls; c_thread := upd (c_thread c) i (Running o p'); c_trace := c_trace c |} in
      (psub p' p \/ (p' = p /\ queued c i = false /\ queued c2 i = true)) ->
      before (place c2 i) (place c i) /\ (forall j, j <> i -> place c2 j = place c j)).
    { intros w ls p' Hw c2 Sub. split.
      - unfold place. rewrite Et. replace (c_thread c2 i) with (@Running T AK V o p') by (unfold c2; simpl; rewrite upd_same; reflexivity).
        destruct Sub as [Sub|(-> & -> & ->)]; [apply bf_step; exact Sub|apply bf_queue].
      - intros j N. unfold place. assert (E : c_thread c2 j = c_thread c j) by (unfold c2; simpl; apply upd_other; exact N).
        rewrite E, (queued_other c c2 i j N E); [reflexivity|]. intro h. apply Hw. exact N. }
    destruct p as [r|k|h k|h k|h k|h b k|h k|h t k]; cbv zeta in Ts.
    - discriminate.
    - injection Ts as <-. apply Fin; [reflexivity|left; constructor].
    - destruct (may_read wp (c_lock c h)); [|discriminate]. injection Ts as <-. apply Fin; [|left; constructor].
      intros h' j N. destruct (Nat.eq_dec h' h) as [->|Nh]; [rewrite upd_same; reflexivity|rewrite upd_other by exact Nh; reflexivity].
    - injection Ts as <-. apply Fin; [|left; constructor].
      intros h' j N. destruct (Nat.eq_dec h' h) as [->|Nh]; [rewrite upd_same; reflexivity|rewrite upd_other by exact Nh; reflexivity].
    - destruct (may_write (c_lock c h)).
      + injection Ts as <-. apply Fin; [|left; constructor].
        intros h' j N. destruct (Nat.eq_dec h' h) as [->|Nh]; [rewrite upd_same|rewrite upd_other by exact Nh; reflexivity].
        cbn [waiting]. apply existsb_drop_other. exact N.
      + destruct (existsb (Nat.eqb i) (waiting (c_lock c h))) eqn:Ex; [discriminate|]. injection Ts as <-. apply Fin.
        * intros h' j N. destruct (Nat.eq_dec h' h) as [->|Nh]; [rewrite upd_same|rewrite upd_other by exact Nh; reflexivity].
          cbn [waiting]. apply existsb_cons_other. exact N.
        * right. split; [reflexivity|]. unfold queued. rewrite Et. split; [exact Ex|]. cbn [c_thread c_lock]. rewrite !upd_same.
          cbn [waiting existsb]. rewrite Nat.eqb_refl. reflexivity.
    - injection Ts as <-. apply Fin; [|left; constructor].
      intros h' j N. destruct (Nat.eq_dec h' h) as [->|Nh]; [rewrite upd_same; reflexivity|rewrite upd_other by exact Nh; reflexivity].
    - destruct (nth_error (c_world c) h); [|discriminate]. injection Ts as <-. apply Fin; [reflexivity|left; constructor].
    - injection Ts as <-. apply Fin; [reflexivity|left; constructor].
  Qed.

  Lemma inside_place wp c c' : inside wp c c' ->
    exists i, c_thread c i <> Idle /\ before (place c' i) (place c i) /\ (forall j, j <> i -> place c' j = place c j).
  Proof.
    intros [i c1 c2 Ts|i o r c1 Et].
    - exists i. split; [|apply (thread_step_place _ _ _ _ Ts)]. unfold thread_step in Ts. destruct (c_thread c1 i); [discriminate|discriminate].
    - exists i. split; [congruence|]. split.
      + unfold place at 2. rewrite Et. unfold place. cbn [c_thread]. rewrite upd_same. apply bf_ret.
      + intros j N. unfold place. cbn [c_thread]. rewrite upd_other by exact N. f_equal.
        eapply queued_other; [exact N|simpl; apply upd_other; exact N|reflexivity].
  Qed.

  Lemma lower_map c c' i l : NoDup l -> In i l -> before (place c' i) (place c i) -> (forall j, j <> i -> place c' j = place c j) ->
    lower before (map (place c') l) (map (place c) l).
  Proof.
    intros Nd J B O. induction l as [|x l IH]; [destruct J|]. inversion Nd as [|? ? Nx Nl]; subst. destruct J as [->|J].
    - cbn [map]. replace (map (place c') l) with (map (place c) l); [apply lower_here; exact B|].
      apply map_ext_in. intros j Jj. symmetry. apply O. intros ->. contradiction.
    - cbn [map]. rewrite (O x); [apply lower_next; auto|]. intros ->. contradiction.
  Qed.

  (** ** Progress *)
  Section Progress.
    Variable wp : bool.
    Variables (c : cfg).

    Definition stops : Prop := forall c', ~ inside wp c c'.

    Lemma blocked L st hs i o p : good c L st hs -> stops -> c_thread c i = Running o p ->
      (exists h k, p = RLock h k /\ may_read wp (c_lock c h) = false /\ all_reads (hs i) /\ (nestb o = false -> hs i = [])) \/
      (exists h k, p = WLock h k /\ may_write (c_lock c h) = false /\ hs i = []).
    Proof.
      intros G0 St Et. destruct (normal _ _ _ _ _ _ _ G0 Et) as (L1 & st1 & d & G & Es & Id & Sh).
      assert (No : thread_step wp i c = None).
      { destruct (thread_step wp i c) as [c'|] eqn:E; [|reflexivity]. destruct (St c'). eapply in_run; eauto. }
      unfold thread_step in No. rewrite Et in No.
      destruct p as [r|k|h k|h k|h k|h b k|h k|h t k]; cbv zeta in No; cbn [shape] in Sh; try discriminate.
      - exfalso. eapply St. eapply in_ret; eauto.
      - destruct (may_read wp (c_lock c h)) eqn:E; [discriminate|]. left. exists h, k. destruct Sh as (A & B & _). auto.
      - destruct (may_write (c_lock c h)) eqn:E; [discriminate|]. right. exists h, k. destruct Sh as (A & _). auto.
      - exfalso. destruct Sh as (m & t & J & _). rewrite (g_agree _ _ _ _ G i m h t J) in No. discriminate.
    Qed.

    Lemma holder_runs L st hs i : good c L st hs -> hs i <> [] -> exists o p, c_thread c i = Running o p.
    Proof.
      intros G N. destruct (c_thread c i) as [|o p] eqn:E; [|eauto]. destruct (g_idle _ _ _ _ G i E) as [_ X]. contradiction.
    Qed.
    Lemma no_writer L st hs h : good c L st hs -> stops -> writer (c_lock c h) = None.
    Proof.
      intros G St. destruct (writer (c_lock c h)) as [i|] eqn:W; [|reflexivity].
      apply (lo_write _ _ _ _ (g_lock _ _ _ _ G h)) in W. destruct W as (t & J).
      destruct (holder_runs L st hs i G) as (o & p & Et); [intro X; rewrite X in J; destruct J|].
      destruct (blocked L st hs i o p G St Et) as [(h' & k & _ & _ & A & _)|(h' & k & _ & _ & A)].
      - specialize (A _ _ _ J). discriminate.
      - rewrite A in J. destruct J.
    Qed.

    (** Who reads while everything has stopped waits to read again, behind a writer. *)
    Lemma reader_trapped L st hs i h : good c L st hs -> stops -> In i (readers (c_lock c h)) -> trap wp c.
    Proof.
      intros G St Ir.
      assert (Nh : hs i <> []).
      { intro Eh. pose proof (lo_read _ _ _ _ (g_lock _ _ _ _ G h) i) as C. rewrite Eh in C. cbn in C.
        apply (count_occ_not_In Nat.eq_dec) in C. contradiction. }
      destruct (holder_runs L st hs i G Nh) as (o & p & Et).
      destruct (blocked L st hs i o p G St Et) as [(h' & k & -> & Mr & A & N)|(h' & k & _ & _ & A)]; [|congruence].
      unfold may_read in Mr. rewrite (no_writer L st hs h' G St) in Mr. apply orb_false_iff in Mr. destruct Mr as [Mw Mr].
      destruct wp; [|discriminate]. destruct (waiting (c_lock c h')) as [|j ws] eqn:Ew; [discriminate|].
      destruct (lo_wait _ _ _ _ (g_lock _ _ _ _ G h') j) as (o' & k' & Ej); [rewrite Ew; left; reflexivity|].
      split; [reflexivity|]. exists i, j, h, h', o, o', k, k'.
      split; [congruence|]. split; [exact Et|]. split; [apply nestb_spec; destruct (nestb o); [reflexivity|destruct (Nh (N eq_refl))]|].
      split; [exact Ir|]. split; [exact Ej|rewrite Ew; left; reflexivity].
    Qed.
    Lemma writer_trapped L st hs i o h k : good c L st hs -> stops -> c_thread c i = Running o (WLock h k) -> trap wp c.
    Proof.
      intros G St Et. destruct (blocked L st hs i o _ G St Et) as [(h' & k' & X & _)|(h' & k' & [= <- <-] & Mw & _)]; [discriminate|].
      unfold may_write in Mw. rewrite (no_writer L st hs h G St) in Mw. destruct (readers (c_lock c h)) as [|r l] eqn:Er; [discriminate|].
      eapply reader_trapped; [exact G|exact St|]. rewrite Er. left. reflexivity.
    Qed.
    Lemma idle_or_trapped L st hs : good c L st hs -> stops -> (forall i, c_thread c i <> Idle -> trap wp c).
    Proof.
      intros G St i Ni. destruct (c_thread c i) as [|o p] eqn:Et; [congruence|].
      destruct (blocked L st hs i o p G St Et) as [(h & k & -> & Mr & _)|(h & k & -> & _)].
      - unfold may_read in Mr. rewrite (no_writer L st hs h G St) in Mr.
        destruct (waiting (c_lock c h)) as [|j ws] eqn:Ew; [rewrite orb_true_r in Mr; discriminate|].
        destruct (lo_wait _ _ _ _ (g_lock _ _ _ _ G h) j) as (o' & k' & Ej); [rewrite Ew; left; reflexivity|].
        eapply writer_trapped; eauto.
      - eapply writer_trapped; eauto.
    Qed.
  End Progress.

  Lemma ends_gen wp l : NoDup l -> forall c : cfg,
    (forall i, c_thread c i <> Idle -> In i l) -> Acc (fun c2 c1 => inside wp c1 c2) c.
  Proof.
    intros Nd. assert (A : forall c, Acc (lower before) (map (place c) l)).
    { intro c. apply lower_acc. apply Forall_forall. intros x J. apply before_acc. }
    assert (Main : forall m, Acc (lower before) m -> forall c : cfg, map (place c) l = m ->
      (forall i, c_thread c i <> Idle -> In i l) -> Acc (fun c2 c1 => inside wp c1 c2) c).
    { induction 1 as [m _ IH]. intros c Em Rl. constructor. intros c' I.
      destruct (inside_place wp c c' I) as (i & Ni & B & O).
      eapply (IH (map (place c') l)); [rewrite <- Em; eapply lower_map; eauto|reflexivity|].
      intros j Nj. destruct (Nat.eq_dec j i) as [->|N]; [auto|]. apply Rl. specialize (O j N). unfold place in O. congruence. }
    intros. eapply Main; eauto.
  Qed.

  Lemma reachable_finite wp (allowed : nat -> op -> Prop) (c : cfg) : reachable wp allowed c ->
    exists l, NoDup l /\ (forall i, c_thread c i <> Idle -> In i l) /\ (forall i, In i l -> exists o, allowed i o).
  Proof.
    intro R. induction R as [|c1 c2 R (l & Nd & Rl & Al) St].
    - exists []. split; [constructor|]. split; [|intros i []]. intros i X. simpl in X. congruence.
    - destruct St as [i o c Et K A|c c' I].
      + destruct (in_dec Nat.eq_dec i l) as [J|J].
        * exists l. split; [exact Nd|]. split; [|exact Al]. intros j. cbn [c_thread]. destruct (Nat.eq_dec j i) as [->|N]; [auto|].
          rewrite upd_other by exact N. auto.
        * exists (i :: l). split; [constructor; assumption|]. split.
          -- intros j. cbn [c_thread]. destruct (Nat.eq_dec j i) as [->|N]; [left; reflexivity|].
             rewrite upd_other by exact N. right. auto.
          -- intros j [<-|Jj]; [eauto|auto].
      + exists l. split; [exact Nd|]. split; [|exact Al]. destruct (inside_place wp c c' I) as (i & Ni & B & O).
        intros j Nj. destruct (Nat.eq_dec j i) as [->|N]; [auto|]. apply Rl. specialize (O j N). unfold place in O. congruence.
  Qed.

  Theorem ends_any wp (allowed : nat -> op -> Prop) (c : cfg) : reachable wp allowed c -> Acc (fun c2 c1 => inside wp c1 c2) c.
  Proof. intro R. destruct (reachable_finite _ _ _ R) as (l & Nd & Rl & _). eapply ends_gen; eauto. Qed.
  Theorem idle_or_trap wp (allowed : nat -> op -> Prop) (c : cfg) : reachable wp allowed c -> (forall c', ~ inside wp c c') ->
    forall i, c_thread c i <> Idle -> trap wp c.
  Proof.
    intros R St. destruct (reachable_good _ _ _ R) as (L & st & hs & G). exact (idle_or_trapped wp c L st hs G St).
  Qed.
  Lemma reachable_inside wp (allowed : nat -> op -> Prop) (c c' : cfg) : reachable wp allowed c -> inside wp c c' -> reachable wp allowed c'.
  Proof. intros R I. eapply steps_step; [exact R|apply st_inside; exact I]. Qed.
  Theorem finishes_no_trap wp (allowed : nat -> op -> Prop) : (forall c : cfg, reachable wp allowed c -> ~ trap wp c) ->
    forall c : cfg, reachable wp allowed c -> finishes wp c.
  Proof.
    intros Nt c R. pose proof (ends_any wp allowed c R) as A. induction A as [c _ IH]. constructor.
    - intros c' I. apply IH; [exact I|]. eapply reachable_inside; eauto.
    - intros St i. destruct (c_thread c i) as [|o p] eqn:Et; [reflexivity|]. exfalso. apply (Nt c R).
      apply (idle_or_trap wp allowed c R St i). congruence.
  Qed.

  (** ** The trees whose locks an operation takes *)
  Fixpoint touches {A} (R W : nat -> Prop) (Q : A -> Prop) (p : pr A) : Prop :=
    match p with
    | Done (Ret a) => Q a
    | Done _ => True
    | New k => forall h, touches R W Q (k h)
    | RLock h k => R h /\ forall b, touches R W Q (k b)
    | RUnlock _ k => touches R W Q k
    | WLock h k => W h /\ forall b, touches R W Q (k b)
    | WUnlock _ _ k => touches R W Q k
    | Get _ k => forall t, touches R W Q (k t)
    | Put _ _ k => touches R W Q k
    end.
  Lemma touches_finally {A B} R W (Q : A -> Prop) (Q' : B -> Prop) (p : pr A) (f : outcome A -> pr B) : touches R W Q p ->
    (forall a, Q a -> touches R W Q' (f (Ret a))) -> (forall m, touches R W Q' (f (Panic m))) -> touches R W Q' (f NoFuel) ->
    touches R W Q' (pfinally p f).
  Proof. intros Tp Tf. induction p; simpl in *; intuition. destruct r; auto. Qed.
  Lemma touches_bind {A B} R W (Q : A -> Prop) (Q' : B -> Prop) (p : pr A) (f : A -> pr B) : touches R W Q p ->
    (forall a, Q a -> touches R W Q' (f a)) -> touches R W Q' (pbind p f).
  Proof. intros Tp Tf. eapply touches_finally; [exact Tp| | |]; simpl; auto. Qed.
  Definition anything {A} : A -> Prop := fun _ => True.
  Lemma touches_with {A} (R W : nat -> Prop) (Q : A -> Prop) h (f : Inner T AK V -> pr A) : R h ->
    (forall t, touches R W Q (f t)) -> touches R W Q (p_with h f).
  Proof.
    intros Rh Tf. split; [exact Rh|]. intros [|]; simpl; [exact I|]. intro t. eapply touches_finally; [apply Tf| | |]; simpl; auto.
  Qed.
  Lemma touches_with_mut {A} (R W : nat -> Prop) (Q : A -> Prop) h (f : Inner T AK V -> outcome (A * Inner T AK V)) : W h ->
    (forall t a t', f t = Ret (a, t') -> Q a) -> touches R W Q (p_with_mut h f).
  Proof.
    intros Wh Qf. split; [exact Wh|]. intros [|]; simpl; [exact I|]. intro t. destruct (f t) as [[a t']|m|] eqn:E; simpl; eauto.
  Qed.
  Lemma touches_done {A} (R W : nat -> Prop) (r : outcome A) : touches R W anything (Done r).
  Proof. destruct r; exact I. Qed.
  Lemma touches_is_same (R W : nat -> Prop) a b : R a -> R b -> touches R W anything (p_is_same a b).
  Proof. intros Ra Rb. apply touches_with; [exact Ra|]. intro t. apply touches_with; [exact Rb|]. intro. exact I. Qed.
  Lemma touches_collect (R W : nat -> Prop) h ns : Forall (fun n => R (nd_inner n)) ns ->
    touches R W anything (p_collect h (map (fun n => Done (Ret n)) ns)).
  Proof.
    induction 1 as [|n ns Rn F IH]; [exact I|]. cbn [map p_collect].
    eapply (touches_bind _ _ (fun m => m = n)); [reflexivity|]. intros m ->.
    eapply (touches_bind _ _ anything); [apply touches_with; [exact Rn|intro; exact I]|]. intros b _.
    eapply (touches_bind _ _ anything); [apply touches_done|]. intros u _.
    eapply (touches_bind _ _ anything); [exact IH|]. intros l _. exact I.
  Qed.
  Lemma touches_make_node (R W : nat -> Prop) h : W h -> touches R W (fun n => nd_inner n = h) (p_make_node h).
  Proof. intro Wh. apply touches_with_mut; [exact Wh|]. intros t a t'. destruct (in_make_node t). intros [= <- _]. reflexivity. Qed.
  Lemma touches_make_alt (R W : nat -> Prop) h (x : ContentInner T AK V) : W h -> touches R W (fun n => al_inner n = h) (p_make_alt h x).
  Proof. intro Wh. apply touches_with_mut; [exact Wh|]. intros t a t'. destruct (in_make_alt t x). intros [= <- _]. reflexivity. Qed.
  Lemma touches_branch (R W : nat -> Prop) h x ns : R h -> W h -> Forall (fun n => R (nd_inner n)) ns ->
    touches R W (fun n => al_inner n = h) (p_make_branch_alt h x ns).
  Proof.
    intros Rh Wh F. eapply (touches_bind _ _ anything); [apply touches_with; [exact Rh|intro; apply touches_collect; exact F]|].
    intros l _. apply touches_make_alt. exact Wh.
  Qed.
  Lemma touches_add_alt (R W : nat -> Prop) n a : R (nd_inner n) -> R (al_inner a) -> W (nd_inner n) ->
    touches R W anything (p_add_alt n a).
  Proof.
    intros Rn Ra Wn. eapply (touches_bind _ _ anything); [apply touches_is_same; assumption|]. intros b _.
    eapply (touches_bind _ _ anything); [apply touches_done|]. intros u _. apply touches_with_mut; [exact Wn|]. intros; exact I.
  Qed.
  Lemma touches_map {A B} (R W : nat -> Prop) (Q : A -> Prop) (f : A -> B) p : touches R W Q p -> touches R W anything (pmap f p).
  Proof. intro Tp. eapply touches_bind; [exact Tp|]. intros; exact I. Qed.
  Lemma touches_leaf {A} (R W : nat -> Prop) a (f : T -> V -> A) : R (al_inner a) -> touches R W anything (p_with_leaf a f).
  Proof. intro Ra. apply touches_with; [exact Ra|]. intro t. apply touches_done. Qed.
  Lemma touches_branchk {A} (R W : nat -> Prop) a (f : AK -> list nat -> A) : R (al_inner a) -> touches R W anything (p_with_branch a f).
  Proof. intro Ra. apply touches_with; [exact Ra|]. intro t. apply touches_done. Qed.

  Lemma op_touches (o : op) : touches (fun h => In h (given o)) (fun h => In h (changed o)) anything (op_prog o).
  Proof.
    assert (Fn : forall (h : TreeHandle) ns, Forall (fun n => In (nd_inner n) (h :: map nd_inner ns)) ns).
    { intros h ns. apply Forall_forall. intros n J. right. apply in_map. exact J. }
    destruct o; cbn [op_prog]; [eapply (touches_map _ _ anything)|eapply touches_map|eapply touches_map|eapply touches_map|eapply (touches_map _ _ anything)..].
    - simpl. intro h. exact I.
    - apply touches_make_node. left. reflexivity.
    - apply touches_make_alt. left. reflexivity.
    - apply touches_branch; [left; reflexivity|left; reflexivity|apply Fn].
    - eapply (touches_bind _ _ (fun n => nd_inner n = h)); [apply touches_make_node; left; reflexivity|]. intros nn En.
      eapply (touches_bind _ _ (fun n => al_inner n = h)); [apply touches_make_alt; left; reflexivity|]. intros a Ea.
      eapply (touches_bind _ _ anything); [apply touches_add_alt; rewrite ?En, ?Ea; left; reflexivity|]. intros ? _. exact I.
    - eapply (touches_bind _ _ (fun n => nd_inner n = h)); [apply touches_make_node; left; reflexivity|]. intros nn En.
      eapply (touches_bind _ _ (fun n => al_inner n = h)); [apply touches_branch; [left; reflexivity|left; reflexivity|apply Fn]|]. intros a Ea.
      eapply (touches_bind _ _ anything); [apply touches_add_alt; rewrite ?En, ?Ea; left; reflexivity|]. intros ? _. exact I.
    - apply touches_add_alt; [left; reflexivity|right; left; reflexivity|left; reflexivity].
    - eapply (touches_bind _ _ anything); [apply touches_is_same; [left; reflexivity|right; left; reflexivity]|]. intros b _.
      eapply (touches_bind _ _ anything); [apply touches_done|]. intros u _. apply touches_with_mut; [left; reflexivity|]. intros; exact I.
    - eapply (touches_bind _ _ anything); [apply touches_with; [left; reflexivity|intro; apply touches_done]|]. intros l _. exact I.
    - eapply (touches_bind _ _ anything); [apply touches_with; [left; reflexivity|intro; apply touches_done]|]. intros [|] _.
      + eapply (touches_bind _ _ anything); [apply touches_leaf; left; reflexivity|]. intros k _.
        eapply (touches_bind _ _ anything); [apply touches_leaf; left; reflexivity|]. intros v _. exact I.
      + eapply (touches_bind _ _ anything); [apply touches_branchk; left; reflexivity|]. intros k _.
        eapply (touches_bind _ _ anything); [apply touches_branchk; left; reflexivity|]. intros v _. exact I.
  Qed.

  (** A thread only ever takes the locks of the trees of its operation, an allowed one. *)
  Lemma reachable_touches wp (allowed : nat -> op -> Prop) (c : cfg) : reachable wp allowed c ->
    forall i o p, c_thread c i = Running o p ->
      allowed i o /\ touches (fun h => In h (given o)) (fun h => In h (changed o)) anything p.
  Proof.
    intro R. induction R as [|c1 c2 R IH St]; [discriminate|]. destruct St as [i o c Et K A|c c' I].
    - intros j o1 p1. cbn [c_thread]. destruct (Nat.eq_dec j i) as [->|N].
      + rewrite upd_same. intros [= <- <-]. split; [exact A|apply op_touches].
      + rewrite upd_other by exact N. apply IH.
    - destruct I as [i c c' Ts|i o r c Et].
      + unfold thread_step in Ts. destruct (c_thread c i) as [|o p] eqn:Et; [discriminate|].
        destruct (IH i o p Et) as [Al Tp].
        assert (Fin : forall p' w ls, touches (fun h => In h (given o)) (fun h => In h (changed o)) anything p' ->
          forall j o1 p1, c_thread {| c_world := w; c_lock := ls; c_thread := upd (c_thread c) i (Running o p'); c_trace := c_trace c |} j = Running o1 p1 ->
          allowed j o1 /\ touches (fun h => In h (given o1)) (fun h => In h (changed o1)) anything p1).
        { intros p' w ls Tp' j o1 p1. cbn [c_thread]. destruct (Nat.eq_dec j i) as [->|N].
          - rewrite upd_same. intros [= <- <-]. split; assumption.
          - rewrite upd_other by exact N. apply IH. }
        destruct p as [r|k|h k|h k|h k|h b k|h k|h t k]; cbv zeta in Ts; simpl in Tp.
        * discriminate.
        * injection Ts as <-. apply Fin. apply Tp.
        * destruct (may_read wp (c_lock c h)); [|discriminate]. injection Ts as <-. apply Fin. apply Tp.
        * injection Ts as <-. apply Fin. apply Tp.
        * destruct (may_write (c_lock c h)); [injection Ts as <-; apply Fin; apply Tp|].
          destruct (existsb (Nat.eqb i) (waiting (c_lock c h))); [discriminate|]. injection Ts as <-. apply Fin. exact Tp.
        * injection Ts as <-. apply Fin. apply Tp.
        * destruct (nth_error (c_world c) h); [|discriminate]. injection Ts as <-. apply Fin. apply Tp.
        * injection Ts as <-. apply Fin. apply Tp.
      + intros j o1 p1. cbn [c_thread]. destruct (Nat.eq_dec j i) as [->|N]; [rewrite upd_same; discriminate|].
        rewrite upd_other by exact N. apply IH.
  Qed.

  Theorem finishes_separate wp (allowed : nat -> op -> Prop) :
    (forall i j oi oj h, allowed i oi -> nests oi -> In h (given oi) -> allowed j oj -> In h (changed oj) -> i = j) ->
    forall c : cfg, reachable wp allowed c -> finishes wp c.
  Proof.
    intros Sep. apply finishes_no_trap. intros c R (_ & i & j & h & h' & oi & oj & ki & kj & Ne & Ei & Ni & _ & Ej & _).
    destruct (reachable_touches _ _ _ R _ _ _ Ei) as [Ai [Gi _]]. destruct (reachable_touches _ _ _ R _ _ _ Ej) as [Aj [Gj _]].
    apply Ne. exact (Sep i j oi oj h' Ai Ni Gi Aj Gj).
  Qed.
  Theorem finishes_any (allowed : nat -> op -> Prop) (c : cfg) : reachable false allowed c -> finishes false c.
  Proof. apply finishes_no_trap. intros c' _ (X & _). discriminate. Qed.
  Theorem finishes_plain wp (allowed : nat -> op -> Prop) (c : cfg) : (forall i o, allowed i o -> ~ nests o) -> reachable wp allowed c -> finishes wp c.
  Proof. intro N. apply finishes_separate. intros i j oi oj h Ai Ni. destruct (N i oi Ai Ni). Qed.
  Theorem finishes_alone wp (allowed : nat -> op -> Prop) (c : cfg) : (forall i j o o', allowed i o -> allowed j o' -> i = j) -> reachable wp allowed c -> finishes wp c.
  Proof. intro N. apply finishes_separate. intros i j oi oj h Ai _ _ Aj _. exact (N i j oi oj Ai Aj). Qed.

  (** Who holds a read lock is in an operation on that tree. *)
  Lemma reachable_readers wp (allowed : nat -> op -> Prop) (c : cfg) : reachable wp allowed c ->
    forall h i, In i (readers (c_lock c h)) -> exists o p, c_thread c i = Running o p /\ In h (given o).
  Proof.
    intro R. induction R as [|c1 c2 R IH St]; [simpl; tauto|].
    assert (R2 : reachable wp allowed c2) by (eapply steps_step; eauto).
    destruct (reachable_good _ _ _ R2) as (L & sg & hs & G).
    assert (Run : forall h i, In i (readers (c_lock c2 h)) -> exists o p, c_thread c2 i = Running o p).
    { intros h i J. apply (holder_runs c2 L sg hs i G). intro Eh. pose proof (lo_read _ _ _ _ (g_lock _ _ _ _ G h) i) as C.
      rewrite Eh in C. cbn in C. apply (count_occ_not_In Nat.eq_dec) in C. contradiction. }
    destruct St as [i o c Et K A|c c' I].
    - intros h j J. destruct (IH h j J) as (o1 & p1 & Ej & Jg). cbn [c_thread]. destruct (Nat.eq_dec j i) as [->|N]; [congruence|].
      rewrite upd_other by exact N. eauto.
    - destruct I as [i c c' Ts|i o r c Et].
      + unfold thread_step in Ts. destruct (c_thread c i) as [|o p] eqn:Et; [discriminate|].
        destruct (reachable_touches _ _ _ R i o p Et) as [Al Tp].
        assert (Fin : forall p' w ls, (forall h j, In j (readers (ls h)) -> In j (readers (c_lock c h)) \/ (j = i /\ In h (given o))) ->
          forall h j, In j (readers (ls h)) -> exists o1 p1,
            c_thread {| c_world := w; c_lock := ls; c_thread := upd (c_thread c) i (Running o p'); c_trace := c_trace c |} j = Running o1 p1 /\ In h (given o1)).
        { intros p' w ls Hl h j J. cbn [c_thread]. destruct (Nat.eq_dec j i) as [->|N].
          - rewrite upd_same. exists o, p'. split; [reflexivity|]. destruct (Hl h i J) as [J'|[_ X]]; [|exact X].
            destruct (IH h i J') as (o1 & p1 & E & X). congruence.
          - rewrite upd_other by exact N. destruct (Hl h j J) as [J'|[X _]]; [apply (IH h j J')|contradiction]. }
        destruct p as [r|k|h k|h k|h k|h b k|h k|h t k]; cbv zeta in Ts; simpl in Tp.
        * discriminate.
        * injection Ts as <-. apply Fin. auto.
        * destruct (may_read wp (c_lock c h)); [|discriminate]. injection Ts as <-. apply Fin.
          intros h' j J. destruct (Nat.eq_dec h' h) as [->|Nh]; [rewrite upd_same in J|rewrite upd_other in J by exact Nh; auto].
          destruct J as [<-|J]; [right; split; [reflexivity|apply Tp]|left; exact J].
        * injection Ts as <-. apply Fin.
          intros h' j J. destruct (Nat.eq_dec h' h) as [->|Nh]; [rewrite upd_same in J|rewrite upd_other in J by exact Nh; auto].
          left. revert J. apply drop_one_incl.
        * destruct (may_write (c_lock c h)).
          -- injection Ts as <-. apply Fin.
             intros h' j J. destruct (Nat.eq_dec h' h) as [->|Nh]; [rewrite upd_same in J; destruct J|rewrite upd_other in J by exact Nh; auto].
          -- destruct (existsb (Nat.eqb i) (waiting (c_lock c h))); [discriminate|]. injection Ts as <-. apply Fin.
             intros h' j J. destruct (Nat.eq_dec h' h) as [->|Nh]; [rewrite upd_same in J; auto|rewrite upd_other in J by exact Nh; auto].
        * injection Ts as <-. apply Fin.
          intros h' j J. destruct (Nat.eq_dec h' h) as [->|Nh]; [rewrite upd_same in J; auto|rewrite upd_other in J by exact Nh; auto].
        * destruct (nth_error (c_world c) h); [|discriminate]. injection Ts as <-. apply Fin. auto.
        * injection Ts as <-. apply Fin. auto.
      + intros h j J. destruct (IH h j J) as (o1 & p1 & Ej & Jg). destruct (Run h j J) as (o2 & p2 & E2). cbn [c_thread] in *.
        destruct (Nat.eq_dec j i) as [->|N]; [rewrite upd_same in E2; discriminate|]. rewrite upd_other by exact N. eauto.
  Qed.

  Lemma one_tree_given (o : op) : one_tree o -> forall h h', In h (given o) -> In h' (given o) -> h = h'.
  Proof.
    assert (Ns : forall (h : TreeHandle) ns, (forall n, In n ns -> nd_inner n = h) -> forall h1, In h1 (h :: map nd_inner ns) -> h1 = h).
    { intros h ns A h1 [<-|J]; [reflexivity|]. apply in_map_iff in J. destruct J as (n & <- & J). auto. }
    destruct o; cbn [one_tree given]; intros O h1 h2 J1 J2; try (destruct J1 as [<-|[]]; destruct J2 as [<-|[]]; reflexivity).
    - destruct J1.
    - rewrite (Ns _ _ O _ J1), (Ns _ _ O _ J2). reflexivity.
    - rewrite (Ns _ _ O _ J1), (Ns _ _ O _ J2). reflexivity.
    - simpl in J1, J2. intuition congruence.
    - simpl in J1, J2. intuition congruence.
  Qed.

  Theorem trap_same_tree wp (allowed : nat -> op -> Prop) (c : cfg) : (forall i o, allowed i o -> one_tree o) ->
    reachable wp allowed c -> trap wp c ->
    exists i j h oi oj ki kj, i <> j /\ wp = true /\ nests oi /\ In h (given oi) /\ In h (changed oj) /\ 
      c_thread c i = Running oi (RLock h ki) /\ In i (readers (c_lock c h)) /\
      c_thread c j = Running oj (WLock h kj) /\ In j (waiting (c_lock c h)).
  Proof.
    intros O R (W & i & j & h & h' & oi & oj & ki & kj & Ne & Ei & Ni & Ir & Ej & Jw).
    destruct (reachable_touches _ _ _ R _ _ _ Ei) as [Ai [Gi _]]. destruct (reachable_touches _ _ _ R _ _ _ Ej) as [Aj [Gj _]].
    destruct (reachable_readers _ _ _ R h i Ir) as (o1 & p1 & E1 & G1). rewrite Ei in E1. injection E1 as <- <-.
    assert (h = h') by (eapply one_tree_given; [apply (O i oi Ai)|assumption|assumption]). subst h'.
    exists i, j, h, oi, oj, ki, kj. auto 12.
  Qed.
End Live.
