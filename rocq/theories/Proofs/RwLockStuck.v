(** Threads that can never go on. *)
From Coq Require Import String List Arith Lia Bool.
From Verif.Model Require Import Ord BTree Outcome Utils Tree RwLock.
From Verif.Spec Require Import TreeSpec RwLockSpec.
From Verif.Proofs Require Import OrdFacts BTreeFacts LoopFacts UtilsFacts TreeFacts TreeHist RwLockSafe RwLockInv.
Import ListNotations.

Section Stuck.
  Context {T AK V : Type} `{OrdEq T} `{OrdEq AK} `{OrdEq V}.
  Local Notation op := (tr_op T AK V).
  Local Notation val := (tr_val T AK V).
  Local Notation pr := (prog T AK V).
  Local Notation cfg := (config T AK V).

  Lemma may_write_held (l : lock) i : In i (readers l) -> may_write l = false.
  Proof. intro J. unfold may_write. destruct (writer l); [reflexivity|]. destruct (readers l); [destruct J|reflexivity]. Qed.
  Lemma may_read_queue (l : lock) j : In j (waiting l) -> may_read true l = false.
  Proof. intro J. unfold may_read. destruct (writer l); [reflexivity|]. destruct (waiting l); [destruct J|reflexivity]. Qed.
  Lemma queue_seen (l : lock) j : In j (waiting l) -> existsb (Nat.eqb j) (waiting l) = true.
  Proof. intro J. apply existsb_exists. exists j. split; [exact J|apply Nat.eqb_refl]. Qed.

  (** What a step leaves alone: the other threads, their read guards, and their places in line. *)
  Lemma step_others wp (allowed : nat -> op -> Prop) (c c' : cfg) : step wp allowed c c' ->
    exists i, (forall j, j <> i -> c_thread c' j = c_thread c j) /\
      (forall j h, j <> i -> In j (readers (c_lock c h)) -> In j (readers (c_lock c' h))) /\
      (forall j h, j <> i -> In j (waiting (c_lock c h)) -> In j (waiting (c_lock c' h))) /\
      (c_thread c i = Idle \/ (exists o r, c_thread c i = Running o (Done r) /\ c_trace c' = ERet i o r :: c_trace c) \/ thread_step wp i c = Some c').
  Proof.
    intros [i o c1 Et K A|c1 c2 [i c3 c4 Ts|i o r c3 Et]].
    - exists i. cbn [c_thread c_lock]. split; [intros j N; apply upd_other; exact N|]. auto.
    - exists i. split; [|split; [|split; [|auto]]].
      all: revert Ts; unfold thread_step; destruct (c_thread c3 i) as [|o p] eqn:Et; [discriminate|].
      all: destruct p as [r|k|h k|h k|h k|h b k|h k|h t k]; cbv zeta; intro Ts; try discriminate;
        try (injection Ts as <-);
        try (destruct (may_read wp (c_lock c3 h)); [injection Ts as <-|discriminate]);
        try (destruct (may_write (c_lock c3 h)) eqn:Mw; [injection Ts as <-|destruct (existsb (Nat.eqb i) (waiting (c_lock c3 h))); [discriminate|injection Ts as <-]]);
        try (destruct (nth_error (c_world c3) h); [injection Ts as <-|discriminate]); cbn [c_thread c_lock].
      all: try (intros j N; apply upd_other; exact N).
      all: intros j h' N; try (intro J; exact J).
      all: destruct (Nat.eq_dec h' h) as [->|Nh]; [rewrite upd_same; cbn [with_readers readers waiting]|rewrite upd_other by exact Nh; auto].
      all: try (intro J; solve [exact J | right; exact J]).
      + intro J. apply drop_one_In; assumption.
      + intro J. rewrite (may_write_held _ j J) in Mw. discriminate.
      + intro J. apply drop_one_In; assumption.
    - exists i. cbn [c_thread c_lock]. split; [intros j N; apply upd_other; exact N|]. split; [auto|]. split; [auto|].
      right; left; eauto.
  Qed.

  Section Pair.
    Variables (i j : nat) (h : TreeHandle) (oi oj : op) (ki kj : bool -> pr val).
    Hypothesis ij : i <> j.
    Definition deadlocked (c : cfg) : Prop :=
      c_thread c i = Running oi (RLock h ki) /\ c_thread c j = Running oj (WLock h kj) /\
      In i (readers (c_lock c h)) /\ In j (waiting (c_lock c h)).
    Lemma deadlocked_step (c c' : cfg) : deadlocked c -> step true any_call c c' -> deadlocked c'.
    Proof.
      intros (A & B & C & D) St. destruct (step_others _ _ _ _ St) as (x & O1 & O2 & O3 & Ex).
      assert (Xi : i <> x).
      { intros <-. destruct Ex as [Ex|[(o & r & Ex & _)|Ex]]; [congruence|congruence|].
        unfold thread_step in Ex. rewrite A in Ex. cbv zeta in Ex. rewrite (may_read_queue _ _ D) in Ex. discriminate. }
      assert (Xj : j <> x).
      { intros <-. destruct Ex as [Ex|[(o & r & Ex & _)|Ex]]; [congruence|congruence|].
        unfold thread_step in Ex. rewrite B in Ex. cbv zeta in Ex. rewrite (may_write_held _ _ C), (queue_seen _ _ D) in Ex. discriminate. }
      split; [rewrite O1 by exact Xi; exact A|]. split; [rewrite O1 by exact Xj; exact B|]. split; auto.
    Qed.
    Lemma deadlocked_stuck (c : cfg) : deadlocked c -> stuck_forever true c i /\ stuck_forever true c j.
    Proof.
      intro D. assert (S : forall c', steps true any_call c c' -> deadlocked c').
      { intros c' S. induction S as [|c1 c2 S IH St]; [exact D|]. eapply deadlocked_step; eauto. }
      destruct D as (A & B & _). split; (split; [congruence|]); intros c' X; destruct (S c' X) as (A' & B' & _); congruence.
    Qed.
  End Pair.

  (** ** An iterator that creates a node while [make_branch_alt] runs it *)
  Section Lazy.
    Variables (wp : bool) (i : nat) (h : TreeHandle) (x : AK) (o : op).
    Definition lazy_prog : pr val := pmap RAlt (p_make_branch_alt_iter h x [p_make_node h]).

    Definition poison : outcome val := Panic "called `Result::unwrap()` on an `Err` value: PoisonError { .. }"%string.
    Definition lazy_places (c : cfg) : Prop :=
      (exists p, c_thread c i = Running o p /\
        (p = lazy_prog \/
         (exists k, p = Get h k /\ (forall t, exists k', k t = WLock h k') /\ In i (readers (c_lock c h))) \/
         (exists k, p = WLock h k /\ In i (readers (c_lock c h))) \/
         p = RUnlock h (Done poison) \/ p = Done poison)) \/
      In (ERet i o poison) (c_trace c).
    Lemma trace_grows (allowed : nat -> op -> Prop) (c c' : cfg) : step wp allowed c c' -> incl (c_trace c) (c_trace c').
    Proof.
      intros [j oj c1 Et K A|c1 c2 [j c3 c4 Ts|j oj r c3 Et]]; cbn [c_trace]; try (apply incl_tl, incl_refl).
      assert (E : c_trace c4 = c_trace c3); [|rewrite E; apply incl_refl].
      revert Ts. unfold thread_step. destruct (c_thread c3 j) as [|oj p] eqn:Et; [discriminate|].
      destruct p as [r|k|g k|g k|g k|g b k|g k|g t k]; cbv zeta; intro Ts; try discriminate;
        try (injection Ts as <-; reflexivity);
        try (destruct (may_read wp (c_lock c3 g)); [injection Ts as <-|discriminate]; reflexivity);
        try (destruct (may_write (c_lock c3 g)) eqn:Mw; [injection Ts as <-|destruct (existsb (Nat.eqb j) (waiting (c_lock c3 g))); [discriminate|injection Ts as <-]]; reflexivity);
        try (destruct (nth_error (c_world c3) g); [injection Ts as <-|discriminate]; reflexivity).
    Qed.
    Lemma lazy_step (c c' : cfg) : lazy_places c -> step wp any_call c c' -> lazy_places c'.
    Proof.
      intros [(p & Et & P)|J] St; [|right; eapply trace_grows; eauto].
      destruct (step_others _ _ _ _ St) as (y & O1 & O2 & O3 & Ex). destruct (Nat.eq_dec i y) as [<-|N].
      - clear O1 O2 O3. destruct Ex as [Ex|[(o' & r & Ex & Tr)|Ex]]; [congruence| |].
        + rewrite Et in Ex. injection Ex as <- ->.
          assert (Er : r = poison) by (destruct P as [P|[(k & P & _)|[(k & P & _)|[P|P]]]]; [discriminate|discriminate|discriminate|discriminate|congruence]).
          subst r. right. rewrite Tr. left. reflexivity.
        + unfold thread_step in Ex. rewrite Et in Ex. destruct P as [->|[(k & -> & Q & R)|[(k & -> & R)|[->| ->]]]].
          * unfold lazy_prog, pmap, p_make_branch_alt_iter, p_with, pbind in Ex. cbn [pfinally] in Ex. cbv zeta in Ex.
            destruct (may_read wp (c_lock c h)); [|discriminate]. injection Ex as <-.
            destruct (poisoned (c_lock c h)); left; eexists; cbn [c_thread c_lock]; rewrite !upd_same; (split; [reflexivity|]).
            -- cbn [pfinally]. auto 8.
            -- right; left. cbn [pfinally]. eexists. split; [reflexivity|]. split; [|left; reflexivity].
               intro t. unfold p_make_node, p_with_mut, p_collect, pbind. cbn [pfinally]. eexists. reflexivity.
          * destruct (nth_error (c_world c) h) as [t|]; [|discriminate]. injection Ex as <-. left. destruct (Q t) as (k' & E).
            exists (k t). cbn [c_thread c_lock]. rewrite upd_same. split; [reflexivity|]. rewrite E. right; right; left. eauto.
          * cbv zeta in Ex. rewrite (may_write_held _ _ R) in Ex. destruct (existsb (Nat.eqb i) (waiting (c_lock c h))); [discriminate|].
            injection Ex as <-. left. exists (WLock h k). cbn [c_thread c_lock]. rewrite !upd_same. split; [reflexivity|].
            right; right; left. eauto.
          * cbv zeta in Ex. injection Ex as <-. left. exists (Done poison). cbn [c_thread]. rewrite upd_same. split; [reflexivity|auto 8].
          * discriminate.
      - left. exists p. split; [rewrite O1 by exact N; exact Et|]. 
        destruct P as [P|[(k & P & Q & R)|[(k & P & R)|P]]]; eauto 10.
    Qed.
    Lemma lazy_never (c c' : cfg) : lazy_places c -> steps wp any_call c c' -> lazy_places c'.
    Proof. intros P S. induction S as [|c1 c2 S IH St]; [exact P|]. eapply lazy_step; eauto. Qed.

    (** Once it waits for the write lock, for good. *)
    Lemma lazy_stuck (c : cfg) k : c_thread c i = Running o (WLock h k) -> In i (readers (c_lock c h)) -> stuck_forever wp c i.
    Proof.
      intros Et R. split; [congruence|]. intros c' S.
      assert (A : c_thread c' i = Running o (WLock h k) /\ In i (readers (c_lock c' h))); [|rewrite Et; apply A].
      induction S as [|c1 c2 S (E1 & R1) St]; [auto|].
      destruct (step_others _ _ _ _ St) as (y & O1 & O2 & O3 & Ex). destruct (Nat.eq_dec i y) as [<-|N].
      - destruct Ex as [Ex|[(o' & r & Ex & _)|Ex]]; [congruence|congruence|]. unfold thread_step in Ex. rewrite E1 in Ex.
        cbv zeta in Ex. rewrite (may_write_held _ _ R1) in Ex. destruct (existsb (Nat.eqb i) (waiting (c_lock c1 h))); [discriminate|].
        injection Ex as <-. cbn [c_thread c_lock]. rewrite !upd_same. auto.
      - rewrite O1 by exact N. auto.
    Qed.
    (** Once it holds the read lock. *)
    Definition lazy_held (c : cfg) : Prop :=
      (exists p, c_thread c i = Running o p /\ (forall r, p <> Done r) /\
        ((exists k, p = Get h k /\ (forall t, exists k', k t = WLock h k')) \/ (exists k, p = WLock h k))) /\
      In i (readers (c_lock c h)).
    Lemma lazy_held_step (c c' : cfg) : lazy_held c -> step wp any_call c c' -> lazy_held c'.
    Proof.
      intros [(p & Et & D & P) R] St.
      destruct (step_others _ _ _ _ St) as (y & O1 & O2 & O3 & Ex). destruct (Nat.eq_dec i y) as [<-|N].
      - clear O1 O2 O3. destruct Ex as [Ex|[(o' & r & Ex & Tr)|Ex]]; [congruence| |].
        + rewrite Et in Ex. injection Ex as <- ->. destruct (D r eq_refl).
        + unfold thread_step in Ex. rewrite Et in Ex. destruct P as [(k & -> & Q)|(k & ->)].
          * destruct (nth_error (c_world c) h) as [t|]; [|discriminate]. injection Ex as <-. destruct (Q t) as (k' & E).
            split; [|exact R]. exists (k t). cbn [c_thread c_lock]. rewrite upd_same. split; [reflexivity|]. rewrite E.
            split; [intros; discriminate|eauto].
          * cbv zeta in Ex. rewrite (may_write_held _ _ R) in Ex. destruct (existsb (Nat.eqb i) (waiting (c_lock c h))); [discriminate|].
            injection Ex as <-. split; [|cbn [c_lock]; rewrite !upd_same; exact R].
            exists (WLock h k). cbn [c_thread c_lock]. rewrite !upd_same. split; [reflexivity|]. split; [intros; discriminate|eauto].
      - split; [|apply O2; auto]. exists p. split; [rewrite O1 by exact N; exact Et|auto].
    Qed.
    Lemma lazy_held_steps (c c' : cfg) : lazy_held c -> steps wp any_call c c' -> lazy_held c'.
    Proof. intros P S. induction S as [|c1 c2 S IH St]; [exact P|]. eapply lazy_held_step; eauto. Qed.
    Lemma lazy_cases (c c' : cfg) : c_thread c i = Running o lazy_prog -> steps wp any_call c c' ->
      c_thread c' i = c_thread c i \/ lazy_held c' \/
      (exists c0, steps wp any_call c c0 /\ steps wp any_call c0 c' /\ poisoned (c_lock c0 h) = true).
    Proof.
      intros Et S. induction S as [|c1 c2 S IH St]; [auto|].
      destruct IH as [E|[L|(c0 & A & B & C)]].
      - destruct (step_others _ _ _ _ St) as (y & O1 & O2 & O3 & Ex). destruct (Nat.eq_dec i y) as [<-|N]; [|left; rewrite O1 by exact N; exact E].
        rewrite Et in E. destruct Ex as [Ex|[(o' & r & Ex & Tr)|Ex]]; [congruence|rewrite E in Ex; discriminate|].
        unfold thread_step in Ex. rewrite E in Ex. unfold lazy_prog, pmap, p_make_branch_alt_iter, p_with, pbind in Ex. cbn [pfinally] in Ex. cbv zeta in Ex.
        destruct (may_read wp (c_lock c1 h)); [|discriminate]. injection Ex as <-.
        destruct (poisoned (c_lock c1 h)) eqn:Po.
        + right; right. exists c1. split; [exact S|]. split; [|exact Po]. eapply steps_step; [apply steps_refl|exact St].
        + right; left. split; [|cbn [c_lock]; rewrite upd_same; left; reflexivity].
          cbn [c_thread]. rewrite upd_same. eexists. split; [reflexivity|]. cbn [pfinally]. split; [intros; discriminate|]. left. eexists. split; [reflexivity|].
          intro t. unfold p_make_node, p_with_mut, p_collect, pbind. cbn [pfinally]. eexists. reflexivity.
      - right; left. eapply lazy_held_step; eauto.
      - right; right. exists c0. split; [exact A|]. split; [|exact C]. eapply steps_step; eauto.
    Qed.
    (** Left alone, the thread gets there. *)
    Lemma lazy_gets_stuck (c : cfg) t : c_thread c i = Running o lazy_prog -> nth_error (c_world c) h = Some t ->
      poisoned (c_lock c h) = false -> may_read wp (c_lock c h) = true ->
      exists c', steps wp any_call c c' /\ c_world c' = c_world c /\ stuck_forever wp c' i.
    Proof.
      intros Et E P M.
      destruct (thread_step wp i c) as [c1|] eqn:T1.
      2:{ unfold thread_step in T1. rewrite Et in T1. unfold lazy_prog, pmap, p_make_branch_alt_iter, p_with, pbind in T1.
          cbn [pfinally] in T1. cbv zeta in T1. rewrite M in T1. discriminate. }
      pose proof T1 as T1'. unfold thread_step in T1'. rewrite Et in T1'. unfold lazy_prog, pmap, p_make_branch_alt_iter, p_with, pbind in T1'.
      cbn [pfinally] in T1'. cbv zeta in T1'. rewrite M, P in T1'. cbn [pfinally] in T1'. injection T1' as T1'.
      destruct (thread_step wp i c1) as [c2|] eqn:T2.
      2:{ unfold thread_step in T2. rewrite <- T1' in T2. cbn [c_thread c_lock c_world] in T2. rewrite upd_same in T2. rewrite E in T2. discriminate. }
      pose proof T2 as T2'. unfold thread_step in T2'. rewrite <- T1' in T2'. cbn [c_thread c_lock c_world c_trace] in T2'. rewrite upd_same in T2'.
      rewrite E in T2'. cbv zeta in T2'. injection T2' as T2'.
      exists c2. split; [|split].
      - eapply steps_step; [eapply steps_step; [apply steps_refl|]|]; apply st_inside; eapply in_run; eassumption.
      - rewrite <- T2'. reflexivity.
      - eapply lazy_stuck.
        + rewrite <- T2'. cbn [c_thread]. rewrite upd_same. unfold p_make_node, p_with_mut, p_collect, pbind. cbn [pfinally]. reflexivity.
        + rewrite <- T2'. cbn [c_lock]. rewrite upd_same. left. reflexivity.
    Qed.
  End Lazy.
End Stuck.
