(** C90: what a deadlock looks like, and which programs cannot have one. *)
From Coq Require Import List Arith.
From Verif.Model Require Import Ord BTree Outcome Utils Tree RwLock.
From Verif.Spec Require Import TreeSpec RwLockSpec.
From Verif.Proofs Require Import OrdFacts RwLockInv RwLockLive RwLockStuck.
From Verif.Properties Require Import RwLockProps.
Import ListNotations.

Section Props.
  Context {T AK V : Type} `{OrdEq T} `{OrdEq AK} `{OrdEq V}.
  Local Notation op := (tr_op T AK V).
  Local Notation cfg := (config T AK V).

  (** C90.  Whatever the calls, the schedule and the policy: when no further calls are made, no schedule of
      the calls under way goes on for ever.  (No retry loops, no live-lock.) *)
  Theorem C90_schedules_end wp (c : cfg) : reachable wp any_call c -> Acc (fun c2 c1 => inside wp c1 c2) c.
  Proof. apply ends_any. Qed.

  (** C90.  And if no call under way can go on although some have not returned, then writers are preferred,
      and a thread in an operation that nests holds a read lock and waits to read again behind another
      thread, which waits to write. *)
  Theorem C90_deadlock_shape wp (c : cfg) i : reachable wp any_call c ->
    (forall c', ~ inside wp c c') -> c_thread c i <> Idle -> trap wp c.
  Proof. intros R St. exact (idle_or_trap wp any_call c R St i). Qed.

  (** C90.  When no call mixes trees, this is about one tree, and the two threads are stuck for good. *)
  Theorem C90_trap_is_deadlock wp (allowed : nat -> op -> Prop) (c : cfg) : (forall i o, allowed i o -> one_tree o) ->
    reachable wp allowed c -> trap wp c ->
    wp = true /\ exists i j, i <> j /\ stuck_forever true c i /\ stuck_forever true c j.
  Proof.
    intros O R Tr. destruct (trap_same_tree wp allowed c O R Tr) as (i & j & h & oi & oj & ki & kj & Ne & W & _ & _ & _ & Ei & Ir & Ej & Jw).
    split; [exact W|]. exists i, j. split; [exact Ne|]. eapply (deadlocked_stuck i j h oi oj ki kj). unfold deadlocked. auto.
  Qed.

  (** C90.  Under either policy calls come to an end when no thread changes a tree that another thread's
      nesting calls are given. *)
  Theorem C90_separate_trees wp (allowed : nat -> op -> Prop) (c : cfg) :
    (forall i j oi oj h, allowed i oi -> nests oi -> In h (given oi) -> allowed j oj -> In h (changed oj) -> i = j) ->
    reachable wp allowed c -> finishes wp c.
  Proof. intros S. apply finishes_separate. exact S. Qed.

  (** C90.  In particular when one thread makes all changes and the others only look. *)
  Theorem C90_one_changer wp i0 (allowed : nat -> op -> Prop) (c : cfg) :
    (forall i o, allowed i o -> changed o <> [] -> i = i0) -> reachable wp allowed c -> finishes wp c.
  Proof.
    intros S. apply finishes_separate. intros i j oi oj h Ai Ni _ Aj Ch.
    transitivity i0; [|symmetry]; eapply S; try eassumption.
    - destruct oi; simpl in Ni |- *; try discriminate; destruct Ni.
    - intro E. rewrite E in Ch. destruct Ch.
  Qed.
End Props.

(** The deadlock of C54 is one: nothing can go on, and it has the shape. *)
Example ex5_trap : reachable true any_call (ex5 true) /\ trap true (ex5 true) /\ c_thread (ex5 true) 0 <> Idle /\ reachable true (fun _ => one_tree) (ex5 true).
Proof.
  split; [apply ex5_reachable|]. split; [|split; [vm_compute; discriminate|]].
  - split; [reflexivity|]. exists 0, 1, 0, 0. do 4 eexists. split; [discriminate|]. split; [vm_compute; reflexivity|].
    split; [exact I|]. split; [vm_compute; left; reflexivity|]. split; [vm_compute; reflexivity|vm_compute; left; reflexivity].
  - unfold reachable, ex5. apply run_acts_steps, call_steps; [|vm_compute; reflexivity|vm_compute; auto|exact I].
    unfold ex4. apply run_acts_steps, call_steps; [|vm_compute; reflexivity| |reflexivity].
    + unfold ex3. apply run_acts_steps, call_steps; [apply ex2_reachable; exact I|vm_compute; reflexivity|vm_compute; auto|exact I].
    + vm_compute. split; left; eexists; [right; left; reflexivity|left; reflexivity].
Qed.
Lemma ex5_stops c' : ~ inside true (ex5 true) c'.
Proof.
  intro I. remember (ex5 true) as c eqn:Ec. destruct I as [i c c' Ts|i o r c Et]; subst c.
  - destruct i as [|[|i]]; vm_compute in Ts; discriminate.
  - destruct i as [|[|i]]; vm_compute in Et; discriminate.
Qed.
Example ex5_by_shape : trap true (ex5 true).
Proof.
  apply (C90_deadlock_shape true (ex5 true) 0); [apply ex5_reachable|apply ex5_stops|vm_compute; discriminate].
Qed.
(** One thread changes a tree with nesting calls while another looks at it. *)
Definition looks_or_0 (i : nat) (o : tr_op nat nat nat) : Prop := changed o <> [] -> i = 0.
Definition ex_look : config nat nat nat :=
  run_acts true [Go 1; Go 0; Go 1] (call 1 (TAlts ex_n) (call 0 (TAddAlt ex_n ex_a) (ex3 true))).
Example ex_look_finishes : reachable true looks_or_0 ex_look /\ finishes true ex_look /\ c_thread ex_look 0 <> Idle /\ c_thread ex_look 1 <> Idle.
Proof.
  assert (R : reachable true looks_or_0 ex_look).
  { unfold reachable, ex_look. apply run_acts_steps, call_steps; [|vm_compute; reflexivity| |intros X; destruct (X eq_refl)].
    - apply call_steps; [|vm_compute; reflexivity| |intro; reflexivity].
      + unfold ex3. apply run_acts_steps, call_steps; [apply ex2_reachable; intro; reflexivity|vm_compute; reflexivity|vm_compute; auto|intro; reflexivity].
      + vm_compute. split; left; eexists; [right; left; reflexivity|left; reflexivity].
    - vm_compute. left. eexists. right; left; reflexivity. }
  split; [exact R|]. split; [|split; vm_compute; discriminate].
  apply (C90_one_changer true 0 looks_or_0); [intros i o A; exact A|exact R].
Qed.

Print Assumptions C90_schedules_end.
Print Assumptions C90_deadlock_shape.
Print Assumptions C90_trap_is_deadlock.
Print Assumptions C90_separate_trees.
Print Assumptions C90_one_changer.
