(** C54, C74, C75: tree operations from several threads (src/parsers/tree.rs). *)
From Coq Require Import String List Arith Lia Bool.
From Verif.Model Require Import Ord BTree Outcome Utils Tree RwLock.
From Verif.Spec Require Import TreeSpec RwLockSpec.
From Verif.Proofs Require Import OrdFacts BTreeFacts LoopFacts UtilsFacts GrammarFacts TreeFacts TreeHist
  RwLockSafe RwLockInv RwLockLive RwLockStuck.
From Verif.Properties Require Import TreeProps.
Import ListNotations.

Section Props.
  Context {T AK V : Type} `{OrdEq T} `{OrdEq AK} `{OrdEq V}.
  Local Notation op := (tr_op T AK V).
  Local Notation cfg := (config T AK V).

  (** C54.  Where readers need not wait for waiting writers, all calls return whatever the schedule. *)
  Theorem C54_no_deadlock_readers_first_partial (c : cfg) : reachable false any_call c -> finishes false c.
  Proof. apply finishes_any. Qed.

  (** C54.  Under either policy, threads that only create trees and nodes, make leaf alternatives, and read
      never block each other for good. *)
  Theorem C54_no_deadlock_simple_calls_partial wp (allowed : nat -> op -> Prop) (c : cfg) :
    (forall i o, allowed i o -> ~ nests o) -> reachable wp allowed c -> finishes wp c.
  Proof. apply finishes_plain. Qed.

  (** C54.  Under either policy, a single thread never blocks itself. *)
  Theorem C54_no_deadlock_one_thread_partial wp i0 (c : cfg) :
    reachable wp (fun i _ => i = i0) c -> finishes wp c.
  Proof. apply finishes_alone. congruence. Qed.

  (** C74.  Whatever the schedule and the policy, the calls and returns so far are those of an execution in
      which each operation takes effect at one moment between its call and its return, the effects being
      those of the sequential operations one after the other, with the results the calls returned. *)
  Theorem C74_atomic wp (c : cfg) : reachable wp any_call c ->
    exists L st, lin L st /\ erase L = c_trace c /\ run (effects L) (c_world c).
  Proof.
    intro R. destruct (reachable_good wp any_call c R) as (L & st & hs & G).
    exists L, st. split; [apply (g_lin _ _ _ _ G)|]. split; [apply (g_erase _ _ _ _ G)|apply (g_run _ _ _ _ G)].
  Qed.

  (** C74.  No lock is ever poisoned: a panicking call does not disable the tree for others. *)
  Theorem C74_never_poisoned wp (c : cfg) h : reachable wp any_call c -> poisoned (c_lock c h) = false.
  Proof.
    intro R. destruct (reachable_good wp any_call c R) as (L & st & hs & G).
    apply (lo_poison _ _ _ _ (g_lock _ _ _ _ G h)).
  Qed.

  Lemma lin_parts (l : list (lin_event T AK V)) st : lin l st ->
    (forall j o d, st j = Some (o, d) -> incl d (effects l)) /\
    (forall j o r, In (ERet j o r) (erase l) -> exists d, parts o r d /\ incl d (effects l)).
  Proof.
    intro Ln. induction Ln as [|l st j oj Ln [IH1 IH2] E|l st j oj d o' r' Ln [IH1 IH2] E|l st j oj d r' Ln [IH1 IH2] E P]; simpl; split.
    - discriminate.
    - intros j o r [].
    - intros j' o2 d2. unfold upd. destruct (Nat.eqb j' j); [intros [= _ <-] x []|apply IH1].
    - intros j' o2 r2 [X|X]; [discriminate|eauto].
    - intros j' o2 d2. unfold upd. destruct (Nat.eqb j' j).
      + intros [= _ <-]. apply incl_cons; [left; reflexivity|apply incl_tl; eauto].
      + intro X. apply incl_tl. eauto.
    - intros j' o2 r2 X. destruct (IH2 _ _ _ X) as (d2 & A & B). exists d2. split; [exact A|apply incl_tl; exact B].
    - intros j' o2 d2. unfold upd. destruct (Nat.eqb j' j); [discriminate|apply IH1].
    - intros j' o2 r2 [[= <- <- <-]|X]; [|eauto]. exists (rev d). split; [exact P|]. intros x Jx. apply (IH1 _ _ _ E). apply in_rev. exact Jx.
  Qed.
  Lemma effect_returns (tr : history T AK V) w o r : run tr w -> In (o, r) tr -> one_tree o -> exists v, r = Ret v.
  Proof.
    intros R J S. apply in_split in J. destruct J as (l1 & l2 & ->). destruct (run_app _ _ _ R) as (w0 & R0 & _).
    inversion R0 as [|? w1 ? ? ? R1 K St]; subst. destruct (C37_one_tree_returns _ _ _ R1 K S) as (v & w' & E). exists v. congruence.
  Qed.

  (** C74.  A call made with handles of one tree never panics, whatever the other threads do. *)
  Theorem C74_one_tree_returns wp (c : cfg) i o r : reachable wp any_call c -> In (ERet i o r) (c_trace c) ->
    one_tree o -> exists v, r = Ret v.
  Proof.
    intros R J S. destruct (C74_atomic wp c R) as (L & st & Ln & E & Rn). rewrite <- E in J.
    destruct (proj2 (lin_parts L st Ln) i o r J) as (d & P & I). destruct P as [o r N1 N2|h k v n a x|h x ns n a y|h x ns n m]; eauto.
    - eapply effect_returns; [exact Rn|apply I; left; reflexivity|exact S].
    - destruct (effect_returns _ _ (TMakeBranchAlt h x ns) (Panic m) Rn) as (v & X); [apply I; right; left; reflexivity|exact S|discriminate].
  Qed.

  Lemma trace_effects wp (c : cfg) : reachable wp any_call c -> exists tr, run tr (c_world c) /\
    (forall o r, In (o, r) (returned (c_trace c)) -> (forall n, r <> Ret (RNode n)) -> (forall m, r <> Panic m) -> In (o, r) tr).
  Proof.
    intro R. destruct (reachable_good wp any_call c R) as (L & st & hs & G).
    exists (effects L). split; [apply (g_run _ _ _ _ G)|]. intros o r J N1 N2.
    destruct (g_known _ _ _ _ G o r J) as [X|[(m & X)|(n & o' & X & _)]]; [exact X|destruct (N2 _ X)|destruct (N1 _ X)].
  Qed.

  (** C74.  What one thread made, any thread reads back. *)
  Theorem C74_content_reads_back wp (c : cfg) i j h k v a x : reachable wp any_call c ->
    In (ERet i (TMakeLeafAlt h k v) (Ret (RAlt a))) (c_trace c) ->
    In (ERet j (TContent a) (Ret (RContent x))) (c_trace c) -> x = NLeaf k v.
  Proof.
    intros R J1 J2. destruct (trace_effects wp c R) as (tr & Rn & K).
    assert (E1 : In (TMakeLeafAlt h k v, Ret (RAlt a)) tr) by (apply K; [apply in_flat_map; eexists; split; [exact J1|left; reflexivity]|discriminate|discriminate]).
    assert (E2 : In (TContent a, Ret (RContent x)) tr) by (apply K; [apply in_flat_map; eexists; split; [exact J2|left; reflexivity]|discriminate|discriminate]).
    pose proof (content_event _ _ _ _ Rn E2) as C2.
    assert (C1 : w_content (c_world c) a = Ret (NLeaf k v)) by (eapply C37_content_reads_back; [exact Rn|left; eauto]). congruence.
  Qed.

  (** C74.  Threads that make the same leaf alternative get the same handle. *)
  Theorem C74_same_handle wp (c : cfg) i j h k v a b : reachable wp any_call c ->
    In (ERet i (TMakeLeafAlt h k v) (Ret (RAlt a))) (c_trace c) ->
    In (ERet j (TMakeLeafAlt h k v) (Ret (RAlt b))) (c_trace c) -> a = b.
  Proof.
    intros R J1 J2. destruct (trace_effects wp c R) as (tr & Rn & K).
    assert (E1 : In (TMakeLeafAlt h k v, Ret (RAlt a)) tr) by (apply K; [apply in_flat_map; eexists; split; [exact J1|left; reflexivity]|discriminate|discriminate]).
    assert (E2 : In (TMakeLeafAlt h k v, Ret (RAlt b)) tr) by (apply K; [apply in_flat_map; eexists; split; [exact J2|left; reflexivity]|discriminate|discriminate]).
    assert (Ka : known_alt tr a) by (left; eauto). assert (Kb : known_alt tr b) by (left; eauto).
    assert (In_h : forall a, In (TMakeLeafAlt h k v, Ret (RAlt a)) tr -> al_inner a = h).
    { clear E1 E2 Ka Kb K J1 J2. clear a. intros a J. apply in_split in J. destruct J as (l1 & l2 & ->). destruct (run_app _ _ _ Rn) as (w0 & R0 & _).
      inversion R0 as [|? w1 ? ? ? R1 Kc St]; subst. cbn [tr_step] in St. unfold w_make_leaf_alt, w_make_alt, with_ in St.
      destruct (nth_error w1 h) as [t|]; [|discriminate]. cbn in St. destruct (in_make_alt t (CLeaf k v)). injection St as <- _. reflexivity. }
    apply (C37_hash_consing tr (c_world c) a b Rn Ka Kb); [rewrite (In_h a E1), (In_h b E2); reflexivity|].
    rewrite (C37_content_reads_back tr _ a (NLeaf k v) Rn) by (left; eauto).
    rewrite (C37_content_reads_back tr _ b (NLeaf k v) Rn) by (left; eauto). reflexivity.
  Qed.

  (** C74.  No alternative that was added is lost. *)
  Theorem C74_no_lost_alternative wp (c : cfg) i n a ch : reachable wp any_call c ->
    In (ERet i (TAddAlt n a) (Ret (RChanged ch))) (c_trace c) ->
    exists l, w_alts (c_world c) n = Ret l /\ In a l.
  Proof.
    intros R J1. destruct (trace_effects wp c R) as (tr & Rn & K).
    assert (E1 : In (TAddAlt n a, Ret (RChanged ch)) tr) by (apply K; [apply in_flat_map; eexists; split; [exact J1|left; reflexivity]|discriminate|discriminate]).
    assert (Kn : known_node tr n /\ added (c_world c) tr n a).
    { apply in_split in E1. destruct E1 as (l1 & l2 & ->). destruct (run_app _ _ _ Rn) as (w0 & R0 & _).
      inversion R0 as [|? w1 ? ? ? R1 Kc St]; subst. split.
      - eapply known_node_incl; [|apply Kc]. intros x Jx. apply in_or_app. right. right. exact Jx.
      - clear. induction l1 as [|e l1 IH]; [apply added_alt|apply added_before; exact IH]. }
    destruct (C38_alts_exact tr (c_world c) n Rn (proj1 Kn)) as (l & El & _ & Ex). exists l. split; [exact El|]. apply Ex. apply Kn.
  Qed.

  (** C75.  [make_branch_alt] with an iterator whose item is made by [make_node] of the same tree: under
      either policy, and whatever the other threads do, the call never returns an alternative (it can only
      report a poisoned lock). *)
  Theorem C75_lazy_never_returns wp (c c' : cfg) i h x o :
    c_thread c i = Running o (pmap RAlt (p_make_branch_alt_iter h x [p_make_node h])) ->
    steps wp any_call c c' ->
    (exists p, c_thread c' i = Running o p /\ forall v, p <> Done (Ret v)) \/
    In (ERet i o (Panic "called `Result::unwrap()` on an `Err` value: PoisonError { .. }"%string)) (c_trace c').
  Proof.
    intros Et S. destruct (lazy_never wp i h x o c c') as [(p & E & P)|J]; [|exact S| |right; exact J].
    - left. exists (lazy_prog h x). split; [exact Et|left; reflexivity].
    - left. exists p. split; [exact E|]. intros v ->. destruct P as [P|[(k & P & _)|[(k & P & _)|[P|P]]]]; discriminate.
  Qed.
  (** C75.  In every execution: the thread has not begun; or it holds the read lock and from then on it
      never finishes and never gives the lock back; or it found the lock poisoned by someone else. *)
  Theorem C75_lazy_waits_for_ever wp (c c' : cfg) i h x o :
    c_thread c i = Running o (pmap RAlt (p_make_branch_alt_iter h x [p_make_node h])) ->
    steps wp any_call c c' ->
    c_thread c' i = c_thread c i \/
    (forall c'', steps wp any_call c' c'' ->
       (exists p, c_thread c'' i = Running o p /\ forall r, p <> Done r) /\ In i (readers (c_lock c'' h))) \/
    (exists c0, steps wp any_call c c0 /\ steps wp any_call c0 c' /\ poisoned (c_lock c0 h) = true).
  Proof.
    intros Et S. destruct (lazy_cases wp i h x o c c' Et S) as [E|[L|P]]; auto.
    right; left. intros c'' S2. destruct (lazy_held_steps wp i h o c' c'' L S2) as [(p & A & B & _) R]. eauto.
  Qed.
  (** C75.  As soon as it gets the read lock it waits for itself. *)
  Theorem C75_lazy_deadlocks wp (c : cfg) i h x o t :
    c_thread c i = Running o (pmap RAlt (p_make_branch_alt_iter h x [p_make_node h])) ->
    nth_error (c_world c) h = Some t -> poisoned (c_lock c h) = false -> may_read wp (c_lock c h) = true ->
    exists c', steps wp any_call c c' /\ c_world c' = c_world c /\ stuck_forever wp c' i.
  Proof. apply lazy_gets_stuck. Qed.
End Props.

(** ** A concrete execution *)
Local Notation ncfg := (config nat nat nat).
(** Steps and returns of given threads. *)
Inductive act := Go (i : nat) | Back (i : nat).
Definition do_act (wp : bool) (a : act) (c : ncfg) : option ncfg :=
  match a with
  | Go i => thread_step wp i c
  | Back i => match c_thread c i with
              | Running o (Done r) => Some {| c_world := c_world c; c_lock := c_lock c; c_thread := upd (c_thread c) i Idle;
                                              c_trace := ERet i o r :: c_trace c |}
              | _ => None
              end
  end.
Fixpoint do_acts (wp : bool) (l : list act) (c : ncfg) : option ncfg :=
  match l with
  | [] => Some c
  | a :: r => match do_act wp a c with Some c' => do_acts wp r c' | None => None end
  end.
Lemma do_acts_steps wp allowed l : forall c0 c c', steps wp allowed c0 c -> do_acts wp l c = Some c' -> steps wp allowed c0 c'.
Proof.
  induction l as [|a l IH]; simpl; intros c0 c c' S E; [congruence|].
  destruct (do_act wp a c) as [c1|] eqn:Ea; [|discriminate]. apply (IH c0 c1 c'); [|exact E].
  eapply steps_step; [exact S|]. apply st_inside. destruct a; simpl in Ea; [eapply in_run; eauto|].
  destruct (c_thread c i) as [|o []] eqn:Et; try discriminate. injection Ea as <-. apply in_ret. exact Et.
Qed.
Definition call (i : nat) (o : tr_op nat nat nat) (c : ncfg) : ncfg :=
  {| c_world := c_world c; c_lock := c_lock c; c_thread := upd (c_thread c) i (Running o (op_prog o)); c_trace := ECall i o :: c_trace c |}.
Definition run_acts (wp : bool) (l : list act) (c : ncfg) : ncfg := match do_acts wp l c with Some c' => c' | None => c end.
Lemma run_acts_steps wp allowed l c0 c : steps wp allowed c0 c -> steps wp allowed c0 (run_acts wp l c).
Proof. intro S. unfold run_acts. destruct (do_acts wp l c) eqn:E; [eapply do_acts_steps; eauto|exact S]. Qed.

Lemma call_steps wp (allowed : nat -> tr_op nat nat nat -> Prop) c0 c i o : steps wp allowed c0 c ->
  c_thread c i = Idle -> can_call (returned (c_trace c)) o -> allowed i o -> steps wp allowed c0 (call i o c).
Proof. intros S E K A. eapply steps_step; [exact S|]. apply st_call; assumption. Qed.

Definition ex1 (wp : bool) : ncfg := run_acts wp [Go 0; Back 0] (call 0 TNewTree c_init).
Definition ex2 (wp : bool) : ncfg := run_acts wp [Go 0; Go 0; Go 0; Go 0; Back 0] (call 0 (TMakeNode 0) (ex1 wp)).
Definition ex3 (wp : bool) : ncfg := run_acts wp [Go 0; Go 0; Go 0; Go 0; Back 0] (call 0 (TMakeLeafAlt 0 7 8) (ex2 wp)).
Definition ex_n : Node := {| nd_index := 0; nd_inner := 0 |}.
Definition ex_a : Alternative := {| al_index := 0; al_inner := 0 |}.
(** Thread 0 is in [add_alt] and holds a read lock; then thread 1 calls [make_node] and waits. *)
Definition ex4 (wp : bool) : ncfg := run_acts wp [Go 0; Go 0] (call 0 (TAddAlt ex_n ex_a) (ex3 wp)).
Definition ex5 (wp : bool) : ncfg := run_acts wp [Go 1] (call 1 (TMakeNode 0) (ex4 wp)).

Lemma ex1_reachable wp (allowed : nat -> tr_op nat nat nat -> Prop) : allowed 0 TNewTree -> reachable wp allowed (ex1 wp).
Proof. intro A. apply run_acts_steps, call_steps; [apply steps_refl|reflexivity|exact I|exact A]. Qed.
Lemma ex2_reachable wp (allowed : nat -> tr_op nat nat nat -> Prop) : allowed 0 TNewTree -> allowed 0 (TMakeNode 0) -> reachable wp allowed (ex2 wp).
Proof.
  intros A1 A2. apply run_acts_steps, call_steps; [apply ex1_reachable; exact A1|destruct wp; vm_compute; reflexivity| |exact A2].
  destruct wp; vm_compute; left; reflexivity.
Qed.
Lemma ex3_reachable wp : reachable wp any_call (ex3 wp).
Proof.
  apply run_acts_steps, call_steps; [apply ex2_reachable; exact I|destruct wp; vm_compute; reflexivity| |exact I].
  destruct wp; vm_compute; right; left; reflexivity.
Qed.
Lemma ex4_reachable wp : reachable wp any_call (ex4 wp).
Proof.
  apply run_acts_steps, call_steps; [apply ex3_reachable|destruct wp; vm_compute; reflexivity| |exact I].
  destruct wp; vm_compute; (split; left; eexists; [right; left; reflexivity|left; reflexivity]).
Qed.
Lemma ex5_reachable wp : reachable wp any_call (ex5 wp).
Proof.
  apply run_acts_steps, call_steps; [apply ex4_reachable|destruct wp; vm_compute; reflexivity| |exact I].
  destruct wp; vm_compute; right; right; left; reflexivity.
Qed.

(** C54.  REFUTED where waiting writers keep readers out: two threads, one adding an alternative and one
      making a node, both stop for good. *)
Theorem C54_deadlock_refuted : exists (c : ncfg) i j,
  reachable true any_call c /\ i <> j /\ stuck_forever true c i /\ stuck_forever true c j.
Proof.
  exists (ex5 true), 0, 1. split; [apply ex5_reachable|]. split; [discriminate|].
  eapply (deadlocked_stuck 0 1 0). split; [vm_compute; reflexivity|]. split; [vm_compute; reflexivity|].
  split; [vm_compute; left; reflexivity|vm_compute; left; reflexivity].
Qed.
Print Assumptions C54_deadlock_refuted.

(** Without the preference the same situation resolves itself, as [C54_no_deadlock_readers_first_partial] says. *)
Example ex5_finishes : reachable false any_call (ex5 false) /\ finishes false (ex5 false) /\
  c_thread (ex5 false) 0 <> Idle /\ c_thread (ex5 false) 1 <> Idle.
Proof.
  split; [apply ex5_reachable|]. split; [apply C54_no_deadlock_readers_first_partial; apply ex5_reachable|].
  split; vm_compute; discriminate.
Qed.
(** One thread, and calls that do not nest, under writer preference. *)
Definition ex_two : ncfg := run_acts true [Go 1; Go 0; Go 0] (call 1 (TMakeLeafAlt 0 3 4) (call 0 (TMakeNode 0) (ex1 true))).
Example ex_two_finishes : finishes true ex_two /\ c_thread ex_two 0 <> Idle /\ c_thread ex_two 1 <> Idle.
Proof.
  split; [|split; vm_compute; discriminate].
  apply (C54_no_deadlock_simple_calls_partial true (fun _ o => ~ nests o)); [auto|].
  apply run_acts_steps, call_steps; [apply call_steps; [apply ex1_reachable; simpl; tauto| | |simpl; tauto]| | |simpl; tauto].
  all: vm_compute; auto.
Qed.
Example ex4_alone : reachable true (fun i (_ : tr_op nat nat nat) => i = 0) (ex2 true) /\ finishes true (ex2 true).
Proof.
  assert (R : reachable true (fun i (_ : tr_op nat nat nat) => i = 0) (ex2 true)) by (apply ex2_reachable; reflexivity).
  split; [exact R|]. exact (C54_no_deadlock_one_thread_partial true 0 _ R).
Qed.

(** Three threads in one tree: the trace of [ex_three] interleaves the calls, with results of each kind the
    corollaries of C74 speak about. *)
Definition ex6 (wp : bool) : ncfg :=
  run_acts wp [Go 1; Go 1; Go 1; Go 0; Go 1; Back 1; Go 0; Go 0; Go 0; Go 0; Back 0] (call 1 (TMakeLeafAlt 0 7 8) (call 0 (TMakeLeafAlt 0 7 8) (ex2 wp))).
Example ex6_interleaves : reachable true any_call (ex6 true) /\
  map (fun e => match e with ECall i _ => (i, false) | ERet i _ _ => (i, true) end) (c_trace (ex6 true)) =
    [(0, true); (1, true); (1, false); (0, false); (0, true); (0, false); (0, true); (0, false)] /\
  In (ERet 0 (TMakeLeafAlt 0 7 8) (Ret (RAlt ex_a))) (c_trace (ex6 true)) /\
  In (ERet 1 (TMakeLeafAlt 0 7 8) (Ret (RAlt ex_a))) (c_trace (ex6 true)).
Proof.
  split; [|split; [vm_compute; reflexivity|split; vm_compute; tauto]].
  unfold ex6, reachable. apply run_acts_steps.
  apply call_steps.
  apply call_steps.
  apply ex2_reachable; exact I.
  vm_compute; reflexivity.
  vm_compute; auto.
  exact I.
  vm_compute; reflexivity.
  vm_compute; auto.
  exact I.
Qed.
(** An addition, and a look at the content, from different threads. *)
Definition ex7 (wp : bool) : ncfg :=
  run_acts wp [Go 1; Go 1; Go 1; Go 1; Go 1; Go 1; Go 1; Go 1; Go 1; Back 1] (call 1 (TContent ex_a)
    (run_acts wp (repeat (Go 0) 10 ++ [Back 0])%list (call 0 (TAddAlt ex_n ex_a) (ex3 wp)))).
Example ex7_returns : reachable true any_call (ex7 true) /\
  In (ERet 0 (TAddAlt ex_n ex_a) (Ret (RChanged Changed))) (c_trace (ex7 true)) /\
  In (ERet 1 (TContent ex_a) (Ret (RContent (NLeaf 7 8)))) (c_trace (ex7 true)).
Proof.
  split; [|split; vm_compute; tauto].
  apply run_acts_steps, call_steps; [apply run_acts_steps, call_steps; [apply ex3_reachable| | |exact I]| | |exact I].
  - vm_compute. reflexivity.
  - vm_compute. split; left; eexists; [right; left; reflexivity|left; reflexivity].
  - vm_compute. reflexivity.
  - vm_compute. left. eexists. right; left; reflexivity.
Qed.

(** The situation of C75. *)
Definition ex_lazy : ncfg :=
  {| c_world := c_world (ex1 false); c_lock := c_lock (ex1 false);
     c_thread := upd (c_thread (ex1 false)) 0 (Running (TMakeBranchAlt 0 5 []) (pmap RAlt (p_make_branch_alt_iter 0 5 [p_make_node 0])));
     c_trace := c_trace (ex1 false) |}.
Example ex_lazy_deadlocks : exists c', steps false any_call ex_lazy c' /\ stuck_forever false c' 0.
Proof.
  destruct (C75_lazy_deadlocks false ex_lazy 0 0 5 (TMakeBranchAlt 0 5 []) in_new) as (c' & S & _ & St);
    [reflexivity|reflexivity|reflexivity|reflexivity|eauto].
Qed.

Print Assumptions C54_no_deadlock_readers_first_partial.
Print Assumptions C54_no_deadlock_simple_calls_partial.
Print Assumptions C54_no_deadlock_one_thread_partial.
Print Assumptions C74_atomic.
Print Assumptions C74_never_poisoned.
Print Assumptions C74_one_tree_returns.
Print Assumptions C74_content_reads_back.
Print Assumptions C74_same_handle.
Print Assumptions C74_no_lost_alternative.
Print Assumptions C75_lazy_never_returns.
Print Assumptions C75_lazy_waits_for_ever.
Print Assumptions C75_lazy_deadlocks.
