(** C111: panics of the caller's own code inside tree calls, with several threads (src/parsers/tree.rs). *)
From Coq Require Import String List Arith Lia Bool.
From Verif.Model Require Import Ord BTree Outcome Utils Tree RwLock ThreadFaults.
From Verif.Model Require Import TreeFaults.
From Verif.Spec Require Import TreeSpec TreeFaultsSpec RwLockSpec ThreadFaultsSpec.
From Verif.Proofs Require Import OrdFacts BTreeFacts TreeFacts TreeHist RwLockSafe RwLockInv TreeFaultsFacts TreeFaultsPoison
  ThreadFaultsSafe ThreadFaultsInv ThreadFaultsMore.
From Verif.Properties Require Import TreeProps TreeFaultsProps RwLockProps.
Import ListNotations.

Section Props.
  Context {T AK V : Type} `{OrdEq T} `{OrdEq AK} `{OrdEq V}.
  Local Notation op := (tr_op T AK V).
  Local Notation cfg := (config T AK V).
  Local Notation hist := (history T AK V).
  (** Any set of panics of the caller's code; that there need not be one is the only condition. *)
  Variable F : fault -> Prop.
  Hypothesis F0 : F NoFault.

  (** C111.  Whatever the schedule and the policy, and wherever the caller's code panics, the calls and returns
      so far are those of an execution in which each call takes effect at one moment between its call and its
      return, the effects being those of calls made one after the other with the same panics (as C106 speaks
      of), and every tree that no thread is writing to is in memory as these leave it, poisoned or not. *)
  Theorem C111_atomic wp (c : cfg) : fault_reachable F wp c ->
    exists L st pw, flin L st /\ erase L = c_trace c /\ frun_of F (effects L) pw /\ in_memory_as c pw.
  Proof using H0 H2 H4 F0.
    intro R. destruct (freachable_good F F0 wp c R) as (L & st & hs & pw & G). exists L, st, pw.
    split; [apply (pg_lin _ _ _ _ _ _ _ G)|]. split; [apply (pg_erase _ _ _ _ _ _ _ G)|].
    split; [apply (pg_run _ _ _ _ _ _ _ G)|]. eapply pgood_memory; exact G.
  Qed.

  Lemma ftrace_effects wp (c : cfg) : fault_reachable F wp c -> exists tr pw tr0 w, frun_of F tr pw /\ in_memory_as c pw /\
    without_panics tr tr0 /\ run tr0 w /\ sim pw w /\
    (forall o v, In (o, Ret v) (returned (c_trace c)) -> (forall n, v <> RNode n) -> In (o, Ret v) tr0).
  Proof using H0 H2 H4 F0.
    intro R. destruct (freachable_good F F0 wp c R) as (L & st & hs & pw & G). destruct (pg_run _ _ _ _ _ _ _ G) as [Rn _].
    destruct (frun_sim _ _ (frun_of_frun F _ _ Rn)) as (tr0 & w & W & R0 & S).
    exists (effects L), pw, tr0, w. split; [exact Rn|]. split; [eapply pgood_memory; exact G|]. split; [exact W|]. split; [exact R0|]. split; [exact S|].
    intros o v J N. apply (wp_in _ _ _ _ W).
    destruct (pg_known _ _ _ _ _ _ _ G o _ J) as [X|[(m & X)|(n & o' & X & _)]]; [exact X|discriminate|]. injection X as ->. destruct (N n eq_refl).
  Qed.
  Lemma ret_in (c : cfg) i o v : In (ERet i o (Ret v)) (c_trace c) -> In (o, Ret v) (returned (c_trace c)).
  Proof. intro J. apply in_flat_map. eexists. split; [exact J|left; reflexivity]. Qed.

  (** C111.  What one thread made, any thread that gets an answer reads back. *)
  Theorem C111_content_reads_back wp (c : cfg) i j h k v a x : fault_reachable F wp c ->
    In (ERet i (TMakeLeafAlt h k v) (Ret (RAlt a))) (c_trace c) ->
    In (ERet j (TContent a) (Ret (RContent x))) (c_trace c) -> x = NLeaf k v.
  Proof using H0 H2 H4 F0.
    intros R J1 J2. destruct (ftrace_effects wp c R) as (tr & pw & tr0 & w & _ & _ & _ & Rn & _ & K).
    pose proof (K _ _ (ret_in _ _ _ _ J1) ltac:(discriminate)) as E1. pose proof (K _ _ (ret_in _ _ _ _ J2) ltac:(discriminate)) as E2.
    pose proof (content_event _ _ _ _ Rn E2) as C2.
    assert (C1 : w_content w a = Ret (NLeaf k v)) by (eapply C37_content_reads_back; [exact Rn|left; eauto]). congruence.
  Qed.
  Theorem C111_branch_reads_back wp (c : cfg) i j h b ns a x : fault_reachable F wp c ->
    In (ERet i (TMakeBranchAlt h b ns) (Ret (RAlt a))) (c_trace c) ->
    In (ERet j (TContent a) (Ret (RContent x))) (c_trace c) -> x = NBranch b ns.
  Proof using H0 H2 H4 F0.
    intros R J1 J2. destruct (ftrace_effects wp c R) as (tr & pw & tr0 & w & _ & _ & _ & Rn & _ & K).
    pose proof (K _ _ (ret_in _ _ _ _ J1) ltac:(discriminate)) as E1. pose proof (K _ _ (ret_in _ _ _ _ J2) ltac:(discriminate)) as E2.
    pose proof (content_event _ _ _ _ Rn E2) as C2.
    assert (C1 : w_content w a = Ret (NBranch b ns)) by (eapply C37_content_reads_back; [exact Rn|right; eauto]). congruence.
  Qed.

  (** C111.  Threads that make the same alternative get the same handle, also when one of them (or another) panicked
      in between. *)
  Theorem C111_same_handle wp (c : cfg) i j h k v a b : fault_reachable F wp c ->
    In (ERet i (TMakeLeafAlt h k v) (Ret (RAlt a))) (c_trace c) ->
    In (ERet j (TMakeLeafAlt h k v) (Ret (RAlt b))) (c_trace c) -> a = b.
  Proof using H0 H2 H4 F0.
    intros R J1 J2. destruct (ftrace_effects wp c R) as (tr & pw & tr0 & w & _ & _ & _ & Rn & _ & K).
    pose proof (K _ _ (ret_in _ _ _ _ J1) ltac:(discriminate)) as E1. pose proof (K _ _ (ret_in _ _ _ _ J2) ltac:(discriminate)) as E2.
    pose proof (run_alt_tree _ _ _ _ Rn E1) as Ia. pose proof (run_alt_tree _ _ _ _ Rn E2) as Ib. cbn in Ia, Ib.
    apply (C37_hash_consing tr0 w a b Rn); [left; eauto|left; eauto|congruence|].
    rewrite (C37_content_reads_back tr0 _ a (NLeaf k v) Rn) by (left; eauto).
    rewrite (C37_content_reads_back tr0 _ b (NLeaf k v) Rn) by (left; eauto). reflexivity.
  Qed.

  (** C111.  No alternative that was added is lost, as long as its tree has not been poisoned. *)
  Theorem C111_no_lost_alternative wp (c : cfg) i n a ch : fault_reachable F wp c ->
    In (ERet i (TAddAlt n a) (Ret (RChanged ch))) (c_trace c) ->
    poisoned (c_lock c (nd_inner n)) = false -> writer (c_lock c (nd_inner n)) = None ->
    exists l, w_alts (c_world c) n = Ret l /\ In a l.
  Proof using H0 H2 H4 F0.
    intros R J1 Np Nw. destruct (ftrace_effects wp c R) as (tr & pw & tr0 & w & _ & [Lm M] & _ & Rn & S & K).
    pose proof (K _ _ (ret_in _ _ _ _ J1) ltac:(discriminate)) as E1.
    assert (Kn : known_node tr0 n /\ added w tr0 n a).
    { apply in_split in E1. destruct E1 as (l1 & l2 & ->). destruct (run_app _ _ _ Rn) as (w0 & R0 & _).
      inversion R0 as [|? w1 ? ? ? R1 Kc St]; subst. split.
      - eapply known_node_incl; [|apply Kc]. intros x Jx. apply in_or_app. right. right. exact Jx.
      - clear. induction l1 as [|e l1 IH]; [apply added_alt|apply added_before; exact IH]. }
    destruct (C38_alts_exact tr0 w n Rn (proj1 Kn)) as (l & El & _ & Ex). exists l. split; [|apply Ex; apply Kn].
    pose proof (vnode_lt _ _ (hi_node _ _ (run_inv _ _ Rn) n (proj1 Kn))) as Ln. rewrite <- (sim_len _ _ S), Lm in Ln.
    destruct (nth_error (c_world c) (nd_inner n)) as [t|] eqn:Et; [|apply nth_error_None in Et; lia].
    pose proof (M _ _ Nw Et) as P. rewrite Np in P. pose proof (proj2 S _ _ P) as Ew.
    unfold w_alts, with_ in *. rewrite Ew in El. rewrite Et. exact El.
  Qed.

  (** C111.  A poisoned tree stays poisoned, and every call about it begun from then on, by whatever thread, panics. *)
  Theorem C111_poisoned_for_ever wp (c1 c2 : cfg) h : fault_reachable F wp c1 -> fault_steps F wp c1 c2 -> poisoned (c_lock c1 h) = true ->
    poisoned (c_lock c2 h) = true /\
    exists E, c_trace c2 = E ++ c_trace c1 /\
      forall i, c_thread c1 i = Idle -> forall o r, In (ERet i o r) E -> about o h -> exists m, r = Panic m.
  Proof using H0 H2 H4 F0.
    intros R S P. split; [eapply fsteps_poisoned; eassumption|]. eapply dead_for_ever; eassumption.
  Qed.

  (** C111.  A tree is poisoned only by a panic while a content was being stored in it. *)
  Theorem C111_poisoned_only_by_storing wp (c : cfg) h : fault_reachable F wp c -> poisoned (c_lock c h) = true ->
    exists i o f m, In (ECall i o) (c_trace c) /\ stores_in o h /\ F f /\ (f = InLookup m \/ f = InInsert m \/ f = InDrop m).
  Proof using H0 H2 H4 F0.
    intros R P. destruct (freachable_good F F0 wp c R) as (L & st & hs & pw & G).
    assert (D : dead pw h).
    { destruct (pl_poison _ _ _ _ _ (pg_lock _ _ _ _ _ _ _ G h) P) as ([t b] & E & X). cbn in X. subst b. exists t. exact E. }
    destruct (frun_cause F _ _ h (proj1 (pg_run _ _ _ _ _ _ _ G)) D) as (o' & m & f & J & So & Ff & Sf).
    destruct (proj2 (flin_call L st (pg_lin _ _ _ _ _ _ _ G)) _ _ J) as (i & o & r & l & Jc & Pl & Jl).
    rewrite (pg_erase _ _ _ _ _ _ _ G) in Jc. exists i, o, f, m. split; [exact Jc|]. split; [|split; [exact Ff|exact Sf]].
    assert (So' : stores_in o' h) by (unfold stores_in; destruct o'; cbn in So; try discriminate; injection So as ->; [left|right|left|right]; eauto).
    destruct (fparts_of _ _ _ _ _ Pl Jl) as [<-|(h' & ao & Al & [->|[->|(n & a & ->)]])]; [exact So'|discriminate| |discriminate].
    destruct Al; cbn in So; injection So as ->; [left|right]; eauto.
  Qed.
  (** In particular, if the caller's comparisons and destructors do not panic, no tree is ever poisoned, whatever
      its iterators and copies do. *)
  Theorem C111_never_poisoned wp (c : cfg) h : fault_reachable F wp c -> (forall m, ~ F (InLookup m) /\ ~ F (InInsert m) /\ ~ F (InDrop m)) ->
    poisoned (c_lock c h) = false.
  Proof using H0 H2 H4 F0.
    intros R N. destruct (poisoned (c_lock c h)) eqn:P; [|reflexivity]. destruct (C111_poisoned_only_by_storing wp c h R P) as (i & o & f & m & _ & _ & Ff & X).
    destruct (N m) as (A & B & C). destruct X as [->|[->| ->]]; contradiction.
  Qed.

  (** C111.  A call with handles of one tree that panics although none of its trees has been poisoned (and nobody is
      writing to them) has the caller's own panic, of its iterator or of a copy. *)
  Theorem C111_panics_explained wp (c : cfg) i o m : fault_reachable F wp c -> In (ERet i o (Panic m)) (c_trace c) -> one_tree o ->
    (forall h, about o h -> poisoned (c_lock c h) = false /\ writer (c_lock c h) = None) ->
    exists f, F f /\ ((exists k, f = InIterator k m) \/ f = InClone m).
  Proof using H0 H2 H4 F0.
    intros R J O Hl. destruct (freachable_good F F0 wp c R) as (L & st & hs & pw & G).
    pose proof (proj1 (pg_run _ _ _ _ _ _ _ G)) as Rn. destruct (pgood_memory _ _ _ _ _ _ _ G) as [_ M].
    assert (Al : forall h, about o h -> ~ dead pw h).
    { intros h Ab (t & E). destruct (Hl h Ab) as [Np Nw]. pose proof (pg_world _ _ _ _ _ _ _ G) as Wd.
      assert (Et : nth_error (c_world c) h = Some t) by (rewrite <- Wd, nth_error_map, E; reflexivity). rewrite (M h t Nw Et), Np in E. discriminate. }
    rewrite <- (pg_erase _ _ _ _ _ _ _ G) in J.
    pose proof (flin_parts L [] (fun _ => None) fl_nil st) as X. rewrite app_nil_r in X.
    destruct (proj2 (X (pg_lin _ _ _ _ _ _ _ G) i eq_refl) o _ J) as (d & P & I). clear X.
    destruct (frun_sim _ _ (frun_of_frun F _ _ Rn)) as (tr0 & w & W & R0 & S).
    inversion P as [o1 r1 Na|a x m1|? ? ? ? ? ? Ac|? h ao m1 Ac|? h ao n m1 Ac|? h ao n a m1 Ac]; subst.
    - eapply (effect_panic F _ _ _ _ Rn); [apply I; left; reflexivity|exact O|exact Na|exact Al].
    - eapply (effect_panic F _ _ _ _ Rn); [apply I; right; left; reflexivity|exact O| |exact Al]. intros h ao Y. inversion Y.
    - eapply (effect_panic F _ _ _ _ Rn); [apply I; left; reflexivity|exact Logic.I| |].
      + intros h' ao' Y. inversion Y.
      + intros h' ->. apply Al. destruct Ac; cbn; auto.
    - eapply (effect_panic F _ _ _ _ Rn); [apply I; right; left; reflexivity| | |].
      + destruct Ac; exact O.
      + intros h' ao' Y. destruct Ac; inversion Y.
      + intros h' Ab. apply Al. destruct Ac; exact Ab.
    - assert (En : nd_inner n = h).
      { exact (run_ret_tree tr0 w (TMakeNode h) n R0 (wp_in _ _ _ _ W (I _ (or_introl eq_refl)))). }
      assert (Ea : al_inner a = h).
      { pose proof (run_alt_tree tr0 w ao a R0 (wp_in _ _ _ _ W (I _ (or_intror (or_introl eq_refl))))) as Y. destruct Ac; exact Y. }
      eapply (effect_panic F _ _ _ _ Rn); [apply I; right; right; left; reflexivity| | |].
      + cbn. congruence.
      + intros h' ao' Y. inversion Y.
      + intros h' Ab. apply Al. cbn in Ab. rewrite En, Ea in Ab. destruct Ac; cbn; destruct Ab; auto.
  Qed.

  (** C111.  Where readers need not wait for waiting writers, all calls return whatever panics there are; *)
  Theorem C111_no_deadlock_readers_first (c : cfg) : fault_reachable F false c -> finishes false c.
  Proof using H0 H2 H4 F0. apply ffinishes. exact F0. Qed.
  (** and under either policy no panic makes threads wait for each other in another way than C54 says: nothing
      goes on although a call is under way only where a reader waits to read again behind a waiting writer. *)
  Theorem C111_only_deadlock wp (c : cfg) i : fault_reachable F wp c -> stopped wp c -> c_thread c i <> Idle -> waiting_again wp c.
  Proof using H0 H2 H4 F0. intros R S N. eapply fidle_or_waiting; eassumption. Qed.
End Props.

(** ** A concrete execution: thread 0 makes a tree, a node and an alternative; thread 1 begins to store another one and
    panics in the comparison, after the content was written and while thread 0 is waiting in [add_alt] of the same
    tree, which then panics too; a second tree goes on, an iterator panics over it. *)
Local Notation ncfg := (config nat nat nat).
Definition any_fault : fault -> Prop := fun _ => True.
Definition fcall (i : nat) (f : fault) (o : tr_op nat nat nat) (c : ncfg) : ncfg :=
  {| c_world := c_world c; c_lock := c_lock c; c_thread := RwLock.upd (c_thread c) i (Running o (fop_prog f o)); c_trace := ECall i o :: c_trace c |}.
Inductive fact := FCall (i : nat) (f : fault) (o : tr_op nat nat nat) | FGo (n : nat) (i : nat) | FBack (i : nat).
Fixpoint go (n : nat) (wp : bool) (i : nat) (c : ncfg) : ncfg :=
  match n with 0 => c | S m => match thread_step wp i c with Some c' => go m wp i c' | None => c end end.
Definition fact_do (wp : bool) (a : fact) (c : ncfg) : ncfg :=
  match a with
  | FCall i f o => fcall i f o c
  | FGo n i => go n wp i c
  | FBack i => run_acts wp [Back i] c
  end.
Fixpoint facts_do (wp : bool) (l : list fact) (c : ncfg) : ncfg := match l with [] => c | a :: r => facts_do wp r (fact_do wp a c) end.
Fixpoint facts_ok (wp : bool) (l : list fact) (c : ncfg) : Prop :=
  match l with
  | [] => True
  | a :: r => match a with FCall i f o => c_thread c i = Idle /\ can_call (returned (c_trace c)) o | _ => True end /\ facts_ok wp r (fact_do wp a c)
  end.
Lemma go_steps n wp i : forall c0 c, fault_steps any_fault wp c0 c -> fault_steps any_fault wp c0 (go n wp i c).
Proof.
  induction n as [|n IH]; intros c0 c S; [exact S|]. cbn. destruct (thread_step wp i c) as [c'|] eqn:E; [|exact S].
  apply IH. eapply fs_step; [exact S|]. apply fs_inside. eapply in_run; eassumption.
Qed.
Lemma facts_steps wp l : forall c0 c, fault_steps any_fault wp c0 c -> facts_ok wp l c -> fault_steps any_fault wp c0 (facts_do wp l c).
Proof.
  induction l as [|a l IH]; intros c0 c S O; [exact S|]. cbn [facts_do facts_ok] in *. destruct O as [A O]. apply IH; [|exact O].
  destruct a as [i f o|n i|i]; cbn [fact_do].
  - eapply fs_step; [exact S|]. destruct A as [A1 A2]. apply (fs_call any_fault wp i f o c A1 A2). exact I.
  - apply go_steps. exact S.
  - unfold run_acts, do_acts, do_act. destruct (c_thread c i) as [|o [r| | | | | | |]] eqn:Et; try exact S.
    eapply fs_step; [exact S|]. apply fs_inside. apply in_ret. exact Et.
Qed.
Definition tf1 : list fact :=
  [ FCall 0 NoFault TNewTree; FGo 1 0; FBack 0; FCall 0 NoFault TNewTree; FGo 1 0; FBack 0;
    FCall 0 NoFault (TMakeNode 0); FGo 9 0; FBack 0; FCall 0 NoFault (TMakeLeafAlt 0 7 8); FGo 9 0; FBack 0;
    FCall 1 NoFault (TMakeLeafNode 1 5 5); FGo 30 1; FBack 1 ].
Definition tf2 : list fact :=
  [ FCall 1 (InInsert "cmp") (TMakeLeafAlt 0 9 9); FGo 1 1; FCall 0 NoFault (TAddAlt (node 0 0) (alt 0 0)); FGo 9 0; FGo 9 1; FGo 9 0; FBack 1; FBack 0 ]%string.
Definition tf3 : list fact :=
  [ FCall 0 NoFault (TAlts (node 0 0)); FGo 9 0; FBack 0; FCall 2 (InIterator 1 "iter") (TMakeBranchAlt 1 3 [node 1 0; node 1 0]); FGo 30 2; FBack 2;
    FCall 2 NoFault (TAlts (node 1 0)); FGo 9 2; FBack 2; FCall 1 (InClone "copy") (TContent (alt 1 0)); FGo 9 1; FBack 1;
    FCall 0 NoFault (TContent (alt 1 0)); FGo 30 0; FBack 0 ]%string.
Definition tf_mid (wp : bool) : ncfg := facts_do wp (tf1 ++ tf2) c_init.
Definition tf_end (wp : bool) : ncfg := facts_do wp tf3 (tf_mid wp).
Example tf_trace wp : rev (returned (c_trace (tf_end wp))) =
  [ (TNewTree, Ret (RHandle 0)); (TNewTree, Ret (RHandle 1)); (TMakeNode 0, Ret (RNode (node 0 0))); (TMakeLeafAlt 0 7 8, Ret (RAlt (alt 0 0)));
    (TMakeLeafNode 1 5 5, Ret (RNode (node 1 0))); (TMakeLeafAlt 0 9 9, Panic "cmp"%string); (TAddAlt (node 0 0) (alt 0 0), Panic poison_text);
    (TAlts (node 0 0), Panic poison_text); (TMakeBranchAlt 1 3 [node 1 0; node 1 0], Panic "iter"%string); (TAlts (node 1 0), Ret (RAlts [alt 1 0]));
    (TContent (alt 1 0), Panic "copy"%string); (TContent (alt 1 0), Ret (RContent (NLeaf 5 5))) ].
Proof. destruct wp; reflexivity. Qed.
Ltac fcalls := vm_compute; repeat match goal with |- _ /\ _ => split | |- True => exact I | |- Forall _ _ => constructor end; try reflexivity;
  first [known | solve [repeat (first [left; reflexivity | right])]].
Example tf_mid_reachable wp : fault_reachable any_fault wp (tf_mid wp).
Proof. apply facts_steps; [apply fs_refl|]. destruct wp; fcalls. Qed.
Example tf_end_steps wp : fault_steps any_fault wp (tf_mid wp) (tf_end wp).
Proof. apply facts_steps; [apply fs_refl|]. destruct wp; fcalls. Qed.
Example tf_end_reachable wp : fault_reachable any_fault wp (tf_end wp).
Proof. unfold tf_end. apply facts_steps; [apply tf_mid_reachable|]. destruct wp; fcalls. Qed.
(** The first tree is poisoned and has been left half done; the second is not, and nobody is writing. *)
Example tf_locks wp : map (fun h => (poisoned (c_lock (tf_end wp) h), writer (c_lock (tf_end wp) h))) [0; 1] = [(true, None); (false, None)] /\
  map (fun t => (List.length (id_to_value (in_alts t)), List.length (value_to_id (in_alts t)))) (c_world (tf_end wp)) = [(2, 1); (1, 1)].
Proof. destruct wp; split; reflexivity. Qed.
Example tf_for_ever wp : poisoned (c_lock (tf_mid wp) 0) = true /\ c_thread (tf_mid wp) 0 = Idle /\
  exists E, c_trace (tf_end wp) = E ++ c_trace (tf_mid wp) /\ In (ERet 0 (TAlts (node 0 0)) (Panic poison_text)) E.
Proof.
  split; [destruct wp; vm_compute; reflexivity|]. split; [destruct wp; vm_compute; reflexivity|].
  exists (firstn 10 (c_trace (tf_end wp))). split; [destruct wp; vm_compute; reflexivity|].
  destruct wp; vm_compute; repeat (first [left; reflexivity | right]).
Qed.
Example tf_why (wp : bool) (o := TMakeBranchAlt 1 3 [node 1 0; node 1 0]) : In (ERet 2 o (Panic "iter"%string)) (c_trace (tf_end wp)) /\ one_tree o /\
  forall h, about o h -> poisoned (c_lock (tf_end wp) h) = false /\ writer (c_lock (tf_end wp) h) = None.
Proof.
  split; [|split].
  - destruct wp; vm_compute; repeat (first [left; reflexivity | right]).
  - intros n [<-|[<-|[]]]; reflexivity.
  - intros h Ab. assert (h = 1) as -> by (destruct Ab as [->|(n & [<-|[<-|[]]] & ->)]; reflexivity). destruct wp; split; vm_compute; reflexivity.
Qed.

Print Assumptions C111_atomic.
Print Assumptions C111_content_reads_back.
Print Assumptions C111_branch_reads_back.
Print Assumptions C111_same_handle.
Print Assumptions C111_no_lost_alternative.
Print Assumptions C111_poisoned_for_ever.
Print Assumptions C111_poisoned_only_by_storing.
Print Assumptions C111_never_poisoned.
Print Assumptions C111_panics_explained.
Print Assumptions C111_no_deadlock_readers_first.
Print Assumptions C111_only_deadlock.
