(** C87: the dot export of a tree other threads are changing (src/parsers/tree.rs). *)
From Coq Require Import String List Arith Lia.
From Verif.Model Require Import Ord BTree Outcome Utils Tree DotText EarleyShared DotShared.
From Verif.Spec Require Import Reach TreeSpec EarleySpec DotSpec DotShareSpec.
From Verif.Proofs Require Import OrdFacts BTreeFacts LoopFacts TreeFacts TreeHist DotFacts DotTextFacts EarleyMore EarleyShare DotShare.
From Verif.Properties Require Import TreeProps.
Import ListNotations.

Section Props.
  Context {T AK V : Type} `{OrdEq T} `{OrdEq AK} `{OrdEq V}.
  Variables (debug_t : T -> string) (debug_ak : AK -> string) (debug_v : V -> string).

  (** C87.  While a node is exported, other threads make nodes and alternatives and add alternatives to any nodes,
      between any two times the export holds the lock.  The export returns, without a panic.  It changes nothing:
      at the end the tree is what the others have made of it so far.  Everything that was strictly below the node
      at the beginning is declared, once, and everything declared is below it at the end, with its label; every
      edge written is one at the end, from a declared vertex, and every edge there was at the beginning from a
      declared vertex is written. *)
  Theorem C87_shared_dot (t0 : Inner T AK V) n s others : api_tree t0 -> get_node t0 n = Ret s ->
    exists id xs vs es k,
      let t1 := after others k t0 in
      runs_to (fun fuel => shared_to_dot debug_t debug_ak debug_v others t0 n fuel) (Ret (vs ++ es, t1)) /\
      (forall x, node_id x = Ret (id x)) /\ NoDup xs /\
      Forall2 (fun x st => exists l sh, st = NodeStmt (id x) l sh /\ drawn debug_t debug_ak debug_v t1 x l sh) xs vs /\
      (forall x, plus (link t0) (DNode n) x -> In x xs) /\ (forall x, In x xs -> plus (link t1) (DNode n) x) /\
      (forall st, In st es -> exists x y, st = EdgeStmt (id x) (id y) /\ In x xs /\ link t1 x y) /\
      (forall x y, In x xs -> link t0 x y -> In (EdgeStmt (id x) (id y)) es).
  Proof.
    intros A G. pose proof (api_tree_inv _ A) as I.
    assert (Ok : node_ok t0 n).
    { unfold node_ok. unfold get_node in G. destruct (nth_error (in_nodes t0) n) eqn:E; [|discriminate]. apply nth_error_Some. congruence. }
    destruct (to_dot_shared t0 others I n Ok debug_t debug_ak debug_v) as (xs & vs & es & k & R & X). exists vertex_id, xs, vs, es, k.
    split; [exact R|]. split; [exact node_id_vertex|exact X].
  Qed.
End Props.
Print Assumptions C87_shared_dot.

(** The hypotheses are met by the cyclic node of the history of TreeProps.  An export during which another thread
    adds an alternative to a node that has been walked has an edge to a vertex it does not declare: the edges are
    read after the walk.  What C80 says of an undisturbed export does not hold of this one. *)
Local Open Scope string_scope.
Definition ex_late : list (list (other_op nat nat nat)) := [[]; []; []; []; []; []; []; [OMakeAlt (CLeaf 8 8); OAddAlt 0 2]].
Theorem C87_edge_without_vertex : exists t0 s st t1 a b, api_tree t0 /\ get_node t0 1 = Ret s /\
  runs_to (fun fuel => shared_to_dot (fun k => "T" ++ show_usize k) (fun a => "A" ++ show_usize a) show_usize ex_late t0 1 fuel) (Ret (st, t1)) /\
  In (EdgeStmt a b) st /\ forall l sh, ~ In (NodeStmt b l sh) st.
Proof.
  destruct (nth_error ex_w 0) as [t0|] eqn:E; [|discriminate].
  assert (A : api_tree t0) by (exists (fst (exec ex_ops [] [])), ex_w, 0; split; [exact ex_run|]; split; [known|exact E]).
  vm_compute in E. injection E as <-.
  match type of A with api_tree ?t => destruct (C87_shared_dot (fun k : nat => "T" ++ show_usize k) (fun a : nat => "A" ++ show_usize a) show_usize t 1 _ ex_late A eq_refl) as (id & xs & vs & es & k & R & _) end.
  eexists. eexists. exists (vs ++ es)%list. eexists. exists "n0", "a2". split; [exact A|]. split; [reflexivity|]. split; [exact R|].
  destruct R as (_ & f & R). specialize (R (10 + f) ltac:(lia)). 
  match type of R with _ = Ret (?x, ?y) => set (z := x) in *; set (tt := y) in *; clearbody z tt end.
  vm_compute in R. injection R as <- _. split; [simpl; tauto|]. intros l sh. simpl. intuition congruence.
Qed.
Print Assumptions C87_edge_without_vertex.
