(** C80: the text of the dot export (src/parsers/tree.rs). *)
From Coq Require Import String List Arith.
From Verif.Model Require Import Ord BTree Outcome Utils Tree DotText.
From Verif.Spec Require Import Reach TreeSpec DotSpec.
From Verif.Proofs Require Import OrdFacts LoopFacts TreeFacts TreeHist DotFacts DotTextFacts.
From Verif.Properties Require Import TreeProps.
Import ListNotations.

(** C80. Vertices of one export have different identifiers, all of them valid for dot. *)
Theorem C80_ids_distinct x y i : node_id x = Ret i -> node_id y = Ret i -> x = y.
Proof. exact (ids_distinct x y i). Qed.
Theorem C80_ids_valid x : exists i, node_id x = Ret i /\ id_new i = Some i.
Proof. exact (ids_valid x). Qed.

Section Props.
  Context {T AK V : Type} `{OrdEq T} `{OrdEq AK} `{OrdEq V}.
  Variables (debug_t : T -> string) (debug_ak : AK -> string) (debug_v : V -> string).

  (** C80. The export returns; it writes one statement for each vertex strictly below the root, with the
      label and shape of the vertex, and for each of these vertices, in order, one edge per alternative or
      child, in order and with repetitions; both ends of each edge are declared. *)
  Theorem C80_dot_statements (tr : history T AK V) w n t :
    run tr w -> known_node tr n -> nth_error w (nd_inner n) = Some t ->
    exists id xs vs es,
      runs_to (to_dot_stmts debug_t debug_ak debug_v t (nd_index n)) (Ret (vs ++ es)) /\
      (forall x, node_id x = Ret (id x)) /\ NoDup xs /\
      (forall x, In x xs <-> plus (leads w (nd_inner n)) (DNode (nd_index n)) x) /\
      vertex_stmts debug_t debug_ak debug_v w (nd_inner n) id xs vs /\
      edge_stmts w (nd_inner n) id xs es /\
      (forall a b, In (EdgeStmt a b) es -> exists x y l s l' s', a = id x /\ b = id y /\
         In (NodeStmt a l s) vs /\ In (NodeStmt b l' s') vs).
  Proof. exact (dot_statements debug_t debug_ak debug_v tr w n t). Qed.
End Props.

Print Assumptions C80_ids_distinct.
Print Assumptions C80_ids_valid.
Print Assumptions C80_dot_statements.

(** The statements for the cyclic node of the history of TreeProps. *)
Local Open Scope string_scope.
Example dot_example : exists t, nth_error ex_w 0 = Some t /\
  to_dot_stmts (fun k => "T" ++ show_usize k) (fun a => "A" ++ show_usize a) show_usize t 1 10 =
  Ret [ NodeStmt "n0" "" "point"; NodeStmt "n1" "" "point"; NodeStmt "a0" "T7(1)" "box"; NodeStmt "a1" "A9" "box";
        EdgeStmt "n0" "a0"; EdgeStmt "n0" "a1"; EdgeStmt "n1" "a1"; EdgeStmt "a1" "n0"; EdgeStmt "a1" "n1" ].
Proof. eexists. split; vm_compute; reflexivity. Qed.
