(** The dot export of a forest, as a caller who walks the forest would write it down. *)
From Coq Require Import String List.
From Verif.Model Require Import Ord Outcome Tree DotText.
From Verif.Spec Require Import Reach TreeSpec.
Import ListNotations.
Local Open Scope string_scope.

Section DotSpec.
  Context {T AK V : Type} `{Ord T} `{Ord AK} `{Ord V}.
  Variables (debug_t : T -> string) (debug_ak : AK -> string) (debug_v : V -> string).
  Variables (w : world T AK V) (h : TreeHandle).

  (** What a vertex leads to, in the order in which [alts] and [nodes] list it, with repetitions. *)
  Inductive children : DotNode -> list DotNode -> Prop :=
  | children_node n l : w_alts w {| nd_index := n; nd_inner := h |} = Ret l ->
      children (DNode n) (map (fun a => DAlt (al_index a)) l)
  | children_branch a x ns : w_content w {| al_index := a; al_inner := h |} = Ret (NBranch x ns) ->
      children (DAlt a) (map (fun n => DNode (nd_index n)) ns)
  | children_leaf a k v : w_content w {| al_index := a; al_inner := h |} = Ret (NLeaf k v) -> children (DAlt a) [].

  Inductive labelled : DotNode -> string -> string -> Prop :=
  | labelled_node n : labelled (DNode n) "" "point"
  | labelled_branch a x ns : w_content w {| al_index := a; al_inner := h |} = Ret (NBranch x ns) ->
      labelled (DAlt a) (debug_ak x) "box"
  | labelled_leaf a k v : w_content w {| al_index := a; al_inner := h |} = Ret (NLeaf k v) ->
      labelled (DAlt a) (debug_t k ++ "(" ++ debug_v v ++ ")") "box".

  (** One statement per vertex; one statement per vertex and child. *)
  Inductive vertex_stmts (id : DotNode -> string) : list DotNode -> list dot_stmt -> Prop :=
  | vs_nil : vertex_stmts id [] []
  | vs_cons x xs l s ss : labelled x l s -> vertex_stmts id xs ss ->
      vertex_stmts id (x :: xs) (NodeStmt (id x) l s :: ss).
  Inductive edge_stmts (id : DotNode -> string) : list DotNode -> list dot_stmt -> Prop :=
  | es_nil : edge_stmts id [] []
  | es_cons x xs ys ss : children x ys -> edge_stmts id xs ss ->
      edge_stmts id (x :: xs) (map (fun y => EdgeStmt (id x) (id y)) ys ++ ss)%list.
End DotSpec.
