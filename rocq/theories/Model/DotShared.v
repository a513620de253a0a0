(** src/parsers/tree.rs: the dot export of a tree other threads are changing.

    The export takes the read lock once per vertex walked (tree.rs:603, 611), once per alternative to label it
    (tree.rs:751) and once per vertex to list its edges (tree.rs:686, 697); between two of these other threads can
    change the tree, by the operations of Model/EarleyShared.v on any node.  Blocking is not modelled here (C54). *)
From Coq Require Import String List Arith Bool.
From Verif.Model Require Import Ord BTree Outcome Utils Tree DotText EarleyShared.
Import ListNotations.

Section Shared.
  Context {T AK V : Type} `{Ord T} `{Ord AK} `{Ord V}.
  Variables (debug_t : T -> string) (debug_ak : AK -> string) (debug_v : V -> string).
  Local Notation tree := (Inner T AK V).
  Local Notation st := (shared T AK V).

  (** tree.rs:253-259 [with], the others having been at work. *)
  Definition sh_with {A} (func : tree -> outcome A) (s : st) : outcome (A * st) :=
    let s := wait s in
    a <- func (sh_tree s) ;;
    Ret (a, s).
  Fixpoint sh_flat_map {A B} (f : A -> st -> outcome (list B * st)) (l : list A) (s : st) : outcome (list B * st) :=
    match l with
    | [] => Ret ([], s)
    | a :: r => '(x, s) <- f a s ;; '(y, s) <- sh_flat_map f r s ;; Ret (x ++ y, s)
    end.

  (** tree.rs:601-622: the [for] loop. *)
  Fixpoint sh_dot_round (curr : list DotNode) (acc : btset DotNode * btset DotNode) (s : st)
    : outcome (btset DotNode * btset DotNode * st) :=
    match curr with
    | [] => Ret (acc, s)
    | item :: r => '(items, s) <- sh_with (fun t => dot_succ t item) s ;; sh_dot_round r (dot_visit items acc) s
    end.
  (** tree.rs:600-626: the [while] loop. *)
  Fixpoint sh_dot_loop (fuel : nat) (curr seen : btset DotNode) (s : st) : outcome (btset DotNode * st) :=
    match fuel with
    | 0 => NoFuel
    | S fuel' =>
        match curr with
        | [] => Ret (seen, s)
        | _ => '(next, seen', s) <- sh_dot_round curr ([], seen) s ;; sh_dot_loop fuel' next seen' s
        end
    end.
  (** tree.rs:585-638 [collect_nodes_and_alts]. *)
  Definition sh_collect (node : nat) (fuel : nat) (s : st) : outcome (list nat * list nat * st) :=
    '(seen, s) <- sh_dot_loop fuel (bs_add (DNode node) []) [] s ;;
    Ret (flat_map (fun x => match x with DNode i => [i] | DAlt _ => [] end) seen,
         flat_map (fun x => match x with DAlt i => [i] | DNode _ => [] end) seen, s).
  (** tree.rs:748-761 [node_label]: only alternatives need the lock. *)
  Definition sh_node_label (x : DotNode) (s : st) : outcome (string * st) :=
    match x with
    | DNode _ => Ret (EmptyString, s)
    | DAlt _ => sh_with (fun t => node_label debug_t debug_ak debug_v t x) s
    end.
  Definition sh_node_stmt (x : DotNode) (s : st) : outcome (list dot_stmt * st) :=
    id <- node_id x ;; '(label, s) <- sh_node_label x s ;; Ret ([NodeStmt id label (node_shape x)], s).
  (** tree.rs:684-712 [edges]. *)
  Definition sh_edges_of (x : DotNode) (s : st) : outcome (list (DotNode * DotNode) * st) :=
    '(ys, s) <- sh_with (fun t => dot_succ t x) s ;; Ret (map (fun y => (x, y)) ys, s).
  (** tree.rs:420-424 [to_dot], by [dot::render] (crate [dot] 0.1.4): the vertices with their labels, then the
      edges, which are asked for after the vertices are written.  Returns the statements and the tree at the end. *)
  Definition shared_to_dot (others : list (list (other_op T AK V))) (t : tree) (node : nat) (fuel : nat)
    : outcome (list dot_stmt * tree) :=
    '(nodes, alts, s) <- sh_collect node fuel {| sh_tree := t; sh_mine := []; sh_others := others |} ;;
    '(vs, s) <- sh_flat_map sh_node_stmt (dot_nodes nodes alts) s ;;
    '(edges, s) <- sh_flat_map sh_edges_of (dot_nodes nodes alts) s ;;
    es <- flat_map_o (fun e => x <- edge_stmt e ;; Ret [x]) edges ;;
    Ret ((vs ++ es)%list, sh_tree s).
End Shared.
