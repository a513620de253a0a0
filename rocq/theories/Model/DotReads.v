(** src/parsers/tree.rs: the dot export over abstract reads of the tree.

    The export looks at the tree in two ways only, each under one read lock (tree.rs:253-259): the alternatives of a
    node (tree.rs:603-610, 686-694) and the content of an alternative (tree.rs:611-620, 697-709, 751-759).  Here it is
    written over these two reads.  With the reads of Model/Tree.v it is Model/DotText.v (Proofs/DotThreads.v,
    [gto_dot_alone]); with reads that are the calls of a thread it is used in C105. *)
From Coq Require Import String List Arith Bool.
From Verif.Model Require Import Ord BTree Outcome Utils Tree DotText.
Import ListNotations.

Record TreeReads (T AK V S : Type) := {
  rd_node : nat -> S -> outcome (list nat * S);
  rd_alt : nat -> S -> outcome (ContentInner T AK V * S)
}.
Arguments rd_node {T AK V S} _.
Arguments rd_alt {T AK V S} _.

Section Generic.
  Context {T AK V S : Type}.
  Variable rds : TreeReads T AK V S.
  Variables (debug_t : T -> string) (debug_ak : AK -> string) (debug_v : V -> string).

  (** tree.rs:602-621: what one item leads to. *)
  Definition gdot_succ (item : DotNode) (s : S) : outcome (list DotNode * S) :=
    match item with
    | DNode node_id => '(is, s) <- rd_node rds node_id s ;; Ret (map DAlt is, s)
    | DAlt alt_id =>
        '(c, s) <- rd_alt rds alt_id s ;;
        Ret (match c with CBranch _ nodes => map DNode nodes | CLeaf _ _ => [] end, s)
    end.
  Fixpoint gflat_map {A B} (f : A -> S -> outcome (list B * S)) (l : list A) (s : S) : outcome (list B * S) :=
    match l with
    | [] => Ret ([], s)
    | a :: r => '(x, s) <- f a s ;; '(y, s) <- gflat_map f r s ;; Ret (x ++ y, s)
    end.
  (** tree.rs:601-622: the [for] loop. *)
  Fixpoint gdot_round (curr : list DotNode) (acc : btset DotNode * btset DotNode) (s : S)
    : outcome (btset DotNode * btset DotNode * S) :=
    match curr with
    | [] => Ret (acc, s)
    | item :: r => '(items, s) <- gdot_succ item s ;; gdot_round r (dot_visit items acc) s
    end.
  (** tree.rs:600-626: the [while] loop. *)
  Fixpoint gdot_loop (fuel : nat) (curr seen : btset DotNode) (s : S) : outcome (btset DotNode * S) :=
    match fuel with
    | 0 => NoFuel
    | Datatypes.S fuel' =>
        match curr with
        | [] => Ret (seen, s)
        | _ => '(next, seen', s) <- gdot_round curr ([], seen) s ;; gdot_loop fuel' next seen' s
        end
    end.
  (** tree.rs:585-638 [collect_nodes_and_alts]. *)
  Definition gcollect (node : nat) (fuel : nat) (s : S) : outcome (list nat * list nat * S) :=
    '(seen, s) <- gdot_loop fuel (bs_add (DNode node) []) [] s ;;
    Ret (flat_map (fun x => match x with DNode i => [i] | DAlt _ => [] end) seen,
         flat_map (fun x => match x with DAlt i => [i] | DNode _ => [] end) seen, s).
  (** tree.rs:748-761 [node_label]: only alternatives are read. *)
  Definition gnode_label (x : DotNode) (s : S) : outcome (string * S) :=
    match x with
    | DNode _ => Ret (EmptyString, s)
    | DAlt i =>
        '(c, s) <- rd_alt rds i s ;;
        Ret (match c with
             | CBranch action _ => debug_ak action
             | CLeaf kind value => (debug_t kind ++ "(" ++ debug_v value ++ ")")%string
             end, s)
    end.
  (** [dot::render] (crate [dot] 0.1.4): the statement of a vertex. *)
  Definition gnode_stmt (x : DotNode) (s : S) : outcome (list dot_stmt * S) :=
    id <- node_id x ;; '(label, s) <- gnode_label x s ;; Ret ([NodeStmt id label (node_shape x)], s).
  (** tree.rs:684-712 [edges]. *)
  Definition gedges_of (x : DotNode) (s : S) : outcome (list (DotNode * DotNode) * S) :=
    '(ys, s) <- gdot_succ x s ;; Ret (map (fun y => (x, y)) ys, s).
  (** tree.rs:420-424 [to_dot], by [dot::render]: the vertices with their labels, then the edges, which are asked for
      after the vertices are written. *)
  Definition gto_dot (node : nat) (fuel : nat) (s : S) : outcome (list dot_stmt * S) :=
    '(nodes, alts, s) <- gcollect node fuel s ;;
    '(vs, s) <- gflat_map gnode_stmt (dot_nodes nodes alts) s ;;
    '(edges, s) <- gflat_map gedges_of (dot_nodes nodes alts) s ;;
    es <- flat_map_o (fun e => x <- edge_stmt e ;; Ret [x]) edges ;;
    Ret ((vs ++ es)%list, s).
End Generic.

Section Alone.
  Context {T AK V : Type}.
  (** tree.rs:129-137, 149-151 [get_node], [get_alt] on a tree nobody else uses. *)
  Definition alone_reads : TreeReads T AK V (Inner T AK V) :=
    {| rd_node := fun n t => is <- get_node t n ;; Ret (is, t); rd_alt := fun a t => c <- get_alt t a ;; Ret (c, t) |}.
End Alone.
