(** Histories of tree operations, seen from outside: which handles the program holds, what was written, what
    was added to which node. *)
From Coq Require Import List.
From Verif.Model Require Import Ord BTree Outcome Utils Tree.
Import ListNotations.

Section TreeSpec.
  Context {T AK V : Type} `{Ord T} `{Ord AK} `{Ord V}.
  Local Notation op := (tr_op T AK V).
  Local Notation val := (tr_val T AK V).
  Local Notation wld := (world T AK V).

  (** A history: the operations performed with their outcomes, the latest first. *)
  Definition history : Type := list (op * outcome val).

  (** The handles a program can hold: those operations returned. *)
  Definition known_tree (tr : history) (h : TreeHandle) : Prop := In (TNewTree, Ret (RHandle h)) tr.
  Definition known_node (tr : history) (n : Node) : Prop :=
    (exists o, In (o, Ret (RNode n)) tr) \/
    (exists a x ns, In (TContent a, Ret (RContent (NBranch x ns))) tr /\ In n ns).
  Definition known_alt (tr : history) (a : Alternative) : Prop :=
    (exists o, In (o, Ret (RAlt a)) tr) \/
    (exists n l, In (TAlts n, Ret (RAlts l)) tr /\ In a l).

  (** An operation a program can perform. *)
  Definition can_call (tr : history) (o : op) : Prop :=
    match o with
    | TNewTree => True
    | TMakeNode h | TMakeLeafAlt h _ _ | TMakeLeafNode h _ _ => known_tree tr h
    | TMakeBranchAlt h _ ns | TMakeBranchNode h _ ns => known_tree tr h /\ Forall (known_node tr) ns
    | TAddAlt n a => known_node tr n /\ known_alt tr a
    | TAddAll n m => known_node tr n /\ known_node tr m
    | TAlts n => known_node tr n
    | TContent a => known_alt tr a
    end.

  (** [run tr w]: the program has performed the history [tr] and the trees are now [w].  A panicking
      operation may be caught; what it left behind stays. *)
  Inductive run : history -> wld -> Prop :=
  | run_nil : run [] []
  | run_step tr w o r w' : run tr w -> can_call tr o -> tr_step w o = (r, w') -> run ((o, r) :: tr) w'.

  (** All handles of the operation belong to the same tree. *)
  Definition one_tree (o : op) : Prop :=
    match o with
    | TMakeBranchAlt h _ ns | TMakeBranchNode h _ ns => forall n, In n ns -> nd_inner n = h
    | TAddAlt n a => nd_inner n = al_inner a
    | TAddAll n m => nd_inner n = nd_inner m
    | _ => True
    end.

  (** The alternative was made with this content. *)
  Definition made (tr : history) (a : Alternative) (c : NodeContent T AK V) : Prop :=
    (exists h k v, In (TMakeLeafAlt h k v, Ret (RAlt a)) tr /\ c = NLeaf k v) \/
    (exists h x ns, In (TMakeBranchAlt h x ns, Ret (RAlt a)) tr /\ c = NBranch x ns).

  (** What was added to a node.  [make_leaf_node] and [make_branch_node] add the alternative with the given
      content; since contents never change it is named by its content in the trees [w] at the end. *)
  Inductive added (w : wld) : history -> Node -> Alternative -> Prop :=
  | added_alt tr n a c : added w ((TAddAlt n a, Ret (RChanged c)) :: tr) n a
  | added_all tr n m a c : added w tr m a -> added w ((TAddAll n m, Ret (RChanged c)) :: tr) n a
  | added_leaf tr n a h k v : al_inner a = h -> w_content w a = Ret (NLeaf k v) ->
      added w ((TMakeLeafNode h k v, Ret (RNode n)) :: tr) n a
  | added_branch tr n a h x ns : al_inner a = h -> w_content w a = Ret (NBranch x ns) ->
      added w ((TMakeBranchNode h x ns, Ret (RNode n)) :: tr) n a
  | added_before tr n a e : added w tr n a -> added w (e :: tr) n a.

  (** The forest as a graph, as a caller walking it with [alts], [content] and [nodes] sees it. *)
  Inductive leads (w : wld) (h : TreeHandle) : DotNode -> DotNode -> Prop :=
  | leads_alt n l a : w_alts w {| nd_index := n; nd_inner := h |} = Ret l -> In {| al_index := a; al_inner := h |} l ->
      leads w h (DNode n) (DAlt a)
  | leads_node a x ns n : w_content w {| al_index := a; al_inner := h |} = Ret (NBranch x ns) ->
      In {| nd_index := n; nd_inner := h |} ns -> leads w h (DAlt a) (DNode n).
End TreeSpec.
Arguments history T AK V : clear implicits.
