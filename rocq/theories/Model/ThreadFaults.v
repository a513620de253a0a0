(** src/parsers/tree.rs: threads sharing trees when the caller's own code panics inside calls.  The programs of
    Model/RwLock.v with the faults of Model/TreeFaults.v: a write section leaves whatever the closure has left
    behind, and its guard, dropped while panicking, poisons the lock.

    Simplification: as in Model/RwLock.v a write section is one step (nobody else can look at the tree meanwhile). *)
From Coq Require Import String List Arith Bool.
From Verif.Model Require Import Ord BTree Outcome Utils Tree RwLock.
From Verif.Model Require TreeFaults.
Import ListNotations.

Section ThreadFaults.
  Context {T AK V : Type} `{Ord T} `{Ord AK} `{Ord V}.
  Local Notation tree := (Inner T AK V).
  Local Notation fault := TreeFaults.fault.
  Local Notation op := (tr_op T AK V).
  Local Notation val := (tr_val T AK V).

  (** tree.rs:261-267 [with_mut], for a closure that leaves a tree behind in any case. *)
  Definition q_with_mut {A} (h : TreeHandle) (func : tree -> outcome A * tree) : prog T AK V A :=
    WLock h (fun poisoned =>
      if poisoned then WUnlock h true (Done (Panic TreeFaults.poison_text))
      else Get h (fun t =>
        let '(r, t') := func t in
        Put h t' (WUnlock h (match r with Panic _ => true | _ => false end) (Done r)))).

  (** tree.rs:276-284 [make_node]. *)
  Definition q_make_node (h : TreeHandle) : prog T AK V Node :=
    q_with_mut h (fun t => let '(i, t') := in_make_node t in (Ret {| nd_index := i; nd_inner := h |}, t')).
  (** tree.rs:304-316 [make_alt]. *)
  Definition q_make_alt (f : fault) (h : TreeHandle) (c : ContentInner T AK V) : prog T AK V Alternative :=
    q_with_mut h (fun t =>
      let '(r, t') := TreeFaults.f_inner_make_alt f c t in (i <- r ;; Ret {| al_index := i; al_inner := h |}, t')).

  (** The iterator over the nodes: one that panics when asked for an item after it has handed out [k] of them (if
      it is asked that often). *)
  Definition items (f : fault) (nodes : list Node) : list (prog T AK V Node) :=
    match f with
    | TreeFaults.InIterator k m =>
        if Nat.leb k (List.length nodes) then map (fun n => Done (Ret n)) (firstn k nodes) ++ [Done (Panic m)]
        else map (fun n => Done (Ret n)) nodes
    | _ => map (fun n => Done (Ret n)) nodes
    end.
  (** tree.rs:325-345 [make_branch_alt]. *)
  Definition q_make_branch_alt (f : fault) (h : TreeHandle) (action : AK) (nodes : list Node) : prog T AK V Alternative :=
    pbind (p_with h (fun _ => p_collect h (items f nodes))) (fun is => q_make_alt f h (CBranch action is)).

  (** tree.rs:379-385 [add_alt]; 402-411 [add_all]. *)
  Definition q_add_alt (n : Node) (a : Alternative) : prog T AK V WasChanged :=
    pbind (p_is_same (nd_inner n) (al_inner a)) (fun same =>
    pbind (Done (assert_ same "assertion failed: self.inner.is_same(&alt.inner)")) (fun _ =>
    q_with_mut (nd_inner n) (fun t => TreeFaults.undone (in_add_node_alt (nd_index n) (al_index a) t) t))).
  Definition q_add_all (n other : Node) : prog T AK V WasChanged :=
    pbind (p_is_same (nd_inner n) (nd_inner other)) (fun same =>
    pbind (Done (assert_ same "assertion failed: self.inner.is_same(&other.inner)")) (fun _ =>
    q_with_mut (nd_inner n) (fun t => TreeFaults.undone (in_add_all (nd_index n) (nd_index other) t) t))).

  (** The copy of a kind or action (tree.rs:502, 548), made while the read lock is held. *)
  Definition cloned {A} (f : fault) (x : A) : outcome A :=
    match f with TreeFaults.InClone m => Panic m | _ => Ret x end.
  (** tree.rs:450-461 [content], followed by [kind] and [value] (501-507) or [action] and [nodes] (547-562), each with
      its own lock. *)
  Definition q_content (f : fault) (a : Alternative) : prog T AK V (NodeContent T AK V) :=
    pbind (p_with (al_inner a) (fun t => Done (
      c <- get_alt t (al_index a) ;; Ret (match c with CLeaf _ _ => true | CBranch _ _ => false end)))) (fun leaf =>
    if leaf then
      pbind (p_with (al_inner a) (fun t => Done (
        c <- get_alt t (al_index a) ;;
        match c with CLeaf k _ => cloned f k | CBranch _ _ => Panic "Found branch where leaf expected." end))) (fun k =>
      pbind (p_with (al_inner a) (fun t => Done (
        c <- get_alt t (al_index a) ;;
        match c with CLeaf _ v => Ret v | CBranch _ _ => Panic "Found branch where leaf expected." end))) (fun v =>
      Done (Ret (NLeaf k v))))
    else
      pbind (p_with (al_inner a) (fun t => Done (
        c <- get_alt t (al_index a) ;;
        match c with CBranch x _ => cloned f x | CLeaf _ _ => Panic "Found leaf where branch expected." end))) (fun x =>
      pbind (p_with (al_inner a) (fun t => Done (
        c <- get_alt t (al_index a) ;;
        match c with CBranch _ is => Ret is | CLeaf _ _ => Panic "Found leaf where branch expected." end))) (fun is =>
      Done (Ret (NBranch x (map (fun i => {| nd_index := i; nd_inner := al_inner a |}) is)))))).

  (** tree.rs:286-291 [make_leaf_node]; 293-302 [make_branch_node]. *)
  Definition q_make_leaf_node (f : fault) (h : TreeHandle) (kind : T) (value : V) : prog T AK V Node :=
    pbind (q_make_node h) (fun node =>
    pbind (q_make_alt f h (CLeaf kind value)) (fun leaf_alt =>
    pbind (q_add_alt node leaf_alt) (fun _ => Done (Ret node)))).
  Definition q_make_branch_node (f : fault) (h : TreeHandle) (action : AK) (nodes : list Node) : prog T AK V Node :=
    pbind (q_make_node h) (fun node =>
    pbind (q_make_branch_alt f h action nodes) (fun branch_alt =>
    pbind (q_add_alt node branch_alt) (fun _ => Done (Ret node)))).

  (** The program of each operation of the API, when the caller's code panics in it as [f] says (if it gets there). *)
  Definition fop_prog (f : fault) (o : op) : prog T AK V val :=
    match o with
    | TNewTree => pmap RHandle p_new_tree
    | TMakeNode h => pmap RNode (q_make_node h)
    | TMakeLeafAlt h k v => pmap RAlt (q_make_alt f h (CLeaf k v))
    | TMakeBranchAlt h x ns => pmap RAlt (q_make_branch_alt f h x ns)
    | TMakeLeafNode h k v => pmap RNode (q_make_leaf_node f h k v)
    | TMakeBranchNode h x ns => pmap RNode (q_make_branch_node f h x ns)
    | TAddAlt n a => pmap RChanged (q_add_alt n a)
    | TAddAll n m => pmap RChanged (q_add_all n m)
    | TAlts n => pmap RAlts (p_alts n)
    | TContent a => pmap RContent (q_content f a)
    end.
End ThreadFaults.
