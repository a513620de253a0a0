(** src/parsers/tree.rs when the caller's own code panics inside a call: the [Ord] and [Drop] of the kinds,
    actions and values run under the write lock of the tree ([AltSet::add]), the iterator handed to
    [make_branch_alt] and [make_branch_node] and the [Clone] of a kind or action run under a read lock.  A panic
    under the write lock poisons the tree, a panic under a read lock does not; [RwLock::read] and
    [RwLock::write] of a poisoned lock return an error, which tree.rs unwraps.

    One call panics in the caller's code at most once: it then unwinds (a second panic while unwinding aborts
    the process).  The panic may come at any place where the code is run; whether the code really gets as far
    (say, whether a set of one element is compared at all) is left open, so the model allows more than happens. *)
From Coq Require Import String List Arith.
From Verif.Model Require Import Ord BTree Outcome Utils Tree.
Import ListNotations.

(** Where, and with what message, the caller's code panics during a call. *)
Inductive fault :=
| NoFault
| InIterator (k : nat) (m : string)   (** the iterator of nodes, after handing out [k] nodes *)
| InLookup (m : string)               (** a comparison while the content is looked up *)
| InInsert (m : string)               (** a comparison while the new content is put into the map *)
| InDrop (m : string)                 (** the destructor of a content that was there already *)
| InClone (m : string).               (** the copying of a kind or action read from an alternative *)

Section Faults.
  Context {T AK V : Type} `{Ord T} `{Ord AK} `{Ord V}.
  Local Notation tree := (Inner T AK V).

  (** tree.rs:188-191 [TreeOwner]: the [RwLock], with its poison flag, and what it protects. *)
  Record ptree := { pt_tree : tree; pt_poisoned : bool }.
  Definition pworld := list ptree.
  Definition fres (A : Type) : Type := outcome A * pworld.

  (** [Result::unwrap] of the [PoisonError] (tree.rs:257, 265). *)
  Definition poison_text : string := "called `Result::unwrap()` on an `Err` value: PoisonError { .. }"%string.
  Definition p_lock (pw : pworld) (h : TreeHandle) : outcome tree :=
    p <- expect (nth_error pw h) "dangling handle" ;;
    if pt_poisoned p then Panic poison_text else Ret (pt_tree p).

  (** tree.rs:253-259 [with]: a panic of the closure releases the read lock and goes on. *)
  Definition p_with {A} (pw : pworld) (h : TreeHandle) (func : tree -> outcome A) : outcome A :=
    t <- p_lock pw h ;; func t.
  (** tree.rs:261-267 [with_mut]: the closure leaves a tree behind in any case; a panic poisons the lock. *)
  Definition p_with_mut {A} (pw : pworld) (h : TreeHandle) (func : tree -> outcome A * tree) : fres A :=
    match p_lock pw h with
    | Ret t =>
        let '(r, t') := func t in
        (r, list_set pw h {| pt_tree := t'; pt_poisoned := match r with Panic _ => true | _ => false end |})
    | Panic m => (Panic m, pw)
    | NoFuel => (NoFuel, pw)
    end.

  (** tree.rs:93-104 [AltSet::add], 168-170 [make_alt].  The vector is extended before the map. *)
  Definition f_altset_add (f : fault) (s : AltSet T AK V) (content : ContentInner T AK V) : outcome nat * AltSet T AK V :=
    match f with
    | InLookup m => (Panic m, s)
    | _ =>
        match bt_get content (value_to_id s) with
        | Some index => (match f with InDrop m => Panic m | _ => Ret index end, s)
        | None =>
            let index := List.length (id_to_value s) in
            let pushed := app (id_to_value s) [content] in
            match f with
            | InInsert m => (Panic m, Build_AltSet (value_to_id s) pushed)
            | _ => (Ret index, Build_AltSet (bt_insert content index (value_to_id s)) pushed)
            end
        end
    end.
  Definition f_inner_make_alt (f : fault) (c : ContentInner T AK V) (t : tree) : outcome nat * tree :=
    let '(r, s) := f_altset_add f (in_alts t) c in (r, Build_Inner (in_nodes t) s).

  Definition fbind {A B} (x : fres A) (k : A -> pworld -> fres B) : fres B :=
    match x with (Ret a, w) => k a w | (Panic m, w) => (Panic m, w) | (NoFuel, w) => (NoFuel, w) end.

  (** tree.rs:214-218 [TreeOwner::new] and 223-225 [handle]. *)
  Definition f_new_tree (pw : pworld) : fres TreeHandle :=
    (Ret (List.length pw), app pw [{| pt_tree := in_new; pt_poisoned := false |}]).

  (** tree.rs:276-284 [make_node]. *)
  Definition f_make_node (pw : pworld) (h : TreeHandle) : fres Node :=
    p_with_mut pw h (fun t => let '(i, t') := in_make_node t in (Ret {| nd_index := i; nd_inner := h |}, t')).

  (** tree.rs:304-316 [make_alt]. *)
  Definition f_make_alt (f : fault) (pw : pworld) (h : TreeHandle) (c : ContentInner T AK V) : fres Alternative :=
    p_with_mut pw h (fun t =>
      let '(r, t') := f_inner_make_alt f c t in (i <- r ;; Ret {| al_index := i; al_inner := h |}, t')).
  (** tree.rs:318-323 [make_leaf_alt]. *)
  Definition f_make_leaf_alt (f : fault) (pw : pworld) (h : TreeHandle) (kind : T) (value : V) : fres Alternative :=
    f_make_alt f pw h (CLeaf kind value).

  (** tree.rs:330-339: the nodes are drawn from the iterator one by one, and for each its tree is locked for
      reading and asserted to be this one. *)
  Fixpoint f_collect (pw : pworld) (h : TreeHandle) (f : fault) (nodes : list Node) : outcome (list nat) :=
    match f with
    | InIterator 0 m => Panic m
    | _ =>
        match nodes with
        | [] => Ret []
        | n :: r =>
            same <- p_with pw (nd_inner n) (fun _ => Ret (Nat.eqb (nd_inner n) h)) ;;
            _ <- assert_ same "assertion failed: n.inner.with(is_same)" ;;
            is <- f_collect pw h (match f with InIterator (S k) m => InIterator k m | _ => f end) r ;;
            Ret (nd_index n :: is)
        end
    end.
  (** tree.rs:325-345 [make_branch_alt]. *)
  Definition f_make_branch_alt (f : fault) (pw : pworld) (h : TreeHandle) (action : AK) (nodes : list Node) : fres Alternative :=
    match p_with pw h (fun _ => f_collect pw h f nodes) with
    | Ret is => f_make_alt f pw h (CBranch action is)
    | Panic m => (Panic m, pw)
    | NoFuel => (NoFuel, pw)
    end.

  (** tree.rs:347-351 [is_same]. *)
  Definition f_is_same (pw : pworld) (a b : TreeHandle) : outcome bool :=
    p_with pw a (fun _ => p_with pw b (fun _ => Ret (Nat.eqb a b))).

  (** A closure that panics before it has changed anything. *)
  Definition undone {A} (x : outcome (A * tree)) (t : tree) : outcome A * tree :=
    match x with Ret (a, t') => (Ret a, t') | Panic m => (Panic m, t) | NoFuel => (NoFuel, t) end.

  (** tree.rs:379-385 [add_alt]. *)
  Definition f_add_alt (pw : pworld) (n : Node) (a : Alternative) : fres WasChanged :=
    match same <- f_is_same pw (nd_inner n) (al_inner a) ;;
          assert_ same "assertion failed: self.inner.is_same(&alt.inner)" with
    | Ret _ => p_with_mut pw (nd_inner n) (fun t => undone (in_add_node_alt (nd_index n) (al_index a) t) t)
    | Panic m => (Panic m, pw)
    | NoFuel => (NoFuel, pw)
    end.
  (** tree.rs:402-411 [add_all].  No handle makes an index panic here happen (C37), so where it would leave the
      tree is of no interest. *)
  Definition f_add_all (pw : pworld) (n other : Node) : fres WasChanged :=
    match same <- f_is_same pw (nd_inner n) (nd_inner other) ;;
          assert_ same "assertion failed: self.inner.is_same(&other.inner)" with
    | Ret _ => p_with_mut pw (nd_inner n) (fun t => undone (in_add_all (nd_index n) (nd_index other) t) t)
    | Panic m => (Panic m, pw)
    | NoFuel => (NoFuel, pw)
    end.

  (** tree.rs:387-399 [alts]. *)
  Definition f_alts (pw : pworld) (n : Node) : outcome (list Alternative) :=
    is <- p_with pw (nd_inner n) (fun t => get_node t (nd_index n)) ;;
    Ret (map (fun i => {| al_index := i; al_inner := nd_inner n |}) is).

  (** tree.rs:450-461 [content], then [kind] and [value] (501-507) or [action] and [nodes] (547-562). *)
  Definition f_content (f : fault) (pw : pworld) (a : Alternative) : outcome (NodeContent T AK V) :=
    c <- p_with pw (al_inner a) (fun t => get_alt t (al_index a)) ;;
    match f with
    | InClone m => Panic m
    | _ =>
        Ret (match c with
             | CLeaf k v => NLeaf k v
             | CBranch x is => NBranch x (map (fun i => {| nd_index := i; nd_inner := al_inner a |}) is)
             end)
    end.

  (** tree.rs:286-291 [make_leaf_node]; 293-302 [make_branch_node]. *)
  Definition f_make_leaf_node (f : fault) (pw : pworld) (h : TreeHandle) (kind : T) (value : V) : fres Node :=
    fbind (f_make_node pw h) (fun node w1 =>
    fbind (f_make_leaf_alt f w1 h kind value) (fun leaf_alt w2 =>
    fbind (f_add_alt w2 node leaf_alt) (fun _ w3 => (Ret node, w3)))).
  Definition f_make_branch_node (f : fault) (pw : pworld) (h : TreeHandle) (action : AK) (nodes : list Node) : fres Node :=
    fbind (f_make_node pw h) (fun node w1 =>
    fbind (f_make_branch_alt f w1 h action nodes) (fun branch_alt w2 =>
    fbind (f_add_alt w2 node branch_alt) (fun _ w3 => (Ret node, w3)))).

  Definition fmap_ {A} (g : A -> tr_val T AK V) (r : fres A) : fres (tr_val T AK V) :=
    match r with (Ret a, w) => (Ret (g a), w) | (Panic m, w) => (Panic m, w) | (NoFuel, w) => (NoFuel, w) end.
  (** A call of the API during which the caller's code panics as [f] says (if it gets there). *)
  Definition f_step (f : fault) (pw : pworld) (o : tr_op T AK V) : fres (tr_val T AK V) :=
    match o with
    | TNewTree => fmap_ RHandle (f_new_tree pw)
    | TMakeNode h => fmap_ RNode (f_make_node pw h)
    | TMakeLeafAlt h k v => fmap_ RAlt (f_make_leaf_alt f pw h k v)
    | TMakeBranchAlt h x ns => fmap_ RAlt (f_make_branch_alt f pw h x ns)
    | TMakeLeafNode h k v => fmap_ RNode (f_make_leaf_node f pw h k v)
    | TMakeBranchNode h x ns => fmap_ RNode (f_make_branch_node f pw h x ns)
    | TAddAlt n a => fmap_ RChanged (f_add_alt pw n a)
    | TAddAll n m => fmap_ RChanged (f_add_all pw n m)
    | TAlts n => fmap_ RAlts (f_alts pw n, pw)
    | TContent a => fmap_ RContent (f_content f pw a, pw)
    end.
End Faults.
Arguments ptree T AK V : clear implicits.
Arguments pworld T AK V : clear implicits.
