(** src/parsers/tree.rs: shared parse forests.

    One [Inner] (a tree) first, as a value with an operation per method; then any number of trees with the
    handles the API hands out.  Locks are taken and released without contention here (single thread); the
    lock protocol itself is modelled in Model/RwLock.v.  [Arc] sharing of leaf values and contents is not
    observable and not modelled. *)
From Coq Require Import String List Arith.
From Verif.Model Require Import Ord BTree Outcome Utils.
Import ListNotations.

(** tree.rs:29-45 [LeafData], [BranchData], [NodeContentInner]. *)
Inductive ContentInner (T AK V : Type) :=
| CLeaf (kind : T) (value : V)
| CBranch (action : AK) (nodes : list nat).
Arguments CLeaf {T AK V} kind value.
Arguments CBranch {T AK V} action nodes.

(** tree.rs:28-41, derived: leaves before branches, then field by field. *)
#[export] Instance Ord_ContentInner {T AK V} `{Ord T} `{Ord AK} `{Ord V} : Ord (ContentInner T AK V) := fun a b =>
  match a, b with
  | CLeaf k v, CLeaf k' v' => then_cmp (cmp k k') (cmp v v')
  | CLeaf _ _, CBranch _ _ => Lt
  | CBranch _ _, CLeaf _ _ => Gt
  | CBranch x ns, CBranch x' ns' => then_cmp (cmp x x') (cmp ns ns')
  end.

(** tree.rs:63-66 [AltSet]. *)
Record AltSet (T AK V : Type) := {
  value_to_id : btmap (ContentInner T AK V) nat;
  id_to_value : list (ContentInner T AK V)
}.
Arguments value_to_id {T AK V} _.
Arguments id_to_value {T AK V} _.
Arguments Build_AltSet {T AK V} _ _.

(** tree.rs:107-110, 116-119 [NodeData] (the set of alternative numbers), [Inner]. *)
Record Inner (T AK V : Type) := {
  in_nodes : list (btset nat);
  in_alts : AltSet T AK V
}.
Arguments in_nodes {T AK V} _.
Arguments in_alts {T AK V} _.
Arguments Build_Inner {T AK V} _ _.

(** [Vec] element assignment. *)
Fixpoint list_set {A} (l : list A) (i : nat) (x : A) : list A :=
  match l, i with
  | [], _ => []
  | _ :: r, 0 => x :: r
  | y :: r, S i' => y :: list_set r i' x
  end.

Section Inner.
  Context {T AK V : Type} `{Ord T} `{Ord AK} `{Ord V}.

  (** tree.rs:69-74 [AltSet::new], 122-127 [Inner::new]. *)
  Definition in_new : Inner T AK V := Build_Inner [] (Build_AltSet [] []).

  (** tree.rs:76-84 [AltSet::get], 149-151 [get_alt]. *)
  Definition get_alt (t : Inner T AK V) (index : nat) : outcome (ContentInner T AK V) :=
    expect (nth_error (id_to_value (in_alts t)) index) "Invalid index (alts)".

  (** tree.rs:93-104 [AltSet::add], 168-170 [make_alt]. *)
  Definition altset_add (s : AltSet T AK V) (content : ContentInner T AK V) : nat * AltSet T AK V :=
    match bt_get content (value_to_id s) with
    | Some index => (index, s)
    | None =>
        let index := length (id_to_value s) in
        (index, Build_AltSet (bt_insert content index (value_to_id s)) (id_to_value s ++ [content]))
    end.
  Definition in_make_alt (t : Inner T AK V) (content : ContentInner T AK V) : nat * Inner T AK V :=
    let '(index, s) := altset_add (in_alts t) content in (index, Build_Inner (in_nodes t) s).

  (** tree.rs:129-147 [get_node], [get_node_mut]. *)
  Definition get_node (t : Inner T AK V) (index : nat) : outcome (btset nat) :=
    expect (nth_error (in_nodes t) index) "Invalid index (nodes)".

  (** tree.rs:160-166 [make_node]. *)
  Definition in_make_node (t : Inner T AK V) : nat * Inner T AK V :=
    (length (in_nodes t), Build_Inner (in_nodes t ++ [[]]) (in_alts t)).

  (** tree.rs:172-179 [add_node_alt]. *)
  Definition in_add_node_alt (node_index alt_index : nat) (t : Inner T AK V) : outcome (WasChanged * Inner T AK V) :=
    node_data <- get_node t node_index ;;
    let '(b, node_data') := bs_insert alt_index node_data in
    Ret (from_changed b, Build_Inner (list_set (in_nodes t) node_index node_data') (in_alts t)).

  (** tree.rs:405-410: the body of [add_all] under the write lock. *)
  Definition in_add_all (self other : nat) (t : Inner T AK V) : outcome (WasChanged * Inner T AK V) :=
    other_data <- get_node t other ;;
    change_iter (fun other_alt t => in_add_node_alt self other_alt t) other_data t.

  (** tree.rs:286-291 [make_leaf_node], 293-302 [make_branch_node], both with all handles belonging to this tree (the ownership checks are in
      the handle operations below). *)
  Definition in_make_leaf_node (kind : T) (value : V) (t : Inner T AK V) : outcome (nat * Inner T AK V) :=
    let '(node, t1) := in_make_node t in
    let '(alt, t2) := in_make_alt t1 (CLeaf kind value) in
    '(_, t3) <- in_add_node_alt node alt t2 ;;
    Ret (node, t3).
  Definition in_make_branch_node (action : AK) (nodes : list nat) (t : Inner T AK V) : outcome (nat * Inner T AK V) :=
    let '(node, t1) := in_make_node t in
    let '(alt, t2) := in_make_alt t1 (CBranch action nodes) in
    '(_, t3) <- in_add_node_alt node alt t2 ;;
    Ret (node, t3).
End Inner.

(** ** Handles *)

(** tree.rs:228-230 [TreeHandle]: the address of the tree, here its number.
    tree.rs:362-365 [Node]; 435-438 [Alternative]; 472-475 [Leaf]; 518-521 [Branch]. *)
Definition TreeHandle := nat.
Record Node := { nd_index : nat; nd_inner : TreeHandle }.
Record Alternative := { al_index : nat; al_inner : TreeHandle }.

(** tree.rs:574-577 [NodeContent], read completely: [Leaf::kind] and [value] (501-507), [Branch::action]
    and [nodes] (547-562). *)
Inductive NodeContent (T AK V : Type) :=
| NLeaf (kind : T) (value : V)
| NBranch (action : AK) (nodes : list Node).
Arguments NLeaf {T AK V} kind value.
Arguments NBranch {T AK V} action nodes.

Section Handles.
  Context {T AK V : Type} `{Ord T} `{Ord AK} `{Ord V}.

  (** All the trees of a program; borrowing guarantees that the tree of a handle is still there. *)
  Definition world := list (Inner T AK V).

  (** tree.rs:253-259 [with]; 261-267 [with_mut], as lookup and replacement. *)
  Definition with_ (w : world) (h : TreeHandle) : outcome (Inner T AK V) := expect (nth_error w h) "dangling handle".
  Definition w_set (w : world) (h : TreeHandle) (t : Inner T AK V) : world := list_set w h t.

  (** A step on a world returns a result or panics, and leaves a world behind in both cases. *)
  Definition wres (A : Type) : Type := outcome A * world.
  Definition on (w : world) {A B} (x : outcome A) (k : A -> wres B) : wres B :=
    match x with Ret a => k a | Panic m => (Panic m, w) | NoFuel => (NoFuel, w) end.

  (** tree.rs:214-218 [TreeOwner::new] and 223-225 [handle]. *)
  Definition w_new_tree (w : world) : wres TreeHandle := (Ret (length w), w ++ [in_new]).

  (** tree.rs:276-284 [make_node]. *)
  Definition w_make_node (w : world) (h : TreeHandle) : wres Node :=
    on w (with_ w h) (fun t =>
      let '(index, t') := in_make_node t in (Ret {| nd_index := index; nd_inner := h |}, w_set w h t')).

  (** tree.rs:304-316 [make_alt]. *)
  Definition w_make_alt (w : world) (h : TreeHandle) (c : ContentInner T AK V) : wres Alternative :=
    on w (with_ w h) (fun t =>
      let '(index, t') := in_make_alt t c in (Ret {| al_index := index; al_inner := h |}, w_set w h t')).
  (** tree.rs:318-323 [make_leaf_alt]. *)
  Definition w_make_leaf_alt (w : world) (h : TreeHandle) (kind : T) (value : V) : wres Alternative :=
    w_make_alt w h (CLeaf kind value).
  (** tree.rs:325-345 [make_branch_alt]: the indexes are collected, asserting for each node that it is of
      this tree. *)
  Fixpoint collect_indexes (h : TreeHandle) (nodes : list Node) : outcome (list nat) :=
    match nodes with
    | [] => Ret []
    | n :: r =>
        _ <- assert_ (Nat.eqb (nd_inner n) h) "assertion failed: n.inner.with(is_same)" ;;
        is <- collect_indexes h r ;; Ret (nd_index n :: is)
    end.
  Definition w_make_branch_alt (w : world) (h : TreeHandle) (action : AK) (nodes : list Node) : wres Alternative :=
    on w (with_ w h) (fun _ =>
    on w (collect_indexes h nodes) (fun is => w_make_alt w h (CBranch action is))).

  (** tree.rs:347-351 [is_same]. *)
  Definition is_same (a b : TreeHandle) : bool := Nat.eqb a b.

  (** tree.rs:379-385 [add_alt]. *)
  Definition w_add_alt (w : world) (n : Node) (a : Alternative) : wres WasChanged :=
    on w (assert_ (is_same (nd_inner n) (al_inner a)) "assertion failed: self.inner.is_same(&alt.inner)") (fun _ =>
    on w (with_ w (nd_inner n)) (fun t =>
    on w (in_add_node_alt (nd_index n) (al_index a) t) (fun '(c, t') => (Ret c, w_set w (nd_inner n) t')))).

  (** tree.rs:387-399 [alts]. *)
  Definition w_alts (w : world) (n : Node) : outcome (list Alternative) :=
    t <- with_ w (nd_inner n) ;;
    is <- get_node t (nd_index n) ;;
    Ret (map (fun i => {| al_index := i; al_inner := nd_inner n |}) is).

  (** tree.rs:402-411 [add_all]. *)
  Definition w_add_all (w : world) (n other : Node) : wres WasChanged :=
    on w (assert_ (is_same (nd_inner n) (nd_inner other)) "assertion failed: self.inner.is_same(&other.inner)") (fun _ =>
    on w (with_ w (nd_inner n)) (fun t =>
    on w (in_add_all (nd_index n) (nd_index other) t) (fun '(c, t') => (Ret c, w_set w (nd_inner n) t')))).

  (** tree.rs:450-461 [content], with the accessors of its result. *)
  Definition w_content (w : world) (a : Alternative) : outcome (NodeContent T AK V) :=
    t <- with_ w (al_inner a) ;;
    c <- get_alt t (al_index a) ;;
    Ret (match c with
         | CLeaf k v => NLeaf k v
         | CBranch x is => NBranch x (map (fun i => {| nd_index := i; nd_inner := al_inner a |}) is)
         end).

  (** tree.rs:286-291 [make_leaf_node]; 293-302 [make_branch_node]. *)
  Definition wbind {A B} (x : wres A) (k : A -> world -> wres B) : wres B :=
    match x with (Ret a, w) => k a w | (Panic m, w) => (Panic m, w) | (NoFuel, w) => (NoFuel, w) end.
  Definition w_make_leaf_node (w : world) (h : TreeHandle) (kind : T) (value : V) : wres Node :=
    wbind (w_make_node w h) (fun node w1 =>
    wbind (w_make_leaf_alt w1 h kind value) (fun leaf_alt w2 =>
    wbind (w_add_alt w2 node leaf_alt) (fun _ w3 => (Ret node, w3)))).
  Definition w_make_branch_node (w : world) (h : TreeHandle) (action : AK) (nodes : list Node) : wres Node :=
    wbind (w_make_node w h) (fun node w1 =>
    wbind (w_make_branch_alt w1 h action nodes) (fun branch_alt w2 =>
    wbind (w_add_alt w2 node branch_alt) (fun _ w3 => (Ret node, w3)))).

  (** *** Histories of operations *)
  Inductive tr_op :=
  | TNewTree
  | TMakeNode (h : TreeHandle)
  | TMakeLeafAlt (h : TreeHandle) (kind : T) (value : V)
  | TMakeBranchAlt (h : TreeHandle) (action : AK) (nodes : list Node)
  | TMakeLeafNode (h : TreeHandle) (kind : T) (value : V)
  | TMakeBranchNode (h : TreeHandle) (action : AK) (nodes : list Node)
  | TAddAlt (n : Node) (a : Alternative)
  | TAddAll (n other : Node)
  | TAlts (n : Node)
  | TContent (a : Alternative).
  Inductive tr_val :=
  | RHandle (h : TreeHandle)
  | RNode (n : Node)
  | RAlt (a : Alternative)
  | RChanged (c : WasChanged)
  | RAlts (l : list Alternative)
  | RContent (c : NodeContent T AK V).

  Definition rmap {A} (f : A -> tr_val) (r : wres A) : wres tr_val :=
    match r with (Ret a, w) => (Ret (f a), w) | (Panic m, w) => (Panic m, w) | (NoFuel, w) => (NoFuel, w) end.
  Definition tr_step (w : world) (op : tr_op) : wres tr_val :=
    match op with
    | TNewTree => rmap RHandle (w_new_tree w)
    | TMakeNode h => rmap RNode (w_make_node w h)
    | TMakeLeafAlt h k v => rmap RAlt (w_make_leaf_alt w h k v)
    | TMakeBranchAlt h x ns => rmap RAlt (w_make_branch_alt w h x ns)
    | TMakeLeafNode h k v => rmap RNode (w_make_leaf_node w h k v)
    | TMakeBranchNode h x ns => rmap RNode (w_make_branch_node w h x ns)
    | TAddAlt n a => rmap RChanged (w_add_alt w n a)
    | TAddAll n m => rmap RChanged (w_add_all w n m)
    | TAlts n => rmap RAlts (w_alts w n, w)
    | TContent a => rmap RContent (w_content w a, w)
    end.
End Handles.
Arguments world T AK V : clear implicits.
Arguments tr_op T AK V : clear implicits.
Arguments tr_val T AK V : clear implicits.

(** ** Export to dot *)

(** tree.rs:579-583 [DotNode], derived order: nodes first. *)
Inductive DotNode := DNode (i : nat) | DAlt (i : nat).
#[export] Instance Ord_DotNode : Ord DotNode := fun a b =>
  match a, b with
  | DNode i, DNode j => cmp i j
  | DNode _, DAlt _ => Lt
  | DAlt _, DNode _ => Gt
  | DAlt i, DAlt j => cmp i j
  end.

Section Dot.
  Context {T AK V : Type}.

  (** tree.rs:602-621: what one item leads to. *)
  Definition dot_succ (t : Inner T AK V) (item : DotNode) : outcome (list DotNode) :=
    match item with
    | DNode node_id => is <- get_node t node_id ;; Ret (map DAlt is)
    | DAlt alt_id =>
        c <- get_alt t alt_id ;;
        Ret (match c with CBranch _ nodes => map DNode nodes | CLeaf _ _ => [] end)
    end.

  (** tree.rs:606-608, 615-617: [if seen.insert(x) { next.insert(x); }]. *)
  Definition dot_visit (items : list DotNode) (acc : btset DotNode * btset DotNode) : btset DotNode * btset DotNode :=
    fold_left (fun acc x =>
      let '(next, seen) := acc in
      let '(b, seen') := bs_insert x seen in
      if b then (bs_add x next, seen') else (next, seen')) items acc.
  (** tree.rs:601-622: the [for] loop. *)
  Fixpoint dot_round (t : Inner T AK V) (curr : list DotNode) (acc : btset DotNode * btset DotNode)
    : outcome (btset DotNode * btset DotNode) :=
    match curr with
    | [] => Ret acc
    | item :: r => items <- dot_succ t item ;; dot_round t r (dot_visit items acc)
    end.
  (** tree.rs:600-626: the [while] loop. *)
  Fixpoint dot_loop (t : Inner T AK V) (fuel : nat) (curr seen : btset DotNode) : outcome (btset DotNode) :=
    match fuel with
    | 0 => NoFuel
    | S fuel' =>
        match curr with
        | [] => Ret seen
        | _ => '(next, seen') <- dot_round t curr ([], seen) ;; dot_loop t fuel' next seen'
        end
    end.
  (** tree.rs:585-638 [collect_nodes_and_alts]. *)
  Definition collect_nodes_and_alts (t : Inner T AK V) (node : nat) (fuel : nat) : outcome (list nat * list nat) :=
    seen <- dot_loop t fuel (bs_add (DNode node) []) [] ;;
    Ret (flat_map (fun x => match x with DNode i => [i] | DAlt _ => [] end) seen,
         flat_map (fun x => match x with DAlt i => [i] | DNode _ => [] end) seen).

  (** tree.rs:674-682 [nodes]: the vertices handed to the renderer. *)
  Definition dot_nodes (nodes alts : list nat) : list DotNode := map DNode nodes ++ map DAlt alts.

  Fixpoint flat_map_o {A B} (f : A -> outcome (list B)) (l : list A) : outcome (list B) :=
    match l with
    | [] => Ret []
    | a :: r => x <- f a ;; y <- flat_map_o f r ;; Ret (x ++ y)
    end.
  (** tree.rs:684-712 [edges]. *)
  Definition dot_edges (t : Inner T AK V) (nodes alts : list nat) : outcome (list (DotNode * DotNode)) :=
    flat_map_o (fun x => ys <- dot_succ t x ;; Ret (map (fun y => (x, y)) ys)) (dot_nodes nodes alts).

  (** The graph [to_dot] (tree.rs:420-424) renders; identifiers and labels are modelled in Model/DotText.v. *)
  Definition to_dot (t : Inner T AK V) (node : nat) (fuel : nat)
    : outcome (list DotNode * list (DotNode * DotNode)) :=
    '(nodes, alts) <- collect_nodes_and_alts t node fuel ;;
    edges <- dot_edges t nodes alts ;;
    Ret (dot_nodes nodes alts, edges).
End Dot.
