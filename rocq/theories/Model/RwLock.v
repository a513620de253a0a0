(** src/parsers/tree.rs: the tree operations as programs that take and release the read/write lock of the
    tree ([RwLock<Inner>], tree.rs:191), and threads running them.

    Simplifications: a write section changes the tree in one step (nobody else can look at it meanwhile); a
    node's or alternative's tree is its number, as in Model/Tree.v; [to_dot], which takes the read lock
    once per read, is a caller of [alts] and [content] (Model/DotReads.v, C105). *)
From Coq Require Import String List Arith Bool.
From Verif.Model Require Import Ord BTree Outcome Utils Tree.
Import ListNotations.
Local Open Scope string_scope.

Section RwLock.
  Context {T AK V : Type} `{Ord T} `{Ord AK} `{Ord V}.
  Local Notation tree := (Inner T AK V).

  (** A program: the lock and memory operations it makes, and its result.  [RLock]/[WLock] are
      [RwLock::read]/[write]; they tell whether the lock is poisoned.  [RUnlock]/[WUnlock] drop the guard;
      a write guard dropped while panicking poisons the lock.  [Get]/[Put] access the tree through a
      guard.  [New] allocates a tree with its lock. *)
  Inductive prog (A : Type) : Type :=
  | Done (r : outcome A)
  | New (k : TreeHandle -> prog A)
  | RLock (h : TreeHandle) (k : bool -> prog A)
  | RUnlock (h : TreeHandle) (k : prog A)
  | WLock (h : TreeHandle) (k : bool -> prog A)
  | WUnlock (h : TreeHandle) (panicking : bool) (k : prog A)
  | Get (h : TreeHandle) (k : tree -> prog A)
  | Put (h : TreeHandle) (t : tree) (k : prog A).
  #[global] Arguments Done {A} r.
  #[global] Arguments New {A} k.
  #[global] Arguments RLock {A} h k.
  #[global] Arguments RUnlock {A} h k.
  #[global] Arguments WLock {A} h k.
  #[global] Arguments WUnlock {A} h panicking k.
  #[global] Arguments Get {A} h k.
  #[global] Arguments Put {A} h t k.

  (** Continue with the result of a program, a panic included (what unwinding sees). *)
  Fixpoint pfinally {A B} (p : prog A) (f : outcome A -> prog B) : prog B :=
    match p with
    | Done r => f r
    | New k => New (fun h => pfinally (k h) f)
    | RLock h k => RLock h (fun b => pfinally (k b) f)
    | RUnlock h k => RUnlock h (pfinally k f)
    | WLock h k => WLock h (fun b => pfinally (k b) f)
    | WUnlock h b k => WUnlock h b (pfinally k f)
    | Get h k => Get h (fun t => pfinally (k t) f)
    | Put h t k => Put h t (pfinally k f)
    end.
  (** Sequence: a panic ends the program. *)
  Definition pbind {A B} (p : prog A) (f : A -> prog B) : prog B :=
    pfinally p (fun r => match r with Ret a => f a | Panic m => Done (Panic m) | NoFuel => Done NoFuel end).

  (** tree.rs:253-259 [with]: the guard lives until [func] returns or panics.
      [unwrap] of a [PoisonError] drops the guard inside it while panicking. *)
  Definition p_with {A} (h : TreeHandle) (func : tree -> prog A) : prog A :=
    RLock h (fun poisoned =>
      if poisoned then RUnlock h (Done (Panic "called `Result::unwrap()` on an `Err` value: PoisonError { .. }"))
      else Get h (fun t => pfinally (func t) (fun r => RUnlock h (Done r)))).

  (** tree.rs:261-267 [with_mut]; the closures passed to it take no locks. *)
  Definition p_with_mut {A} (h : TreeHandle) (func : tree -> outcome (A * tree)) : prog A :=
    WLock h (fun poisoned =>
      if poisoned then WUnlock h true (Done (Panic "called `Result::unwrap()` on an `Err` value: PoisonError { .. }"))
      else Get h (fun t =>
        match func t with
        | Ret (a, t') => Put h t' (WUnlock h false (Done (Ret a)))
        | Panic m => WUnlock h true (Done (Panic m))
        | NoFuel => WUnlock h true (Done NoFuel)
        end)).

  (** tree.rs:214-225 [TreeOwner::new], [handle]. *)
  Definition p_new_tree : prog TreeHandle := New (fun h => Done (Ret h)).

  (** tree.rs:276-284 [make_node]. *)
  Definition p_make_node (h : TreeHandle) : prog Node :=
    p_with_mut h (fun t => let '(index, t') := in_make_node t in Ret ({| nd_index := index; nd_inner := h |}, t')).

  (** tree.rs:304-316 [make_alt]; 318-323 [make_leaf_alt]. *)
  Definition p_make_alt (h : TreeHandle) (c : ContentInner T AK V) : prog Alternative :=
    p_with_mut h (fun t => let '(index, t') := in_make_alt t c in Ret ({| al_index := index; al_inner := h |}, t')).
  Definition p_make_leaf_alt (h : TreeHandle) (kind : T) (value : V) : prog Alternative :=
    p_make_alt h (CLeaf kind value).

  (** tree.rs:331-339: the iterator chain of [make_branch_alt], run inside [self.with].  The items are
      programs: computing the next item of an iterator can itself use the tree. *)
  Fixpoint p_collect (h : TreeHandle) (nodes : list (prog Node)) : prog (list nat) :=
    match nodes with
    | [] => Done (Ret [])
    | item :: r =>
        pbind item (fun n =>
        pbind (p_with (nd_inner n) (fun _ => Done (Ret (Nat.eqb h (nd_inner n))))) (fun same =>
        pbind (Done (assert_ same "assertion failed: n.inner.with(is_same)")) (fun _ =>
        pbind (p_collect h r) (fun is => Done (Ret (nd_index n :: is))))))
    end.
  (** tree.rs:325-345 [make_branch_alt]. *)
  Definition p_make_branch_alt_iter (h : TreeHandle) (action : AK) (nodes : list (prog Node)) : prog Alternative :=
    pbind (p_with h (fun _ => p_collect h nodes)) (fun is => p_make_alt h (CBranch action is)).
  (** With an iterator over existing nodes. *)
  Definition p_make_branch_alt (h : TreeHandle) (action : AK) (nodes : list Node) : prog Alternative :=
    p_make_branch_alt_iter h action (map (fun n => Done (Ret n)) nodes).

  (** tree.rs:347-351 [is_same]. *)
  Definition p_is_same (a b : TreeHandle) : prog bool :=
    p_with a (fun _ => p_with b (fun _ => Done (Ret (is_same a b)))).

  (** tree.rs:379-385 [add_alt]. *)
  Definition p_add_alt (n : Node) (a : Alternative) : prog WasChanged :=
    pbind (p_is_same (nd_inner n) (al_inner a)) (fun same =>
    pbind (Done (assert_ same "assertion failed: self.inner.is_same(&alt.inner)")) (fun _ =>
    p_with_mut (nd_inner n) (in_add_node_alt (nd_index n) (al_index a)))).

  (** tree.rs:387-399 [alts]. *)
  Definition p_alts (n : Node) : prog (list Alternative) :=
    pbind (p_with (nd_inner n) (fun t => Done (get_node t (nd_index n)))) (fun is =>
    Done (Ret (map (fun i => {| al_index := i; al_inner := nd_inner n |}) is))).

  (** tree.rs:402-411 [add_all]. *)
  Definition p_add_all (n other : Node) : prog WasChanged :=
    pbind (p_is_same (nd_inner n) (nd_inner other)) (fun same =>
    pbind (Done (assert_ same "assertion failed: self.inner.is_same(&other.inner)")) (fun _ =>
    p_with_mut (nd_inner n) (in_add_all (nd_index n) (nd_index other)))).

  (** tree.rs:486-498 [with_leaf]; 501-507 [kind], [value]. *)
  Definition p_with_leaf {A} (a : Alternative) (func : T -> V -> A) : prog A :=
    p_with (al_inner a) (fun t => Done (
      c <- get_alt t (al_index a) ;;
      match c with CLeaf k v => Ret (func k v) | CBranch _ _ => Panic "Found branch where leaf expected." end)).
  (** tree.rs:532-544 [with_branch]; 547-549 [action]; 551-562 [nodes]. *)
  Definition p_with_branch {A} (a : Alternative) (func : AK -> list nat -> A) : prog A :=
    p_with (al_inner a) (fun t => Done (
      c <- get_alt t (al_index a) ;;
      match c with CBranch x is => Ret (func x is) | CLeaf _ _ => Panic "Found leaf where branch expected." end)).
  (** tree.rs:450-461 [content], followed by the accessors of its result, each with its own lock. *)
  Definition p_content (a : Alternative) : prog (NodeContent T AK V) :=
    pbind (p_with (al_inner a) (fun t => Done (
      c <- get_alt t (al_index a) ;; Ret (match c with CLeaf _ _ => true | CBranch _ _ => false end)))) (fun leaf =>
    if leaf then
      pbind (p_with_leaf a (fun k _ => k)) (fun k =>
      pbind (p_with_leaf a (fun _ v => v)) (fun v => Done (Ret (NLeaf k v))))
    else
      pbind (p_with_branch a (fun x _ => x)) (fun x =>
      pbind (p_with_branch a (fun _ is => is)) (fun is =>
      Done (Ret (NBranch x (map (fun i => {| nd_index := i; nd_inner := al_inner a |}) is)))))).

  (** tree.rs:286-291 [make_leaf_node]; 293-302 [make_branch_node]. *)
  Definition p_make_leaf_node (h : TreeHandle) (kind : T) (value : V) : prog Node :=
    pbind (p_make_node h) (fun node =>
    pbind (p_make_leaf_alt h kind value) (fun leaf_alt =>
    pbind (p_add_alt node leaf_alt) (fun _ => Done (Ret node)))).
  Definition p_make_branch_node (h : TreeHandle) (action : AK) (nodes : list Node) : prog Node :=
    pbind (p_make_node h) (fun node =>
    pbind (p_make_branch_alt h action nodes) (fun branch_alt =>
    pbind (p_add_alt node branch_alt) (fun _ => Done (Ret node)))).

  Local Notation op := (tr_op T AK V).
  Local Notation val := (tr_val T AK V).

  Definition pmap {A B} (f : A -> B) (p : prog A) : prog B := pbind p (fun a => Done (Ret (f a))).
  (** The program of each operation of the API. *)
  Definition op_prog (o : op) : prog val :=
    match o with
    | TNewTree => pmap RHandle p_new_tree
    | TMakeNode h => pmap RNode (p_make_node h)
    | TMakeLeafAlt h k v => pmap RAlt (p_make_leaf_alt h k v)
    | TMakeBranchAlt h x ns => pmap RAlt (p_make_branch_alt h x ns)
    | TMakeLeafNode h k v => pmap RNode (p_make_leaf_node h k v)
    | TMakeBranchNode h x ns => pmap RNode (p_make_branch_node h x ns)
    | TAddAlt n a => pmap RChanged (p_add_alt n a)
    | TAddAll n m => pmap RChanged (p_add_all n m)
    | TAlts n => pmap RAlts (p_alts n)
    | TContent a => pmap RContent (p_content a)
    end.

  (** ** Threads and locks *)

  (** std::sync::RwLock: who holds read guards (once per guard), who holds the write guard, which threads
      wait for it, and whether it is poisoned. *)
  Record lock := { readers : list nat; writer : option nat; waiting : list nat; poisoned : bool }.
  Definition lock_new : lock := {| readers := []; writer := None; waiting := []; poisoned := false |}.

  (** A thread is between two calls, or somewhere in the program of a call. *)
  Inductive tstate := Idle | Running (o : op) (p : prog val).
  Inductive call_event := ECall (i : nat) (o : op) | ERet (i : nat) (o : op) (r : outcome val).

  (** The trees, their locks, the threads, and the calls and returns so far, the latest first. *)
  Record config := {
    c_world : world T AK V;
    c_lock : nat -> lock;
    c_thread : nat -> tstate;
    c_trace : list call_event
  }.
  Definition upd {A} (f : nat -> A) (i : nat) (x : A) : nat -> A := fun j => if Nat.eqb j i then x else f j.

  (** One guard of thread [i] less. *)
  Fixpoint drop_one (i : nat) (l : list nat) : list nat :=
    match l with
    | [] => []
    | j :: r => if Nat.eqb j i then r else j :: drop_one i r
    end.
  Definition with_readers (l : lock) (rs : list nat) : lock :=
    {| readers := rs; writer := writer l; waiting := waiting l; poisoned := poisoned l |}.

  (** The order in which waiting threads get the lock depends on the operating system (std::sync::RwLock,
      "Priority policy").  With [writer_pref] a reader has to wait when a writer is waiting (this is what
      the futex implementation of Linux does); without, only when a writer holds the lock. *)
  Definition may_read (writer_pref : bool) (l : lock) : bool :=
    match writer l with
    | Some _ => false
    | None => negb writer_pref || match waiting l with [] => true | _ => false end
    end.
  Definition may_write (l : lock) : bool :=
    match writer l, readers l with None, [] => true | _, _ => false end.

  (** The step of thread [i] inside a call; [None] when it has to wait or has finished. *)
  Definition thread_step (writer_pref : bool) (i : nat) (c : config) : option config :=
    match c_thread c i with
    | Idle => None
    | Running o p =>
        let goto p' w ls :=
          Some {| c_world := w; c_lock := ls; c_thread := upd (c_thread c) i (Running o p'); c_trace := c_trace c |} in
        match p with
        | Done _ => None
        | New k => goto (k (length (c_world c))) (c_world c ++ [in_new])%list (c_lock c)
        | RLock h k =>
            let l := c_lock c h in
            if may_read writer_pref l then
              goto (k (poisoned l)) (c_world c) (upd (c_lock c) h (with_readers l (i :: readers l)))
            else None
        | RUnlock h k =>
            let l := c_lock c h in
            goto k (c_world c) (upd (c_lock c) h (with_readers l (drop_one i (readers l))))
        | WLock h k =>
            let l := c_lock c h in
            if may_write l then
              goto (k (poisoned l)) (c_world c)
                (upd (c_lock c) h {| readers := []; writer := Some i; waiting := drop_one i (waiting l); poisoned := poisoned l |})
            else if existsb (Nat.eqb i) (waiting l) then None
            else
              goto p (c_world c)
                (upd (c_lock c) h {| readers := readers l; writer := writer l; waiting := i :: waiting l; poisoned := poisoned l |})
        | WUnlock h panicking k =>
            let l := c_lock c h in
            goto k (c_world c)
              (upd (c_lock c) h {| readers := readers l; writer := None; waiting := waiting l; poisoned := poisoned l || panicking |})
        | Get h k =>
            match nth_error (c_world c) h with
            | Some t => goto (k t) (c_world c) (c_lock c)
            | None => None
            end
        | Put h t k => goto k (w_set (c_world c) h t) (c_lock c)
        end
    end.

  (** The beginning of a program: no trees, no calls. *)
  Definition c_init : config :=
    {| c_world := []; c_lock := fun _ => lock_new; c_thread := fun _ => Idle; c_trace := [] |}.
End RwLock.
Arguments prog T AK V A : clear implicits.
Arguments tstate T AK V : clear implicits.
Arguments call_event T AK V : clear implicits.
Arguments config T AK V : clear implicits.
