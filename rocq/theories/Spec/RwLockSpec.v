(** Executions of several threads, what it means that they finish, and what it means that the calls of an
    execution behave like operations performed one after the other. *)
From Coq Require Import List.
From Verif.Model Require Import Ord BTree Outcome Utils Tree RwLock.
From Verif.Spec Require Import TreeSpec.
Import ListNotations.

Section RwLockSpec.
  Context {T AK V : Type} `{Ord T} `{Ord AK} `{Ord V}.
  Local Notation op := (tr_op T AK V).
  Local Notation val := (tr_val T AK V).
  Local Notation cfg := (config T AK V).

  (** What calls have returned so far (handles can be passed between threads). *)
  Definition returned (tr : list (call_event T AK V)) : history T AK V :=
    flat_map (fun e => match e with ERet _ o r => [(o, r)] | ECall _ _ => [] end) tr.

  (** A step inside the calls under way: of a program, or its return. *)
  Inductive inside (writer_pref : bool) : cfg -> cfg -> Prop :=
  | in_run i c c' : thread_step writer_pref i c = Some c' -> inside writer_pref c c'
  | in_ret i o r c : c_thread c i = Running o (Done r) ->
      inside writer_pref c
        {| c_world := c_world c; c_lock := c_lock c; c_thread := upd (c_thread c) i Idle;
           c_trace := ERet i o r :: c_trace c |}.

  (** Any step.  A thread between two calls can call any operation with handles that some call has
      returned; [allowed] restricts the calls considered. *)
  Inductive step (writer_pref : bool) (allowed : nat -> op -> Prop) : cfg -> cfg -> Prop :=
  | st_call i o c : c_thread c i = Idle -> can_call (returned (c_trace c)) o -> allowed i o ->
      step writer_pref allowed c
        {| c_world := c_world c; c_lock := c_lock c; c_thread := upd (c_thread c) i (Running o (op_prog o));
           c_trace := ECall i o :: c_trace c |}
  | st_inside c c' : inside writer_pref c c' -> step writer_pref allowed c c'.

  Inductive steps (writer_pref : bool) (allowed : nat -> op -> Prop) (c : cfg) : cfg -> Prop :=
  | steps_refl : steps writer_pref allowed c c
  | steps_step c1 c2 : steps writer_pref allowed c c1 -> step writer_pref allowed c1 c2 -> steps writer_pref allowed c c2.

  (** The configurations of the executions of all programs that make the allowed calls. *)
  Definition reachable (writer_pref : bool) (allowed : nat -> op -> Prop) (c : cfg) : Prop :=
    steps writer_pref allowed c_init c.
  Definition any_call : nat -> op -> Prop := fun _ _ => True.

  (** Thread [i] is in a call and will stay at the same place whatever happens. *)
  Definition stuck_forever (writer_pref : bool) (c : cfg) (i : nat) : Prop :=
    c_thread c i <> Idle /\
    forall c', steps writer_pref any_call c c' -> c_thread c' i = c_thread c i.

  (** When no further calls are made, every schedule of the calls under way comes to an end, and at the end
      all calls have returned. *)
  Inductive finishes (writer_pref : bool) (c : cfg) : Prop :=
  | finish : (forall c', inside writer_pref c c' -> finishes writer_pref c') ->
             ((forall c', ~ inside writer_pref c c') -> forall i, c_thread c i = Idle) ->
             finishes writer_pref c.

  (** The operations that take a read lock while holding one. *)
  Definition nests (o : op) : Prop :=
    match o with
    | TMakeBranchAlt _ _ _ | TMakeLeafNode _ _ _ | TMakeBranchNode _ _ _ | TAddAlt _ _ | TAddAll _ _ => True
    | _ => False
    end.

  (** Two threads in each other's way: one is in an operation that nests, holds a read lock, and waits to
      read again, behind another that waits to write. *)
  Definition trap (writer_pref : bool) (c : cfg) : Prop :=
    writer_pref = true /\
    exists i j h h' oi oj ki kj, i <> j /\
      c_thread c i = Running oi (RLock h' ki) /\ nests oi /\ In i (readers (c_lock c h)) /\
      c_thread c j = Running oj (WLock h' kj) /\ In j (waiting (c_lock c h')).

  (** The trees an operation is given, and those it changes. *)
  Definition given (o : op) : list TreeHandle :=
    match o with
    | TNewTree => []
    | TMakeNode h | TMakeLeafAlt h _ _ | TMakeLeafNode h _ _ => [h]
    | TMakeBranchAlt h _ ns | TMakeBranchNode h _ ns => h :: map nd_inner ns
    | TAddAlt n a => [nd_inner n; al_inner a]
    | TAddAll n m => [nd_inner n; nd_inner m]
    | TAlts n => [nd_inner n]
    | TContent a => [al_inner a]
    end.
  Definition changed (o : op) : list TreeHandle :=
    match o with
    | TNewTree | TAlts _ | TContent _ => []
    | TMakeNode h | TMakeLeafAlt h _ _ | TMakeLeafNode h _ _ | TMakeBranchAlt h _ _ | TMakeBranchNode h _ _ => [h]
    | TAddAlt n _ | TAddAll n _ => [nd_inner n]
    end.

  (** The sequential operations an operation stands for.  [make_leaf_node] and [make_branch_node] are
      three operations, between which other threads' operations can take place. *)
  Inductive parts : op -> outcome val -> list (op * outcome val) -> Prop :=
  | parts_one o r : (forall h k v, o <> TMakeLeafNode h k v) -> (forall h x ns, o <> TMakeBranchNode h x ns) ->
      parts o r [(o, r)]
  | parts_leaf h k v n a c :
      parts (TMakeLeafNode h k v) (Ret (RNode n))
        [(TMakeNode h, Ret (RNode n)); (TMakeLeafAlt h k v, Ret (RAlt a)); (TAddAlt n a, Ret (RChanged c))]
  | parts_branch h x ns n a c :
      parts (TMakeBranchNode h x ns) (Ret (RNode n))
        [(TMakeNode h, Ret (RNode n)); (TMakeBranchAlt h x ns, Ret (RAlt a)); (TAddAlt n a, Ret (RChanged c))]
  | parts_branch_panic h x ns n m :
      parts (TMakeBranchNode h x ns) (Panic m)
        [(TMakeNode h, Ret (RNode n)); (TMakeBranchAlt h x ns, Panic m)].

  (** An execution with, for each sequential operation, the moment at which it takes effect. *)
  Inductive lin_event :=
  | LCall (i : nat) (o : op)
  | LEffect (i : nat) (o : op) (r : outcome val)
  | LRet (i : nat) (o : op) (r : outcome val).
  Definition erase (l : list lin_event) : list (call_event T AK V) :=
    flat_map (fun e => match e with LCall i o => [ECall i o] | LRet i o r => [ERet i o r] | LEffect _ _ _ => [] end) l.
  (** The sequential operations, in the order in which they take effect, latest first. *)
  Definition effects (l : list lin_event) : history T AK V :=
    flat_map (fun e => match e with LEffect _ o r => [(o, r)] | _ => [] end) l.

  (** [lin l st]: in [l] (latest first) effects take place between the call and the return of the operation
      they belong to, in the thread of the call, are at every moment the first parts of the operation, and at the
      return all of them.  [st]: for each thread the operation it is in with its effects so far, latest first. *)
  Inductive lin : list lin_event -> (nat -> option (op * history T AK V)) -> Prop :=
  | lin_nil : lin [] (fun _ => None)
  | lin_call l st i o : lin l st -> st i = None -> lin (LCall i o :: l) (upd st i (Some (o, [])))
  | lin_effect l st i o d o' r' : lin l st -> st i = Some (o, d) ->
      (exists r more, parts o r (rev d ++ (o', r') :: more)) ->
      lin (LEffect i o' r' :: l) (upd st i (Some (o, (o', r') :: d)))
  | lin_ret l st i o d r : lin l st -> st i = Some (o, d) -> parts o r (rev d) ->
      lin (LRet i o r :: l) (upd st i None).
End RwLockSpec.
Arguments lin_event T AK V : clear implicits.
