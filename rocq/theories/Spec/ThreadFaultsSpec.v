(** Executions of several threads during which the caller's own code may panic inside tree calls (the threads
    catching it), and what it means that the calls behave as if performed one after the other. *)
From Coq Require Import List.
From Verif.Model Require Import Ord BTree Outcome Utils Tree RwLock ThreadFaults.
From Verif.Model Require Import TreeFaults.
From Verif.Spec Require Import TreeSpec TreeFaultsSpec RwLockSpec.
Import ListNotations.

Section ThreadFaultsSpec.
  Context {T AK V : Type} `{Ord T} `{Ord AK} `{Ord V}.
  Local Notation op := (tr_op T AK V).
  Local Notation val := (tr_val T AK V).
  Local Notation cfg := (config T AK V).
  Local Notation hist := (history T AK V).

  (** [F] says which panics of the caller's code are considered. *)
  Variable F : fault -> Prop.

  (** A thread between two calls can call any operation with handles that some call has returned, and its code may
      panic in it anywhere; a call under way goes on or returns. *)
  Inductive fault_step (writer_pref : bool) : cfg -> cfg -> Prop :=
  | fs_call i f o c : c_thread c i = Idle -> can_call (returned (c_trace c)) o -> F f ->
      fault_step writer_pref c
        {| c_world := c_world c; c_lock := c_lock c; c_thread := RwLock.upd (c_thread c) i (Running o (fop_prog f o));
           c_trace := ECall i o :: c_trace c |}
  | fs_inside c c' : inside writer_pref c c' -> fault_step writer_pref c c'.
  Inductive fault_steps (writer_pref : bool) (c : cfg) : cfg -> Prop :=
  | fs_refl : fault_steps writer_pref c c
  | fs_step c1 c2 : fault_steps writer_pref c c1 -> fault_step writer_pref c1 c2 -> fault_steps writer_pref c c2.
  Definition fault_reachable (writer_pref : bool) (c : cfg) : Prop := fault_steps writer_pref c_init c.

  (** Calls one after the other, as [frun], with the panics considered. *)
  Inductive frun_of : hist -> pworld T AK V -> Prop :=
  | fo_nil : frun_of [] []
  | fo_step tr pw f o r pw' : frun_of tr pw -> can_call tr o -> F f -> f_step f pw o = (r, pw') -> frun_of ((o, r) :: tr) pw'.

  (** The call that makes the alternative of [make_leaf_node] and [make_branch_node]. *)
  Inductive alt_call : op -> TreeHandle -> op -> Prop :=
  | ac_leaf h k v : alt_call (TMakeLeafNode h k v) h (TMakeLeafAlt h k v)
  | ac_branch h x ns : alt_call (TMakeBranchNode h x ns) h (TMakeBranchAlt h x ns).
  (** The sequential calls a call stands for.  [make_leaf_node] and [make_branch_node] are three calls, ended by a
      panic; reading a content may find the tree good first and then panic. *)
  Inductive fparts : op -> outcome val -> list (op * outcome val) -> Prop :=
  | fp_one o r : (forall h ao, ~ alt_call o h ao) -> fparts o r [(o, r)]
  | fp_reread a c m : fparts (TContent a) (Panic m) [(TContent a, Ret (RContent c)); (TContent a, Panic m)]
  | fp_node o h ao n a c : alt_call o h ao ->
      fparts o (Ret (RNode n)) [(TMakeNode h, Ret (RNode n)); (ao, Ret (RAlt a)); (TAddAlt n a, Ret (RChanged c))]
  | fp_panic1 o h ao m : alt_call o h ao -> fparts o (Panic m) [(TMakeNode h, Panic m)]
  | fp_panic2 o h ao n m : alt_call o h ao -> fparts o (Panic m) [(TMakeNode h, Ret (RNode n)); (ao, Panic m)]
  | fp_panic3 o h ao n a m : alt_call o h ao ->
      fparts o (Panic m) [(TMakeNode h, Ret (RNode n)); (ao, Ret (RAlt a)); (TAddAlt n a, Panic m)].

  (** As [lin] of Spec/RwLockSpec.v: effects take place between the call and the return of the call they belong to. *)
  Inductive flin : list (lin_event T AK V) -> (nat -> option (op * hist)) -> Prop :=
  | fl_nil : flin [] (fun _ => None)
  | fl_call l st i o : flin l st -> st i = None -> flin (LCall i o :: l) (RwLock.upd st i (Some (o, [])))
  | fl_effect l st i o d o' r' : flin l st -> st i = Some (o, d) ->
      (exists r more, fparts o r (rev d ++ (o', r') :: more)) ->
      flin (LEffect i o' r' :: l) (RwLock.upd st i (Some (o, (o', r') :: d)))
  | fl_ret l st i o d r : flin l st -> st i = Some (o, d) -> fparts o r (rev d) ->
      flin (LRet i o r :: l) (RwLock.upd st i None).

  (** What is in memory: a tree whose lock nobody holds for writing is as [pw] says, poisoned or not. *)
  Definition in_memory_as (c : cfg) (pw : pworld T AK V) : Prop :=
    length pw = length (c_world c) /\
    forall h t, writer (c_lock c h) = None -> nth_error (c_world c) h = Some t ->
      nth_error pw h = Some {| pt_tree := t; pt_poisoned := poisoned (c_lock c h) |}.

  (** No thread can take a step. *)
  Definition stopped (writer_pref : bool) (c : cfg) : Prop := forall c', ~ inside writer_pref c c'.
  (** A thread that holds a read lock waits to read again, behind another that waits to write. *)
  Definition waiting_again (writer_pref : bool) (c : cfg) : Prop :=
    writer_pref = true /\ exists i j h h' oi oj ki kj, i <> j /\
      c_thread c i = Running oi (RLock h' ki) /\ In i (readers (c_lock c h)) /\
      c_thread c j = Running oj (WLock h' kj) /\ In j (waiting (c_lock c h')).
  (** The calls that store a content in a tree. *)
  Definition stores_in (o : op) (h : TreeHandle) : Prop :=
    (exists k v, o = TMakeLeafAlt h k v \/ o = TMakeLeafNode h k v) \/
    (exists x ns, o = TMakeBranchAlt h x ns \/ o = TMakeBranchNode h x ns).
End ThreadFaultsSpec.
