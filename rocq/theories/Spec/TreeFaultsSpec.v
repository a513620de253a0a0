(** Histories of tree calls during which the caller's own code may panic (and the caller catches it). *)
From Coq Require Import String List.
From Verif.Model Require Import Ord BTree Outcome Utils Tree TreeFaults.
From Verif.Spec Require Import TreeSpec.
Import ListNotations.

Section TreeFaultsSpec.
  Context {T AK V : Type} `{Ord T} `{Ord AK} `{Ord V}.
  Local Notation op := (tr_op T AK V).
  Local Notation hist := (history T AK V).
  Local Notation pwld := (pworld T AK V).

  (** [frun tr pw]: the program has made the calls [tr] (the latest first), with any panics of its own code in
      them, and the trees are now [pw]. *)
  Inductive frun : hist -> pwld -> Prop :=
  | frun_nil : frun [] []
  | frun_step tr pw f o r pw' : frun tr pw -> can_call tr o -> f_step f pw o = (r, pw') -> frun ((o, r) :: tr) pw'.

  (** The tree has not been poisoned; its value. *)
  Definition healthy (pw : pwld) (h : TreeHandle) (t : Inner T AK V) : Prop :=
    nth_error pw h = Some {| pt_tree := t; pt_poisoned := false |}.
  Definition dead (pw : pwld) (h : TreeHandle) : Prop :=
    exists t, nth_error pw h = Some {| pt_tree := t; pt_poisoned := true |}.

  (** The trees a call is about. *)
  Definition about (o : op) (h : TreeHandle) : Prop :=
    match o with
    | TNewTree => False
    | TMakeNode g | TMakeLeafAlt g _ _ | TMakeLeafNode g _ _ => h = g
    | TMakeBranchAlt g _ ns | TMakeBranchNode g _ ns => h = g \/ exists n, In n ns /\ h = nd_inner n
    | TAddAlt n a => h = nd_inner n \/ h = al_inner a
    | TAddAll n m => h = nd_inner n \/ h = nd_inner m
    | TAlts n => h = nd_inner n
    | TContent a => h = al_inner a
    end.

  (** [without_panics tr tr0]: [tr0] is [tr] with every call that panicked left out; of a [make_branch_node]
      that panicked the creation of its node, which nobody gets to see, may be left. *)
  Inductive without_panics : hist -> hist -> Prop :=
  | wp_nil : without_panics [] []
  | wp_keep o v tr tr0 : without_panics tr tr0 -> without_panics ((o, Ret v) :: tr) ((o, Ret v) :: tr0)
  | wp_cut o m tr tr0 : without_panics tr tr0 -> without_panics ((o, Panic m) :: tr) tr0
  | wp_node h x ns m n tr tr0 : without_panics tr tr0 ->
      without_panics ((TMakeBranchNode h x ns, Panic m) :: tr) ((TMakeNode h, Ret (RNode n)) :: tr0).
End TreeFaultsSpec.
