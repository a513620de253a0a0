(** Two forests that are the same up to the numbers of nodes and alternatives. *)
From Coq Require Import List.
From Verif.Model Require Import Ord BTree Outcome Tree.
Import ListNotations.

Section Same.
  Context {T AK V : Type}.
  Local Notation tree := (Inner T AK V).

  (** The same content, nodes matched by [R]. *)
  Inductive same_content (R : nat -> nat -> Prop) : ContentInner T AK V -> ContentInner T AK V -> Prop :=
  | same_leaf k v : same_content R (CLeaf k v) (CLeaf k v)
  | same_branch x ns ns' : Forall2 R ns ns' -> same_content R (CBranch x ns) (CBranch x ns').

  (** Every alternative of the one node is, up to [R], an alternative of the other. *)
  Definition alts_in (R : nat -> nat -> Prop) (t : tree) (s : btset nat) (t' : tree) (s' : btset nat) : Prop :=
    forall a, In a s -> exists a' c c', In a' s' /\ get_alt t a = Ret c /\ get_alt t' a' = Ret c' /\ same_content R c c'.

  (** [R] matches nodes one to one, and matched nodes have matching alternatives. *)
  Record same_forest (R : nat -> nat -> Prop) (t t' : tree) : Prop := {
    sf_fun : forall n m m', R n m -> R n m' -> m = m';
    sf_inj : forall n n' m, R n m -> R n' m -> n = n';
    sf_alts : forall n n', R n n' -> exists s s', get_node t n = Ret s /\ get_node t' n' = Ret s' /\
      alts_in R t s t' s' /\ alts_in (fun x y => R y x) t' s' t s
  }.
End Same.
