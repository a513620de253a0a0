(** Reading a forest alternative by alternative: which alternatives a tree uses, and how many trees there are. *)
From Coq Require Import List Arith.
From Verif.Model Require Import Ord Outcome Tokens Tree.
From Verif.Spec Require Import Reach TreeSpec EarleySpec SizeSpec.
Import ListNotations.

Section Ambig.
  Context {T AK V : Type} (t : Inner T AK V).

  (** [tr] can be read off the alternative [a]. *)
  Inductive reads_alt (a : nat) : ptree T AK V -> Prop :=
  | reads_alt_leaf k v : get_alt t a = Ret (CLeaf k v) -> reads_alt a (PLeaf k v)
  | reads_alt_branch x ns cs : get_alt t a = Ret (CBranch x ns) -> reads_all t ns cs -> reads_alt a (PBranch x cs).

  (** [tr] can be read off [n] with the node [n0] read by its alternative [a0] at some place. *)
  Inductive reads_via (n0 a0 : nat) : nat -> ptree T AK V -> Prop :=
  | via_here s tr : get_node t n0 = Ret s -> In a0 s -> reads_alt a0 tr -> reads_via n0 a0 n0 tr
  | via_below n s a x ns1 n' ns2 cs1 c cs2 : get_node t n = Ret s -> In a s ->
      get_alt t a = Ret (CBranch x (ns1 ++ n' :: ns2)) ->
      reads_all t ns1 cs1 -> reads_via n0 a0 n' c -> reads_all t ns2 cs2 ->
      reads_via n0 a0 n (PBranch x (cs1 ++ c :: cs2)).

  (** No node of the forest below [m] has two alternatives. *)
  Definition no_choice (m : nat) : Prop := forall n s, forest_node t m n -> get_node t n = Ret s -> length s <= 1.
  (** A node below [m] occurs strictly below itself. *)
  Definition cyclic (m : nat) : Prop := exists n, forest_node t m n /\ plus (child t) n n.
End Ambig.

(** Finitely many trees have the property. *)
Definition finitely_many {A} (R : A -> Prop) : Prop := exists l, forall x, R x -> In x l.
