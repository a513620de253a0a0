(** What a forest contains at one moment, for the export of a forest that is being changed. *)
From Coq Require Import String List.
From Verif.Model Require Import Ord Outcome Tree DotText EarleyShared.
Import ListNotations.
Local Open Scope string_scope.

Section Moment.
  Context {T AK V : Type} `{Ord T} `{Ord AK} `{Ord V}.
  Variables (debug_t : T -> string) (debug_ak : AK -> string) (debug_v : V -> string).

  (** A node leads to its alternatives, an alternative to its nodes. *)
  Inductive link (t : Inner T AK V) : DotNode -> DotNode -> Prop :=
  | link_alt n s a : get_node t n = Ret s -> In a s -> link t (DNode n) (DAlt a)
  | link_node a x ns n : get_alt t a = Ret (CBranch x ns) -> In n ns -> link t (DAlt a) (DNode n).

  (** The label and the shape of a vertex. *)
  Inductive drawn (t : Inner T AK V) : DotNode -> string -> string -> Prop :=
  | drawn_node n : drawn t (DNode n) "" "point"
  | drawn_branch a x ns : get_alt t a = Ret (CBranch x ns) -> drawn t (DAlt a) (debug_ak x) "box"
  | drawn_leaf a k v : get_alt t a = Ret (CLeaf k v) -> drawn t (DAlt a) (debug_t k ++ "(" ++ debug_v v ++ ")") "box".

  (** The tree after the first [k] rounds of the others. *)
  Definition after (others : list (list (other_op T AK V))) (k : nat) (t : Inner T AK V) : Inner T AK V :=
    fold_left (fun t o => other_step [] o t) (concat (firstn k others)) t.
End Moment.
