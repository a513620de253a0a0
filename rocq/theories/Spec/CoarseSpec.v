(** Types whose values are compared by a key: equal values need not be identical. *)
From Coq Require Import List.
From Verif.Model Require Import Ord BTree Outcome Tokens Tree.
From Verif.Spec Require Import TreeSpec.
Import ListNotations.

(** [x] and [y] are compared by comparing [key x] and [key y]. *)
Definition compares_by {A B} `{Ord A} `{Ord B} (key : A -> B) : Prop := forall x y, cmp x y = cmp (key x) (key y).

Definition map_out {A B} (f : A -> B) (r : outcome A) : outcome B :=
  match r with Ret a => Ret (f a) | Panic m => Panic m | NoFuel => NoFuel end.

(** Replacing kinds, action keys and values by their keys: in contents, trees, calls, answers and histories. *)
Section Map.
  Context {T AK V T' AK' V' : Type}.
  Variable fk : T -> T'.
  Variable fa : AK -> AK'.
  Variable fv : V -> V'.
  Definition map_ci (c : ContentInner T AK V) : ContentInner T' AK' V' :=
    match c with CLeaf k v => CLeaf (fk k) (fv v) | CBranch x ns => CBranch (fa x) ns end.
  Definition map_in (t : Inner T AK V) : Inner T' AK' V' :=
    Build_Inner (in_nodes t)
      (Build_AltSet (map (fun '(c, i) => (map_ci c, i)) (value_to_id (in_alts t))) (map map_ci (id_to_value (in_alts t)))).
  Definition map_nc (c : NodeContent T AK V) : NodeContent T' AK' V' :=
    match c with NLeaf k v => NLeaf (fk k) (fv v) | NBranch x ns => NBranch (fa x) ns end.
  Definition map_op (o : tr_op T AK V) : tr_op T' AK' V' :=
    match o with
    | TNewTree => TNewTree
    | TMakeNode h => TMakeNode h
    | TMakeLeafAlt h k v => TMakeLeafAlt h (fk k) (fv v)
    | TMakeBranchAlt h x ns => TMakeBranchAlt h (fa x) ns
    | TMakeLeafNode h k v => TMakeLeafNode h (fk k) (fv v)
    | TMakeBranchNode h x ns => TMakeBranchNode h (fa x) ns
    | TAddAlt n a => TAddAlt n a
    | TAddAll n m => TAddAll n m
    | TAlts n => TAlts n
    | TContent a => TContent a
    end.
  Definition map_val (v : tr_val T AK V) : tr_val T' AK' V' :=
    match v with
    | RHandle h => RHandle h
    | RNode n => RNode n
    | RAlt a => RAlt a
    | RChanged c => RChanged c
    | RAlts l => RAlts l
    | RContent c => RContent (map_nc c)
    end.
  Definition map_hist (tr : history T AK V) : history T' AK' V' := map (fun '(o, r) => (map_op o, map_out map_val r)) tr.
End Map.
