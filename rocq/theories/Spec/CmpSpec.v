(** What it means for a type's comparisons to be lawful. *)
From Coq Require Import List.
From Verif.Model Require Import Compare.

(** [==], [partial_cmp] and [cmp] agree, [cmp] is a total order, and it calls equal exactly the values
    related by [same]. *)
Record lawful_upto {A : Type} (same : A -> A -> Prop) (R : Cmp A) : Prop := {
  law_eq : forall x y, c_eq R x y = true <-> same x y;
  law_partial : forall x y, c_partial R x y = Some (c_cmp R x y);
  law_equal : forall x y, c_cmp R x y = Eq <-> same x y;
  law_antisym : forall x y, c_cmp R x y = Lt <-> c_cmp R y x = Gt;
  law_trans : forall x y z, c_cmp R x y = Lt -> c_cmp R y z = Lt -> c_cmp R x z = Lt;
  law_congr : forall x y z, same x y -> c_cmp R x z = c_cmp R y z
}.

(** The usual case: only identical values are equal. *)
Definition lawful {A : Type} (R : Cmp A) : Prop := lawful_upto (@eq A) R.
