(** Reachability, independent of any algorithm. *)

(** Zero or more steps. *)
Inductive star {A : Type} (R : A -> A -> Prop) (x : A) : A -> Prop :=
| star_refl : star R x x
| star_step y z : star R x y -> R y z -> star R x z.

(** One or more steps. *)
Definition plus {A : Type} (R : A -> A -> Prop) (x z : A) : Prop :=
  exists y, star R x y /\ R y z.
