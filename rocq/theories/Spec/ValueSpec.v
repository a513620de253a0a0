(** Token values: replacing them in tokens and trees. *)
From Coq Require Import List.
From Verif.Model Require Import Tokens.
From Verif.Spec Require Import EarleySpec.
Import ListNotations.

Section Values.
  Context {T AK V V' : Type}.
  Variable f : V -> V'.
  (** The token with its value replaced. *)
  Definition with_value (tok : Token T V) : Token T V' := Build_Token (tk_kind tok) (f (tk_value tok)).
  (** The tree with the values at its leaves replaced. *)
  Fixpoint map_values (tr : ptree T AK V) : ptree T AK V' :=
    match tr with
    | PLeaf k v => PLeaf k (f v)
    | PBranch a cs => PBranch a (map map_values cs)
    end.
End Values.

(** [fills w x tr]: [tr] is the tree [x], whose leaves carry positions, with each position replaced by the value of
    the token there. *)
Definition fills {T AK V} (w : list (Token T V)) (x : ptree T AK nat) (tr : ptree T AK V) : Prop :=
  map_values (fun i => option_map tk_value (nth_error w i)) x = map_values Some tr.
