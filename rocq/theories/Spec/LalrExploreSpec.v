(** Collecting the LALR states that shifting leads to. *)
From Coq Require Import String List.
From Verif.Model Require Import Ord BTree Outcome Utils Grammar Firsts State Lalr Compare.
From Verif.Spec Require Import Reach LalrSpec.
Import ListNotations.

Section Explore.
  Context {T NT AK AV : Type} `{Ord T} `{Ord NT}.
  Variables (lay : layout NT) (g : Grammar T NT AK AV) (keep_last : bool).
  (** One shift leads from [m] to [m']. *)
  Definition shift_edge (m m' : ParseState T NT AK AV) : Prop := exists acts t,
    runs_to (fun n => shift_actions lay g keep_last m n) (Ret (Ok acts)) /\ In (t, m') acts.

  (** How states compare (Model/Compare.v). *)
  #[local] Instance Ord_ParseState : Ord (ParseState T NT AK AV) := c_cmp (C_ParseState lay (Build_Cmp eqb (fun a b => Some (cmp a b)) cmp)).

  (** The program a user would write to collect them: [breadth_first_search(vec![m], |s| s.shift_actions(ctx).unwrap().values())]. *)
  Definition shift_states (fuel : nat) (m : ParseState T NT AK AV) : outcome (list (ParseState T NT AK AV)) :=
    r <- shift_actions lay g keep_last m fuel ;;
    match r with Ok acts => Ret (bt_values acts) | Err _ => Panic "called `Result::unwrap()` on an `Err` value"%string end.
  Definition explore (m : ParseState T NT AK AV) (fuel : nat) : outcome (list (ParseState T NT AK AV)) :=
    breadth_first_search [m] (shift_states fuel) fuel.
End Explore.
