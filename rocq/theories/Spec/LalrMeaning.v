(** What the states of an LR parser stand for, in terms of derivations. *)
From Coq Require Import List.
From Verif.Model Require Import Ord BTree Outcome Grammar Firsts State Lalr.
From Verif.Spec Require Import Reach Cfg StateSpec LalrSpec.
Import ListNotations.

Section Meaning.
  Context {T NT AK AV : Type}.
  Variable g : Grammar T NT AK AV.
  Variable items : list (ProdState T NT AK AV * list T).

  (** What is still to be read of one of the items, followed by one of its lookaheads, derives a form that begins with [A]
      and then [t]. *)
  Definition expects (A : NT) (t : T) : Prop := exists s ts t0 more, In (s, ts) items /\ In t0 ts /\
    derives_form (rhs_of g) (todo s ++ [Term t0]) (NonTerm A :: Term t :: more).

  (** After reading [x], the state [s] continues one of the items: either it is that item moved over [x], or [x] is [y ++ z],
      what is still to be read of the item derives [y] and then the head of [s], and [s] is its production moved over [z]. *)
  Definition continues (x : list T) (s : ProdState T NT AK AV) : Prop := exists s0 ts0, In (s0, ts0) items /\
    ((ps_prod s = ps_prod s0 /\ ps_index s = ps_index s0 + length x /\ todo s0 = map Term x ++ todo s) \/
     (exists y z more, x = y ++ z /\ ps_index s = length z /\ elements (ps_prod s) = map Term z ++ todo s /\
        derives_form (rhs_of g) (todo s0) (map Term y ++ NonTerm (p_head (ps_prod s)) :: more))).
End Meaning.

(** The parse state reached from the items by shifting the terminals [x], the first one first. *)
Inductive shifted {T NT AK AV} `{Ord T} `{Ord NT} (lay : layout NT) (g : Grammar T NT AK AV) (keep_last : bool)
  (items : list (ProdState T NT AK AV * btset T)) : list T -> ParseState T NT AK AV -> Prop :=
| shifted_start m : runs_to (fun n => from_prod_lookahead lay g keep_last items n) (Ret (Ok m)) -> shifted lay g keep_last items [] m
| shifted_next x m acts t m' : shifted lay g keep_last items x m ->
    runs_to (fun n => shift_actions lay g keep_last m n) (Ret (Ok acts)) -> In (t, m') acts ->
    shifted lay g keep_last items (x ++ [t]) m'.
