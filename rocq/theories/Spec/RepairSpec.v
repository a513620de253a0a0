(** Programs that use the parser as an oracle to correct an input: they try the input, then everything that comes from it
    by one edit of a token, by two, and so on.  And the number of edits between two sequences. *)
From Coq Require Import String List Arith Bool.
From Verif.Model Require Import Ord BTree Outcome Utils Grammar StartGrammar Tokens Tree State Earley.
From Verif.Spec Require Import WalkSpec BlameSpec.
Import ListNotations.

(** [u] becomes [v] by leaving out, putting in and exchanging at most [n] elements in all. *)
Inductive near {A} : nat -> list A -> list A -> Prop :=
| near_nil n : near n [] []
| near_keep n x u v : near n u v -> near n (x :: u) (x :: v)
| near_del n x u v : near n u v -> near (S n) (x :: u) v
| near_ins n x u v : near n u v -> near (S n) u (x :: v)
| near_sub n x y u v : near n u v -> near (S n) (x :: u) (y :: v).

Section Oracle.
  Context {T NT AK AV V : Type} `{Ord T} `{Ord NT} `{Ord AK} `{Ord V}.
  Variable lay : layout (StartNonTerminal NT).
  Variable sg : StartGrammar T NT AK AV.
  Variable g : Grammar T NT AK AV.
  Variable value : T -> V.

  (** One edit: put in a token of the grammar, leave one out, exchange one. *)
  Fixpoint edits (w : list (Token T V)) : list (list (Token T V)) :=
    map (fun k => make value [k] ++ w) (terminals g) ++
    match w with
    | [] => []
    | x :: w => w :: map (fun k => make value [k] ++ w) (terminals g) ++ map (cons x) (edits w)
    end.

  Definition words (fuel : nat) (front : list (list (Token T V))) : outcome (list (list (Token T V))) :=
    vs <- each (fun u => v <- attempt lay sg fuel u ;; Ret (u, v)) front ;;
    Ret (map fst (filter (fun uv => is_word (snd uv)) vs)).

  (** A word that is reached with as few edits as possible. *)
  Fixpoint correct (steps fuel : nat) (front : list (list (Token T V))) : outcome (list (Token T V)) :=
    match steps with
    | 0 => NoFuel
    | S steps =>
        us <- words fuel front ;;
        match us with
        | u :: _ => Ret u
        | [] => correct steps fuel (flat_map edits front)
        end
    end.
  (** All words that are reached with at most [n] edits. *)
  Fixpoint corrections (n fuel : nat) (front : list (list (Token T V))) : outcome (list (list (Token T V))) :=
    us <- words fuel front ;;
    match n with
    | 0 => Ret us
    | S n => us' <- corrections n fuel (flat_map edits front) ;; Ret (us ++ us')
    end.
End Oracle.
