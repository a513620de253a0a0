(** The languages of the repository's grammars, written without grammars. *)
From Coq Require Import String List Bool.
From Verif.Model Require Import Grammar Tokens.
From Verif.Spec Require Import EarleySpec.
Import ListNotations.
Local Open Scope string_scope.

(** [depth_ends d w]: going through [w] from depth [d], one deeper at each opening and one up at each closing
    parenthesis, depth zero is reached exactly at the end. *)
Fixpoint depth_ends (op cl : name) (d : nat) (w : list name) : bool :=
  match w with
  | [] => match d with 0 => true | _ => false end
  | t :: r =>
      if String.eqb t op then depth_ends op cl (S d) r
      else if String.eqb t cl then
        match d with
        | 0 => false
        | S 0 => match r with [] => true | _ => false end
        | S d' => depth_ends op cl d' r
        end
      else false
  end.

(** [n] opening parentheses, one symbol, [n] closing parentheses. *)
Definition nest (op mid cl : name) (n : nat) : list name := repeat op n ++ mid :: repeat cl n.

(** The tree of a nested token sequence: one branch per parenthesis pair, the values at the leaves. *)
Inductive nest_tree {V : Type} (op mid cl base step : name) : list (Token name V) -> ptree name name V -> Prop :=
| nt_base v : nest_tree op mid cl base step [Build_Token mid v] (PBranch base [PLeaf mid v])
| nt_step a b w t : nest_tree op mid cl base step w t ->
    nest_tree op mid cl base step (Build_Token op a :: (w ++ [Build_Token cl b])%list)
      (PBranch step [PLeaf op a; t; PLeaf cl b]).

(** Arithmetic words: numbers, parenthesised words, words joined by an operator. *)
Inductive arith : list name -> Prop :=
| ar_num : arith ["num"]
| ar_paren w : arith w -> arith ("(" :: (w ++ [")"])%list)
| ar_op w op v : arith w -> In op ["+"; "-"; "*"; "/"] -> arith v -> arith (w ++ op :: v)%list.
