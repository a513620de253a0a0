(** src/parsers/mod.rs: tokens and the vector token stream. *)
From Coq Require Import String List Arith.
From Verif.Model Require Import Outcome.
Import ListNotations.

(** parsers/mod.rs:21-31 [Token] *)
Record Token (K T : Type) := { tk_kind : K; tk_value : T }.
Arguments Build_Token {K T} _ _.
Arguments tk_kind {K T} _.
Arguments tk_value {K T} _.

(** parsers/mod.rs:37-42 [VecTokenStream] *)
Record VecTokenStream (K T : Type) := { vts_tokens : list (Token K T); vts_position : nat }.
Arguments Build_VecTokenStream {K T} _ _.
Arguments vts_tokens {K T} _.
Arguments vts_position {K T} _.

Section Tokens.
  Context {K T : Type}.
  (** parsers/mod.rs:44-53 [from_into_iter]; the collection is modelled by the list it yields. *)
  Definition vts_from (c : list (Token K T)) : VecTokenStream K T := Build_VecTokenStream c 0.

  (** parsers/mod.rs:60-73 [next] *)
  Definition vts_next (s : VecTokenStream K T) : outcome (option (Token K T * VecTokenStream K T)) :=
    if Nat.ltb (length (vts_tokens s)) (vts_position s) then
      t <- expect (nth_error (vts_tokens s) (vts_position s)) "index out of bounds" ;;
      Ret (Some (t, Build_VecTokenStream (vts_tokens s) (vts_position s + 1)))
    else
      _ <- assert_ (Nat.eqb (length (vts_tokens s)) (vts_position s)) "assertion failed: len == position" ;;
      Ret None.

  (** Reading a stream to its end, as a consumer of [TokenStream] does. *)
  Fixpoint vts_read (fuel : nat) (s : VecTokenStream K T) : outcome (list (Token K T)) :=
    match fuel with
    | 0 => NoFuel
    | S fuel' =>
        r <- vts_next s ;;
        match r with
        | None => Ret []
        | Some (t, s') => rest <- vts_read fuel' s' ;; Ret (t :: rest)
        end
    end.
End Tokens.
