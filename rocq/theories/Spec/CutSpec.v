(** Cutting a text into tokens and parsing them: a program over the buffers and the parser. *)
From Coq Require Import String List Arith NArith.
From Verif.Model Require Import Ord Outcome Utils Grammar StartGrammar Tokens Tree Earley Buffer.
Import ListNotations.

(** The lexer: how many characters of a nonempty text the next token takes. *)
Definition lexer := list char -> nat.

(** The program a user would write:
    [while !rest.empty() { match rest.advance_n(rule(rest.as_str())) {
       None => return Err(rest), Some((_, next)) => { out.push(rest.remove_suffix(&next)); rest = next } } } Ok(out)] *)
Fixpoint cut_from (rule : lexer) (fuel : nat) (rest : BufferRange) (out : list BufferRange)
  : outcome (result (list BufferRange) BufferRange) :=
  match fuel with
  | 0 => NoFuel
  | S fuel =>
      if br_empty rest then Ret (Ok out)
      else
        s <- br_as_str rest ;;
        o <- advance_n rest (rule s) ;;
        match o with
        | None => Ret (Err rest)
        | Some (_, next) => piece <- remove_suffix rest next ;; cut_from rule fuel next (out ++ [piece])
        end
  end.
Definition cut (rule : lexer) (r : BufferRange) (fuel : nat) : outcome (result (list BufferRange) BufferRange) :=
  cut_from rule fuel r [].

(** What it should do: [text] is cut into [pieces], each as long as the lexer says, up to [rest], which is empty, or too
    short for what the lexer says of it. *)
Inductive cuts (rule : lexer) : list char -> list (list char) -> list char -> Prop :=
| cuts_end : cuts rule [] [] []
| cuts_stuck text : text <> [] -> length text < rule text -> cuts rule text [] text
| cuts_piece p text pieces rest : p ++ text <> [] -> length p = rule (p ++ text) -> cuts rule text pieces rest ->
    cuts rule (p ++ text) (p :: pieces) rest.

(** Then the pieces are made into tokens, in order, and parsed. *)
Section ParseText.
  Context {T NT AK AV V : Type} `{Ord T} `{Ord NT} `{Ord AK} `{Ord V}.
  Variables (kind : BufferRange -> T) (value : BufferRange -> V).
  Definition token_of (r : BufferRange) : Token T V := Build_Token (kind r) (value r).
  Definition parse_text (rule : lexer) (lay : layout (StartNonTerminal NT)) (sg : StartGrammar T NT AK AV) (r : BufferRange)
    (t0 : Inner T AK V) (fuel : nat) : outcome (result (option nat * Inner T AK V) BufferRange) :=
    c <- cut rule r fuel ;;
    match c with
    | Err rest => Ret (Err rest)
    | Ok pieces => x <- parse lay sg (map token_of pieces) t0 fuel ;; Ret (Ok x)
    end.
End ParseText.
