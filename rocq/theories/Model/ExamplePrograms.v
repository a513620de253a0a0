(** The programs of the repository: examples/simple_earley.rs, examples/ambiguous_earley.rs ([main]).

    Both have the same shape and differ in the grammar and the tokens; [earley_program] is that shape, with the grammar
    (the calls on the builder), the tokens, the addresses of the productions and the renderer of the crate [pretty] as
    parameters.  The text of a panic, which the Rust runtime writes to the error output after what the program itself has
    written there, is given without file and line and without what follows the first line. *)
From Coq Require Import String Ascii List.
From Verif.Model Require Import Ord BTree Outcome Utils Grammar StartGrammar Tokens Tree State Earley DotText Pretty Debug
  ExampleGrammars.
Import ListNotations.
Local Open Scope string_scope.

(** How a program ends: it has written a dot graph to its output, or it has died of a panic. *)
Inductive ended := Printed (out : list dot_stmt) | Died (msg : string).

(** [Result::unwrap], [Option::unwrap] of the standard library. *)
Definition unwrap_res {A E} (r : result A E) : outcome A :=
  match r with Ok a => Ret a | Err _ => Panic "called `Result::unwrap()` on an `Err` value" end.
Definition unwrap_opt {A} (o : option A) : outcome A := expect o "called `Option::unwrap()` on a `None` value".

Section Program.
  Context {T NT AK AV V : Type} `{Ord T} `{Ord NT} `{Ord AK} `{Ord V} `{ToDoc T} `{ToDoc NT}.
  Variables (debug_t : T -> string) (debug_ak : AK -> string) (debug_v : V -> string).

  (** simple_earley.rs:14-40, ambiguous_earley.rs:11-25: [build(..).unwrap()], [wrap_grammar_with_start(g).unwrap()]. *)
  Definition program_grammar (start : NT) (calls : list (gb_call T NT AK AV)) (fuel : nat) : outcome (StartGrammar T NT AK AV) :=
    r <- build start calls fuel ;; g <- unwrap_res r ;;
    r' <- wrap_grammar_with_start g fuel ;; unwrap_res r'.
  (** simple_earley.rs:44-57, ambiguous_earley.rs:29-34: [TreeOwner::new()], [parse(..).unwrap()], [node.to_dot()]. *)
  Definition program_output (lay : layout (StartNonTerminal NT)) (sg : StartGrammar T NT AK AV) (tokens : list (Token T V))
    (fuel : nat) : outcome (list dot_stmt) :=
    '(r, t) <- parse lay sg tokens in_new fuel ;; node <- unwrap_opt r ;;
    to_dot_stmts debug_t debug_ak debug_v t node fuel.
  (** simple_earley.rs:42, ambiguous_earley.rs:27: [eprintln!("Grammar: {}", g.to_pretty())]. *)
  Definition program_notice (render : nat -> doc -> string) (sg : StartGrammar T NT AK AV) : string :=
    "Grammar: " ++ to_pretty render sg ++ nl.
  (** simple_earley.rs:9-58, ambiguous_earley.rs:9-35 [main]: what it has written to its error output, and how it ended. *)
  Definition earley_program (start : NT) (calls : list (gb_call T NT AK AV)) (tokens : list (Token T V))
    (lay : layout (StartNonTerminal NT)) (render : nat -> doc -> string) (fuel : nat) : outcome (option string * ended) :=
    match program_grammar start calls fuel with
    | NoFuel => NoFuel
    | Panic m => Ret (None, Died m)
    | Ret sg =>
        match program_output lay sg tokens fuel with
        | NoFuel => NoFuel
        | Panic m => Ret (Some (program_notice render sg), Died m)
        | Ret out => Ret (Some (program_notice render sg), Printed out)
        end
    end.
End Program.

(** [Debug] of [&str], for texts without quotes, backslashes and unprintable characters. *)
Definition debug_str (s : string) : string := String "034" (s ++ String "034" "").
(** examples/simple_earley.rs:9-58 [main]; the labels are those of [Terminal], [Name] and [&str]. *)
Definition simple_earley_main (lay : layout (StartNonTerminal name)) (render : nat -> doc -> string) : nat -> outcome (option string * ended) :=
  earley_program (fun t => fmt false (dbg_terminal t)) (debug_text false) debug_str
    "a" [AddRule "a" [AddProdWithElems "value" tt [pe_new_with_name "val" (Term "VALUE")];
                      AddProdWithElems "parens" tt [pe_new_empty (Term "LPAREN");
                                                    pe_new_with_name "contents" (NonTerm "a");
                                                    pe_new_empty (Term "RPAREN")]]]
    [Build_Token "LPAREN" "("; Build_Token "VALUE" "Hello!"; Build_Token "RPAREN" ")"] lay render.
(** examples/ambiguous_earley.rs:9-35 [main] *)
Definition ambiguous_earley_main (lay : layout (StartNonTerminal name)) (render : nat -> doc -> string) : nat -> outcome (option string * ended) :=
  earley_program (fun t => fmt false (dbg_terminal t)) (debug_text false) (fun _ : unit => "()")
    "A" [AddRule "A" [AddProdWithElems "a_empty" tt [];
                      AddProdWithElems "a_recurse" tt [pe_new_with_name "recurse" (NonTerm "A")]]]
    ([] : list (Token name unit)) lay render.
