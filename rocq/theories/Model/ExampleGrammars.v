(** The grammars of the repository: src/grammar/examples.rs, src/lib.rs (tests), examples/*.rs.
    [Terminal], [NonTerminal] and [Name] are their strings; action values are [()]. *)
From Coq Require Import String List.
From Verif.Model Require Import Ord BTree Outcome Utils Grammar.
Import ListNotations.
Local Open Scope string_scope.

Definition RGrammar := Grammar name name name unit.
Definition RCall := gb_call name name name unit.

(** [build(..).unwrap()] *)
Definition build_unwrap (start : name) (calls : list RCall) (fuel : nat) : outcome RGrammar :=
  r <- build start calls fuel ;;
  match r with Ok g => Ret g | Err _ => Panic "called `Result::unwrap()` on an `Err` value" end.

(** grammar/examples.rs:20-48 [make_simple] *)
Definition make_simple : nat -> outcome RGrammar :=
  build_unwrap "start"
    [AddRule "start" [AddProd "a_prod" tt [AddNamedNonterm "value" "a"]; AddProd "b_prod" tt [AddNamedNonterm "value" "b"]];
     AddRule "a" [AddProd "a_term_prod" tt [AddTerm "A"]];
     AddRule "b" [AddProd "b_term_prod" tt [AddTerm "B"]]].

(** grammar/examples.rs:50-80 [make_simple_nullable] *)
Definition make_simple_nullable : nat -> outcome RGrammar :=
  build_unwrap "start"
    [AddRule "start" [AddProd "start" tt [AddNamedNonterm "value" "c"]];
     AddRule "a" [AddProd "a_value" tt []];
     AddRule "b" [AddProd "b_value" tt []];
     AddRule "c" [AddProd "c_value" tt [AddNamedNonterm "left" "a"; AddNamedNonterm "right" "b"]]].

(** grammar/examples.rs:82-114 [make_paren] *)
Definition make_paren : nat -> outcome RGrammar :=
  build_unwrap "start"
    [AddRule "start" [AddProd "start" tt [AddNamedNonterm "expr" "expr"]];
     AddRule "expr" [AddProd "paren_expr" tt [AddTerm "LPAREN"; AddNamedNonterm "contents" "expr_list"; AddTerm "RPAREN"]];
     AddRule "expr_list" [AddProd "empty" tt [];
                          AddProd "elem" tt [AddNamedNonterm "left" "expr"; AddNamedNonterm "right" "expr_list"]]].

(** grammar/examples.rs:116-149 [make_ambiguous_nullable] *)
Definition make_ambiguous_nullable : nat -> outcome RGrammar :=
  build_unwrap "start"
    [AddRule "start" [AddProd "start" tt [AddNamedNonterm "value" "c"]];
     AddRule "a" [AddProd "a_value" tt []];
     AddRule "b" [AddProd "b_value" tt []];
     AddRule "c" [AddProd "c_left" tt [AddNamedNonterm "value" "a"]; AddProd "c_right" tt [AddNamedNonterm "value" "b"]]].

(** lib.rs:37-51 [base_grammar] *)
Definition base_grammar : nat -> outcome RGrammar :=
  build_unwrap "x"
    [AddRule "x" [AddProd "Recursive" tt [AddTerm "A"; AddNonterm "x"; AddTerm "A"]; AddProd "Empty" tt []]].

(** lib.rs:53-88 [create_arithmetic_grammar] *)
Definition binop (n op : name) : rb_call name name name unit :=
  AddProd n tt [AddNonterm "expr"; AddTerm op; AddNonterm "expr"].
Definition create_arithmetic_grammar : nat -> outcome RGrammar :=
  build_unwrap "expr"
    [AddRule "expr" [AddProd "Number" tt [AddTerm "num"];
                     AddProd "Paren" tt [AddTerm "("; AddNonterm "expr"; AddTerm ")"];
                     binop "Add" "+"; binop "Sub" "-"; binop "Mul" "*"; binop "Div" "/"]].

(** examples/simple_earley.rs:14-38 *)
Definition simple_earley_grammar : nat -> outcome RGrammar :=
  build_unwrap "a"
    [AddRule "a" [AddProdWithElems "value" tt [pe_new_with_name "val" (Term "VALUE")];
                  AddProdWithElems "parens" tt [pe_new_empty (Term "LPAREN");
                                                pe_new_with_name "contents" (NonTerm "a");
                                                pe_new_empty (Term "RPAREN")]]].

(** examples/ambiguous_earley.rs:11-23 *)
Definition ambiguous_earley_grammar : nat -> outcome RGrammar :=
  build_unwrap "A"
    [AddRule "A" [AddProdWithElems "a_empty" tt [];
                  AddProdWithElems "a_recurse" tt [pe_new_with_name "recurse" (NonTerm "A")]]].
