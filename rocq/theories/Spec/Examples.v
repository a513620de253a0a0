(** Concrete grammars used to show that hypotheses of theorems are met. *)
From Coq Require Import String List NArith Cantor.
From Verif.Model Require Import Ord Outcome Grammar StartGrammar.
Import ListNotations.
Local Open Scope string_scope.

(** Expressions: E(0) -> E + F | F;  F(1) -> id | ( E ).  Terminals: 0 = id, 1 = plus, 2 = "(", 3 = ")". *)
Definition ex_expr : list (gb_call nat nat nat nat) :=
  [AddRule 0 [AddProd 10 0 [AddNamedNonterm "l" 0; AddTerm 1; AddNamedNonterm "r" 1];
              AddProd 11 0 [AddNamedNonterm "f" 1]];
   AddRule 1 [AddProd 12 0 [AddNamedTerm "id" 0];
              AddProd 13 0 [AddTerm 2; AddNamedNonterm "e" 0; AddTerm 3]]].
Definition ex_expr_g : Grammar nat nat nat nat :=
  Build_Grammar 0
    [(0, Build_RuleInner 0
           [Build_ProdInner 10 0 [Build_ProdElement (Some "l"%string) (NonTerm 0);
                                  Build_ProdElement None (Term 1);
                                  Build_ProdElement (Some "r"%string) (NonTerm 1)];
            Build_ProdInner 11 0 [Build_ProdElement (Some "f"%string) (NonTerm 1)]]);
     (1, Build_RuleInner 1
           [Build_ProdInner 12 0 [Build_ProdElement (Some "id"%string) (Term 0)];
            Build_ProdInner 13 0 [Build_ProdElement None (Term 2);
                                  Build_ProdElement (Some "e"%string) (NonTerm 0);
                                  Build_ProdElement None (Term 3)]])].

(** A grammar with an unreachable rule: 0 -> t;  1 -> t. *)
Definition ex_unreach : list (gb_call nat nat nat nat) :=
  [AddRule 0 [AddProd 0 0 [AddTerm 7]]; AddRule 1 [AddProd 1 0 [AddTerm 7]]].
Definition ex_unreach_g : Grammar nat nat nat nat :=
  Build_Grammar 0
    [(0, Build_RuleInner 0 [Build_ProdInner 0 0 [Build_ProdElement None (Term 7)]]);
     (1, Build_RuleInner 1 [Build_ProdInner 1 0 [Build_ProdElement None (Term 7)]])].

(** The start symbol occurs only in a rule that is itself unreachable: 0 -> t;  1 -> 0. *)
Definition ex_start_unreach : list (gb_call nat nat nat nat) :=
  [AddRule 0 [AddProd 0 0 [AddTerm 7]]; AddRule 1 [AddProd 1 0 [AddNonterm 0]]].

(** A layout for grammars over [nat]: 4096 bytes for every rule, 40 bytes for every production. *)
Definition ex_lay : layout nat := fun A i => (N.of_nat (S A) * 4096 + N.of_nat i * 40)%N.
(** It is enough for rules of at most a hundred productions. *)
Definition ex_small {T NT AK AV} (g : Grammar T NT AK AV) : bool := forallb (fun r => Nat.leb (List.length (r_prods (snd r))) 100) (rule_set g).

(** Nullable nonterminals: 0 -> a:1 x b:2 | y;  1 -> (empty);  2 -> c:1 d:1 | z.  x=7, y=8, z=9. *)
Definition ex_null : list (gb_call nat nat nat nat) :=
  [AddRule 0 [AddProd 10 0 [AddNamedNonterm "a" 1; AddTerm 7; AddNamedNonterm "b" 2];
              AddProd 11 0 [AddTerm 8]];
   AddRule 1 [AddProd 12 0 []];
   AddRule 2 [AddProd 13 0 [AddNamedNonterm "c" 1; AddNamedNonterm "d" 1];
              AddProd 14 0 [AddTerm 9]]].
Definition ex_null_g : Grammar nat nat nat nat :=
  Build_Grammar 0
    [(0, Build_RuleInner 0
           [Build_ProdInner 10 0 [Build_ProdElement (Some "a"%string) (NonTerm 1);
                                  Build_ProdElement None (Term 7);
                                  Build_ProdElement (Some "b"%string) (NonTerm 2)];
            Build_ProdInner 11 0 [Build_ProdElement None (Term 8)]]);
     (1, Build_RuleInner 1 [Build_ProdInner 12 0 []]);
     (2, Build_RuleInner 2
           [Build_ProdInner 13 0 [Build_ProdElement (Some "c"%string) (NonTerm 1);
                                  Build_ProdElement (Some "d"%string) (NonTerm 1)];
            Build_ProdInner 14 0 [Build_ProdElement None (Term 9)]])].

(** Two empty productions for one nonterminal: 0 -> 1 x;  1 -> (empty) | (empty). *)
Definition ex_amb : list (gb_call nat nat nat nat) :=
  [AddRule 0 [AddProd 10 0 [AddNonterm 1; AddTerm 7]]; AddRule 1 [AddProd 11 0 []; AddProd 12 0 []]].
Definition ex_amb_g : Grammar nat nat nat nat :=
  Build_Grammar 0
    [(0, Build_RuleInner 0 [Build_ProdInner 10 0 [Build_ProdElement None (NonTerm 1);
                                                  Build_ProdElement None (Term 7)]]);
     (1, Build_RuleInner 1 [Build_ProdInner 11 0 []; Build_ProdInner 12 0 []])].

(** FOLLOW across a nullable symbol: 0 -> 1 2 x;  1 -> y;  2 -> (empty) | z.  x=7, y=8, z=9. *)
Definition ex_follow : list (gb_call nat nat nat nat) :=
  [AddRule 0 [AddProd 10 0 [AddNonterm 1; AddNonterm 2; AddTerm 7]];
   AddRule 1 [AddProd 11 0 [AddTerm 8]];
   AddRule 2 [AddProd 12 0 []; AddProd 13 0 [AddTerm 9]]].
Definition ex_follow_g : Grammar nat nat nat nat :=
  Build_Grammar 0
    [(0, Build_RuleInner 0 [Build_ProdInner 10 0 [Build_ProdElement None (NonTerm 1);
                                                  Build_ProdElement None (NonTerm 2);
                                                  Build_ProdElement None (Term 7)]]);
     (1, Build_RuleInner 1 [Build_ProdInner 11 0 [Build_ProdElement None (Term 8)]]);
     (2, Build_RuleInner 2 [Build_ProdInner 12 0 [];
                            Build_ProdInner 13 0 [Build_ProdElement None (Term 9)]])].

(** A nonterminal with only an empty production after a nonterminal: 0 -> 1 2;  1 -> y;  2 -> (empty). *)
Definition ex_follow_panic : list (gb_call nat nat nat nat) :=
  [AddRule 0 [AddProd 10 0 [AddNonterm 1; AddNonterm 2]];
   AddRule 1 [AddProd 11 0 [AddTerm 8]]; AddRule 2 [AddProd 12 0 []]].
Definition ex_follow_panic_g : Grammar nat nat nat nat :=
  Build_Grammar 0
    [(0, Build_RuleInner 0 [Build_ProdInner 10 0 [Build_ProdElement None (NonTerm 1);
                                                  Build_ProdElement None (NonTerm 2)]]);
     (1, Build_RuleInner 1 [Build_ProdInner 11 0 [Build_ProdElement None (Term 8)]]);
     (2, Build_RuleInner 2 [Build_ProdInner 12 0 []])].

(** A nullable production with a nonempty word: 0 -> 1 x;  1 -> q:2 | y;  2 -> (empty) | z.
    x=7, y=8, z=9. *)
Definition ex_nn : list (gb_call nat nat nat nat) :=
  [AddRule 0 [AddProd 10 0 [AddNamedNonterm "p" 1; AddTerm 7]];
   AddRule 1 [AddProd 11 0 [AddNamedNonterm "q" 2]; AddProd 12 0 [AddTerm 8]];
   AddRule 2 [AddProd 13 0 []; AddProd 14 0 [AddTerm 9]]].
Definition ex_nn_g : Grammar nat nat nat nat :=
  Build_Grammar 0
    [(0, Build_RuleInner 0 [Build_ProdInner 10 0 [Build_ProdElement (Some "p"%string) (NonTerm 1);
                                                  Build_ProdElement None (Term 7)]]);
     (1, Build_RuleInner 1 [Build_ProdInner 11 0 [Build_ProdElement (Some "q"%string) (NonTerm 2)];
                            Build_ProdInner 12 0 [Build_ProdElement None (Term 8)]]);
     (2, Build_RuleInner 2 [Build_ProdInner 13 0 []; Build_ProdInner 14 0 [Build_ProdElement None (Term 9)]])].

(** The example of nonnull.rs:28-45: q(0) -> p p;  p(1) -> A | (empty).  A=7. *)
Definition ex_doc : list (gb_call nat nat nat nat) :=
  [AddRule 0 [AddProd 10 0 [AddNonterm 1; AddNonterm 1]];
   AddRule 1 [AddProd 11 0 [AddTerm 7]; AddProd 12 0 []]].
Definition ex_doc_g : Grammar nat nat nat nat :=
  Build_Grammar 0
    [(0, Build_RuleInner 0 [Build_ProdInner 10 0 [Build_ProdElement None (NonTerm 1);
                                                  Build_ProdElement None (NonTerm 1)]]);
     (1, Build_RuleInner 1 [Build_ProdInner 11 0 [Build_ProdElement None (Term 7)]; Build_ProdInner 12 0 []])].

(** Only empty productions derive the empty word: 0 -> l:1 x r:1 | y;  1 -> (empty) | z 0. *)
Definition ex_pure : list (gb_call nat nat nat nat) :=
  [AddRule 0 [AddProd 10 5 [AddNamedNonterm "l" 1; AddTerm 7; AddNamedNonterm "r" 1]; AddProd 11 5 [AddTerm 8]];
   AddRule 1 [AddProd 12 6 []; AddProd 13 6 [AddTerm 9; AddNonterm 0]]].
Definition ex_pure_g : Grammar nat nat nat nat :=
  Build_Grammar 0
    [(0, Build_RuleInner 0
           [Build_ProdInner 10 5 [Build_ProdElement (Some "l"%string) (NonTerm 1);
                                  Build_ProdElement None (Term 7);
                                  Build_ProdElement (Some "r"%string) (NonTerm 1)];
            Build_ProdInner 11 5 [Build_ProdElement None (Term 8)]]);
     (1, Build_RuleInner 1
           [Build_ProdInner 12 6 [];
            Build_ProdInner 13 6 [Build_ProdElement None (Term 9); Build_ProdElement None (NonTerm 0)]])].

(** The same for wrapped grammars over [nat]. *)
Definition ex_slay : layout (StartNonTerminal nat) := fun A i => ex_lay (match A with Start => 0 | NTerm n => S n end) i.

(** Unambiguous, but a part of 0 -> 1 2 and the whole of it derive the same word: 0 -> 1 2;  1 -> b | b b;
    2 -> b.  b=7. *)
Definition ex_bb : list (gb_call nat nat nat nat) :=
  [AddRule 0 [AddProd 10 0 [AddNonterm 1; AddNonterm 2]];
   AddRule 1 [AddProd 11 0 [AddTerm 7]; AddProd 12 0 [AddTerm 7; AddTerm 7]];
   AddRule 2 [AddProd 13 0 [AddTerm 7]]].
Definition ex_bb_g : Grammar nat nat nat nat :=
  Build_Grammar 0
    [(0, Build_RuleInner 0 [Build_ProdInner 10 0 [Build_ProdElement None (NonTerm 1);
                                                  Build_ProdElement None (NonTerm 2)]]);
     (1, Build_RuleInner 1 [Build_ProdInner 11 0 [Build_ProdElement None (Term 7)];
                            Build_ProdInner 12 0 [Build_ProdElement None (Term 7); Build_ProdElement None (Term 7)]]);
     (2, Build_RuleInner 2 [Build_ProdInner 13 0 [Build_ProdElement None (Term 7)]])].

(** Two ways to cut the word b b c: 0 -> 1 2;  1 -> b | b b;  2 -> b c | c.  b=7, c=8. *)
Definition ex_bbc : list (gb_call nat nat nat nat) :=
  [AddRule 0 [AddProd 10 0 [AddNonterm 1; AddNonterm 2]];
   AddRule 1 [AddProd 11 0 [AddTerm 7]; AddProd 12 0 [AddTerm 7; AddTerm 7]];
   AddRule 2 [AddProd 13 0 [AddTerm 7; AddTerm 8]; AddProd 14 0 [AddTerm 8]]].
Definition ex_bbc_g : Grammar nat nat nat nat :=
  Build_Grammar 0
    [(0, Build_RuleInner 0 [Build_ProdInner 10 0 [Build_ProdElement None (NonTerm 1);
                                                  Build_ProdElement None (NonTerm 2)]]);
     (1, Build_RuleInner 1 [Build_ProdInner 11 0 [Build_ProdElement None (Term 7)];
                            Build_ProdInner 12 0 [Build_ProdElement None (Term 7); Build_ProdElement None (Term 7)]]);
     (2, Build_RuleInner 2 [Build_ProdInner 13 0 [Build_ProdElement None (Term 7); Build_ProdElement None (Term 8)];
                            Build_ProdInner 14 0 [Build_ProdElement None (Term 8)]])].

(** A word (0 1 2 3) with one derivation, a beginning of which (0 1 2) has two: 0 -> 1 2;  1 -> a | a b;
    2 -> b c | c | b c d.  a=0, b=1, c=2, d=3. *)
Definition ex_lo : list (gb_call nat nat nat nat) :=
  [AddRule 0 [AddProd 10 0 [AddNonterm 1; AddNonterm 2]];
   AddRule 1 [AddProd 11 0 [AddTerm 0]; AddProd 12 0 [AddTerm 0; AddTerm 1]];
   AddRule 2 [AddProd 13 0 [AddTerm 1; AddTerm 2]; AddProd 14 0 [AddTerm 2]; AddProd 15 0 [AddTerm 1; AddTerm 2; AddTerm 3]]].
Definition ex_lo_g : Grammar nat nat nat nat :=
  Build_Grammar 0
    [(0, Build_RuleInner 0 [Build_ProdInner 10 0 [Build_ProdElement None (NonTerm 1);
                                                  Build_ProdElement None (NonTerm 2)]]);
     (1, Build_RuleInner 1 [Build_ProdInner 11 0 [Build_ProdElement None (Term 0)];
                            Build_ProdInner 12 0 [Build_ProdElement None (Term 0); Build_ProdElement None (Term 1)]]);
     (2, Build_RuleInner 2 [Build_ProdInner 13 0 [Build_ProdElement None (Term 1); Build_ProdElement None (Term 2)];
                            Build_ProdInner 14 0 [Build_ProdElement None (Term 2)];
                            Build_ProdInner 15 0 [Build_ProdElement None (Term 1); Build_ProdElement None (Term 2);
                                                  Build_ProdElement None (Term 3)]])].
(** The same with the productions of 2 in another order: 2 -> c | b c | b c d. *)
Definition ex_lo2 : list (gb_call nat nat nat nat) :=
  [AddRule 0 [AddProd 10 0 [AddNonterm 1; AddNonterm 2]];
   AddRule 1 [AddProd 11 0 [AddTerm 0]; AddProd 12 0 [AddTerm 0; AddTerm 1]];
   AddRule 2 [AddProd 14 0 [AddTerm 2]; AddProd 13 0 [AddTerm 1; AddTerm 2]; AddProd 15 0 [AddTerm 1; AddTerm 2; AddTerm 3]]].
Definition ex_lo2_g : Grammar nat nat nat nat :=
  Build_Grammar 0
    [(0, Build_RuleInner 0 [Build_ProdInner 10 0 [Build_ProdElement None (NonTerm 1);
                                                  Build_ProdElement None (NonTerm 2)]]);
     (1, Build_RuleInner 1 [Build_ProdInner 11 0 [Build_ProdElement None (Term 0)];
                            Build_ProdInner 12 0 [Build_ProdElement None (Term 0); Build_ProdElement None (Term 1)]]);
     (2, Build_RuleInner 2 [Build_ProdInner 14 0 [Build_ProdElement None (Term 2)];
                            Build_ProdInner 13 0 [Build_ProdElement None (Term 1); Build_ProdElement None (Term 2)];
                            Build_ProdInner 15 0 [Build_ProdElement None (Term 1); Build_ProdElement None (Term 2);
                                                  Build_ProdElement None (Term 3)]])].

(** Brackets: 0 -> x | ( 0 0 ).  x=0, "("=1, ")"=2. *)
Definition ex_br : list (gb_call nat nat nat nat) :=
  [AddRule 0 [AddProd 10 0 [AddTerm 0]; AddProd 11 0 [AddTerm 1; AddNonterm 0; AddNonterm 0; AddTerm 2]]].
Definition ex_br_g : Grammar nat nat nat nat :=
  Build_Grammar 0
    [(0, Build_RuleInner 0 [Build_ProdInner 10 0 [Build_ProdElement None (Term 0)];
                            Build_ProdInner 11 0 [Build_ProdElement None (Term 1); Build_ProdElement None (NonTerm 0);
                                                  Build_ProdElement None (NonTerm 0); Build_ProdElement None (Term 2)]])].

(** Infinitely many trees: 0 -> 0 | a.  a=7. *)
Definition ex_cyc : list (gb_call nat nat nat nat) :=
  [AddRule 0 [AddProd 10 0 [AddNonterm 0]; AddProd 11 0 [AddTerm 7]]].
Definition ex_cyc_g : Grammar nat nat nat nat :=
  Build_Grammar 0
    [(0, Build_RuleInner 0 [Build_ProdInner 10 0 [Build_ProdElement None (NonTerm 0)];
                            Build_ProdInner 11 0 [Build_ProdElement None (Term 7)]])].

(** The grammar of examples/ambiguous_earley.rs:11-23: A(0) -> (empty) | recurse:A. *)
Definition ex_repo : list (gb_call nat nat nat nat) :=
  [AddRule 0 [AddProd 10 0 []; AddProd 11 0 [AddNamedNonterm "recurse" 0]]].
Definition ex_repo_g : Grammar nat nat nat nat :=
  Build_Grammar 0
    [(0, Build_RuleInner 0 [Build_ProdInner 10 0 []; Build_ProdInner 11 0 [Build_ProdElement (Some "recurse"%string) (NonTerm 0)]])].
