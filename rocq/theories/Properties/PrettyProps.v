(** Properties of printing grammars (C77-C79). *)
From Coq Require Import String Ascii List.
From Verif.Model Require Import Ord BTree Outcome Grammar StartGrammar Pretty.
From Verif.Spec Require Import Cfg BuildSpec PrettySpec.
From Verif.Proofs Require Import OrdFacts LoopFacts GrammarFacts PrettyFacts.
Import ListNotations.
Local Open Scope string_scope.

Section S.
  Context {T NT AK AV : Type} {DT : ToDoc T} {DN : ToDoc NT} `{OrdEq NT}.
  Variables (show_t : T -> string) (show_nt : NT -> string).
  Hypothesis text_t : forall t : T, to_doc t = DText (show_t t).
  Hypothesis text_nt : forall n : NT, to_doc n = DText (show_nt n).

  (** C77. Reading the text of an accepted grammar with readable names gives its start symbol and its rules
      with all productions, elements and element names, however the text is broken into lines. *)
  Theorem C77_pretty_reads_back render (g : Grammar T NT AK AV) :
    built g -> renders render -> readable (grammar_names show_t show_nt g) ->
    read_grammar (to_pretty render g) = Some (grammar_names show_t show_nt g).
  Proof. exact (pretty_reads_back show_t show_nt text_t text_nt render g). Qed.

  (** C78. Whatever the names and the line breaks, the text consists of exactly these tokens. *)
  Theorem C78_pretty_tokens render (g : Grammar T NT AK AV) : renders render ->
    lex (to_pretty render g) = grammar_tokens (grammar_names show_t show_nt g).
  Proof. exact (pretty_tokens show_t show_nt text_t text_nt render g). Qed.

  (** C78, for the grammar wrapped with a start production: the start production comes first. *)
  Theorem C78_wrapped_tokens render (g : Grammar T NT AK AV) sg :
    built g -> runs_to (wrap_grammar_with_start g) (Ret (Ok sg)) -> renders render ->
    lex (to_pretty render sg) =
      ([Word "Start"; Sym "="; Sym "<"; Word "START"; Sym ">"; Sym ","; Word "Rules"; Sym "{";
        Sym "<"; Word "START"; Sym ">"; Sym "="; Sym ">"; Word "start"; Sym ":"; Sym "<"]%char ++
       lex (show_nt (start_nt g)) ++ [Sym ">"; Sym "<"; Word "EOS"; Sym ">"; Sym ";"]%char ++
       flat_map rule_tokens (snd (grammar_names show_t show_nt g)) ++ [Sym "}"; Sym ","]%char)%list.
  Proof. exact (wrapped_tokens show_t show_nt text_t text_nt render g sg). Qed.
End S.

(** C77, for names as symbols: grammars with the same text have the same start symbol and the same rules with
    the same bodies, in the same order (even if the renderers are different). *)
Theorem C77_same_text_same_grammar {AK AV AK' AV'} render render'
  (g : Grammar name name AK AV) (g' : Grammar name name AK' AV') :
  built g -> built g' -> renders render -> renders render' ->
  readable (grammar_names (fun t => t) (fun n => n) g) -> readable (grammar_names (fun t => t) (fun n => n) g') ->
  to_pretty render g = to_pretty render' g' ->
  start_nt g = start_nt g' /\
  map (fun r => (r_head r, map pi_elements (r_prods r))) (rules g) =
  map (fun r => (r_head r, map pi_elements (r_prods r))) (rules g').
Proof. exact (same_text_same_grammar render render' g g'). Qed.

(** C79 as stated (different grammars have different texts) is false: neither action keys nor action values
    are printed, a terminal written in angle brackets looks like a nonterminal, and a terminal named by the sign
    for the empty body looks like an empty body. *)
Theorem C79_actions_lost_refuted : exists g g' : Grammar name name nat nat,
  built g /\ built g' /\ g <> g' /\ forall render, to_pretty render g = to_pretty render g'.
Proof. exact actions_lost. Qed.
Theorem C79_names_confused_refuted :
  (exists g g' : Grammar name name nat nat,
    built g /\ built g' /\ rhs_of g "S" [NonTerm "S"] /\ ~ rhs_of g' "S" [NonTerm "S"] /\
    to_pretty simple_render g = to_pretty simple_render g') /\
  (exists g g' : Grammar name name nat nat,
    built g /\ built g' /\ rhs_of g "S" [] /\ ~ rhs_of g' "S" [] /\
    to_pretty simple_render g = to_pretty simple_render g').
Proof. exact names_confused. Qed.

Print Assumptions C77_pretty_reads_back.
Print Assumptions C77_same_text_same_grammar.
Print Assumptions C78_pretty_tokens.
Print Assumptions C78_wrapped_tokens.
Print Assumptions C79_actions_lost_refuted.
Print Assumptions C79_names_confused_refuted.

Example renders_example : renders simple_render.
Proof. exact simple_renders. Qed.
Example pretty_example : built pretty_ex /\ readable (grammar_names (fun t => t) (fun n => n) pretty_ex).
Proof. exact pretty_ex_ok. Qed.
Example pretty_text : to_pretty simple_render pretty_ex =
  "Start = S, Rules { A => a | b | ε; S => left:<A> c <S> right:d | end; }, ".
Proof. vm_compute. reflexivity. Qed.
