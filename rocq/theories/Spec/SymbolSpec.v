(** Replacing the symbols and actions of a grammar by the keys they are compared by.  Unlike in RenameSpec.v different
    symbols may get one key, and nothing is sorted again. *)
From Coq Require Import List.
From Verif.Model Require Import Ord BTree Outcome Utils Grammar StartGrammar Nullable NonNull Tokens.
From Verif.Spec Require Import Cfg BuildSpec RenameSpec.
Import ListNotations.

Definition map_result {A B E E'} (f : A -> B) (h : E -> E') (r : result A E) : result B E' :=
  match r with Ok a => Ok (f a) | Err e => Err (h e) end.

Section SymbolSpec.
  Context {T NT AK AV T' NT' AK' AV' : Type}.
  Variables (fT : T -> T') (fN : NT -> NT') (fK : AK -> AK') (fV : AV -> AV').

  (** Maps and sets entry by entry. *)
  Definition key_map {K K' X Y} (fK : K -> K') (f : X -> Y) (m : btmap K X) : btmap K' Y := map (fun kv => (fK (fst kv), f (snd kv))) m.
  Definition key_grammar (g : Grammar T NT AK AV) : Grammar T' NT' AK' AV' :=
    Build_Grammar (fN (start_symbol g)) (key_map fN (ren_rule fT fN fK fV) (rule_set g)).
  Definition key_errors (e : GrammarErrors NT) : GrammarErrors NT' :=
    Build_GrammarErrors (map fN (unreachable_nonterms e)) (map fN (nonterms_without_rules e)) (map fN (rules_without_prods e)).

  (** The symbols and actions of a wrapped grammar. *)
  Definition start_t (t : StreamTerminal T) : StreamTerminal T' := match t with EndOfStream => EndOfStream | STerm t => STerm (fT t) end.
  Definition start_n (A : StartNonTerminal NT) : StartNonTerminal NT' := match A with Start => Start | NTerm A => NTerm (fN A) end.
  Definition start_k (k : StartActionKey AK) : StartActionKey AK' := match k with StartKey => StartKey | ActionKey k => ActionKey (fK k) end.
  Definition start_v (v : StartActionValue AV) : StartActionValue AV' := match v with StartValue => StartValue | ActionValue v => ActionValue (fV v) end.
End SymbolSpec.

(** The words a grammar derives if symbols that compare equal are taken as one: a nonterminal is rewritten by the rule of
    an equal head, and a terminal stands for every equal kind. *)
Section Upto.
  Context {T NT AK AV : Type} `{Ord T} `{Ord NT} (g : Grammar T NT AK AV).
  Inductive gen_upto : list (Elem T NT) -> list T -> Prop :=
  | upto_nil : gen_upto [] []
  | upto_term t t' es w : cmp t t' = Eq -> gen_upto es w -> gen_upto (Term t :: es) (t' :: w)
  | upto_nonterm A A' rhs es u w : cmp A A' = Eq -> rhs_of g A' rhs -> gen_upto rhs u -> gen_upto es w ->
      gen_upto (NonTerm A :: es) (u ++ w).
  Definition lang_upto (A : NT) (w : list T) : Prop := gen_upto [NonTerm A] w.
End Upto.

(** The two functions run alike, loop round for loop round: with every amount of fuel the second does what the first does,
    and returns the image of what it returns. *)
Definition same_run {A B} (h : A -> B) (f : nat -> outcome A) (f' : nat -> outcome B) : Prop :=
  forall fuel, f' fuel = match f fuel with Ret a => Ret (h a) | Panic m => Panic m | NoFuel => NoFuel end.
