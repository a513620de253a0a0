(** src/start_grammar.rs: wrapping a grammar with a start production and end-of-stream. *)
From Coq Require Import String List.
From Verif.Model Require Import Ord BTree Outcome Utils Grammar.
Import ListNotations.
Local Open Scope string_scope.

(** src/start_grammar.rs:18-21 [StreamTerminal]. *)
Inductive StreamTerminal (T : Type) := EndOfStream | STerm (t : T).
Arguments EndOfStream {T}.
Arguments STerm {T} t.

(** src/start_grammar.rs:58-61 [StartNonTerminal]. *)
Inductive StartNonTerminal (NT : Type) := Start | NTerm (nt : NT).
Arguments Start {NT}.
Arguments NTerm {NT} nt.

(** src/start_grammar.rs:82-85 [StartActionKey]. *)
Inductive StartActionKey (AK : Type) := StartKey | ActionKey (ak : AK).
Arguments StartKey {AK}.
Arguments ActionKey {AK} ak.

(** src/start_grammar.rs:115-118 [StartActionValue]. *)
Inductive StartActionValue (AV : Type) := StartValue | ActionValue (av : AV).
Arguments StartValue {AV}.
Arguments ActionValue {AV} av.

(** [derive(PartialOrd, Ord)] (start_grammar.rs:17, 57, 81): the added constructor first. *)
#[export] Instance Ord_StreamTerminal {T} `{Ord T} : Ord (StreamTerminal T) := fun a b =>
  match a, b with
  | EndOfStream, EndOfStream => Eq
  | EndOfStream, STerm _ => Lt
  | STerm _, EndOfStream => Gt
  | STerm x, STerm y => cmp x y
  end.
#[export] Instance Ord_StartNonTerminal {NT} `{Ord NT} : Ord (StartNonTerminal NT) := fun a b =>
  match a, b with
  | Start, Start => Eq
  | Start, NTerm _ => Lt
  | NTerm _, Start => Gt
  | NTerm x, NTerm y => cmp x y
  end.
#[export] Instance Ord_StartActionKey {AK} `{Ord AK} : Ord (StartActionKey AK) := fun a b =>
  match a, b with
  | StartKey, StartKey => Eq
  | StartKey, ActionKey _ => Lt
  | ActionKey _, StartKey => Gt
  | ActionKey x, ActionKey y => cmp x y
  end.

(** src/start_grammar.rs:27-32 [has_kind]; 34-36 [is_eos]. *)
Definition has_kind {T} `{Ord T} (t : StreamTerminal T) (kind : T) : bool :=
  match t with STerm t => eqb t kind | EndOfStream => false end.
Definition is_eos {T} (t : StreamTerminal T) : bool :=
  match t with EndOfStream => true | STerm _ => false end.

(** src/start_grammar.rs:88-93 [as_base]. *)
Definition as_base {AK} (k : StartActionKey AK) : option AK :=
  match k with StartKey => None | ActionKey ak => Some ak end.

(** src/start_grammar.rs:138-143 [StartGrammar]. *)
Definition StartGrammar (T NT AK AV : Type) :=
  Grammar (StreamTerminal T) (StartNonTerminal NT) (StartActionKey AK) (StartActionValue AV).

Section Wrap.
  Context {T NT AK AV : Type} `{Ord NT}.

  (** src/start_grammar.rs:150-159 [start_rule]; 161-171 [start_prod]. *)
  Definition start_rule (g : StartGrammar T NT AK AV) := get_rule g Start.
  Definition start_prod (g : StartGrammar T NT AK AV) :=
    rule <- start_rule g ;;
    expect (take_only (rule_prods rule)) "The start rule should only have a single production.".

  (** src/start_grammar.rs:174-181 [base_elem_to_start_elem]. *)
  Definition base_elem_to_start_elem (e : Elem T NT) : Elem (StreamTerminal T) (StartNonTerminal NT) :=
    match e with
    | Term t => Term (STerm t)
    | NonTerm nt => NonTerm (NTerm nt)
    end.

  (** src/start_grammar.rs:212-217: mapping one production element. *)
  Definition wrap_elem (e : ProdElement T NT) : ProdElement (StreamTerminal T) (StartNonTerminal NT) :=
    pe_new (pe_id e) (base_elem_to_start_elem (pe_elem e)).

  (** src/start_grammar.rs:193-201: the builder call for the start rule. *)
  Definition wrap_start_call (g : Grammar T NT AK AV)
    : gb_call (StreamTerminal T) (StartNonTerminal NT) (StartActionKey AK) (StartActionValue AV) :=
    AddRule Start
      [AddProd StartKey StartValue
         [AddNamedNonterm "start" (NTerm (start_nt g)); AddTerm EndOfStream]].

  (** src/start_grammar.rs:204-221: the builder call for one rule of the wrapped grammar. *)
  Definition wrap_rule_call (r : RuleInner T NT AK AV)
    : gb_call (StreamTerminal T) (StartNonTerminal NT) (StartActionKey AK) (StartActionValue AV) :=
    AddRule (NTerm (r_head r))
      (map (fun p => AddProdWithElems (ActionKey (action_key p)) (ActionValue (action_value p))
              (map wrap_elem (prod_elements p))) (rule_prods r)).

  (** src/start_grammar.rs:183-224 [wrap_grammar_with_start]. *)
  Definition wrap_grammar_with_start (g : Grammar T NT AK AV) (fuel : nat)
    : outcome (result (StartGrammar T NT AK AV) (GrammarErrors (StartNonTerminal NT))) :=
    build Start (wrap_start_call g :: map wrap_rule_call (rules g)) fuel.
End Wrap.
