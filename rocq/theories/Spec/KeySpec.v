(** Derivations that name their productions, and the action trees that show them. *)
From Coq Require Import List.
From Verif.Model Require Import Ord BTree Outcome Grammar Tokens.
From Verif.Spec Require Import EarleySpec.
Import ListNotations.

(** A derivation: at every inner node the nonterminal and the position of the production in its rule. *)
Inductive deriv (T NT V : Type) :=
| DLeaf (kind : T) (value : V)
| DNode (head : NT) (ix : nat) (children : list (deriv T NT V)).
Arguments DLeaf {T NT V} kind value.
Arguments DNode {T NT V} head ix children.

Section Der.
  Context {T NT AK AV V : Type} `{Ord NT}.
  Variable g : Grammar T NT AK AV.

  (** [der e ts d t]: [d] derives the tokens [ts] from the symbol [e], and [t] is what a parse tree shows of
      it: action keys instead of productions. *)
  Inductive der : Elem T NT -> list (Token T V) -> deriv T NT V -> ptree T AK V -> Prop :=
  | der_leaf k v : der (Term k) [Build_Token k v] (DLeaf k v) (PLeaf k v)
  | der_node A r i p ts ds cs : try_get_rule g A = Some r -> nth_error (r_prods r) i = Some p ->
      ders (map pe_elem (pi_elements p)) ts ds cs ->
      der (NonTerm A) ts (DNode A i ds) (PBranch (pi_action_key p) cs)
  with ders : list (Elem T NT) -> list (Token T V) -> list (deriv T NT V) -> list (ptree T AK V) -> Prop :=
  | ders_nil : ders [] [] [] []
  | ders_cons e es ts us d ds c cs : der e ts d c -> ders es us ds cs -> ders (e :: es) (ts ++ us) (d :: ds) (c :: cs).

  (** No two productions of a rule have the same action key. *)
  Definition keys_distinct : Prop := forall r, In r (rules g) -> NoDup (map pi_action_key (r_prods r)).
End Der.

(** The same builder calls with other action keys and values. *)
Definition relabel_prod {T NT AK AV AK' AV'} (fk : AK -> AK') (fv : AV -> AV') (c : rb_call T NT AK AV) : rb_call T NT AK' AV' :=
  match c with
  | AddProd k v cs => AddProd (fk k) (fv v) cs
  | AddProdWithElems k v es => AddProdWithElems (fk k) (fv v) es
  end.
Definition relabel_rule {T NT AK AV AK' AV'} (fk : AK -> AK') (fv : AV -> AV') (c : gb_call T NT AK AV) : gb_call T NT AK' AV' :=
  match c with AddRule A rcs => AddRule A (map (relabel_prod fk fv) rcs) end.
