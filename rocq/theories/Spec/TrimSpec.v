(** Derivation trees before and after removing the empty productions, independent of the transformation's code. *)
From Coq Require Import List.
From Verif.Model Require Import Ord Grammar Tokens NonNull.
From Verif.Spec Require Import Cfg NullSpec EarleySpec.
Import ListNotations.

Section Trim.
  Context {T AK V : Type}.

  (** The tree derives the empty word: it has no leaves. *)
  Definition empty_tree {K} (t : ptree T K V) : bool := match yield t with [] => true | _ => false end.

  (** The tree without its empty subtrees.  Every branch keeps its action, and gets for each of its nonterminal
      children, from left to right, whether it was empty. *)
  Fixpoint trim (t : ptree T AK V) : ptree T (NNActionKey AK) V :=
    match t with
    | PLeaf k v => PLeaf k v
    | PBranch a cs =>
        PBranch (Build_NNActionKey a (flat_map (fun c => match c with PLeaf _ _ => [] | PBranch _ _ => [empty_tree c] end) cs))
                (flat_map (fun c => if empty_tree c then [] else [trim c]) cs)
    end.
End Trim.

Section Strict.
  Context {T NT AK AV V : Type}.
  Variable g : Grammar T NT AK AV.

  (** Derivation trees in which a production deriving the empty word is used for the empty word only. *)
  Inductive stree : Elem T NT -> list (Token T V) -> ptree T AK V -> Prop :=
  | stree_leaf k v : stree (Term k) [Build_Token k v] (PLeaf k v)
  | stree_branch A p ts cs : prod_of g A p -> (body_derives_empty g p -> ts = []) ->
      strees (map pe_elem (pi_elements p)) ts cs ->
      stree (NonTerm A) ts (PBranch (pi_action_key p) cs)
  with strees : list (Elem T NT) -> list (Token T V) -> list (ptree T AK V) -> Prop :=
  | strees_nil : strees [] [] []
  | strees_cons e es ts us c cs : stree e ts c -> strees es us cs -> strees (e :: es) (ts ++ us) (c :: cs).

  (** Productions of one rule have different action keys. *)
  Definition keys_distinct : Prop := forall A r, In (A, r) (rule_set g) -> NoDup (map pi_action_key (r_prods r)).
End Strict.
