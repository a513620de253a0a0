(** A program over the public calls that cleans a grammar: it builds a new grammar from the productions of the old one
    that can occur in a derivation of a word. *)
From Coq Require Import List Bool.
From Verif.Model Require Import Ord BTree Outcome Utils Grammar.
From Verif.Spec Require Import Cfg GrammarTestSpec.
Import ListNotations.

Section Clean.
  Context {T NT AK AV : Type} `{Ord T} `{Ord NT}.
  Variable g : Grammar T NT AK AV.

  (** The productions of the rule all of whose nonterminals are in [s]. *)
  Definition kept_prods (s : btset NT) (r : RuleInner T NT AK AV) : list (Prod T NT AK AV) :=
    filter (fun p => forallb (fun B => bs_mem B s) (filter_map as_nonterm (elements p))) (rule_prods r).
  Definition kept_next (s : btset NT) (A : NT) : list NT :=
    match try_get_rule g A with
    | Some r => filter_map as_nonterm (flat_map elements (kept_prods s r))
    | None => []
    end.
  (** The builder calls for the heads in [k]. *)
  Definition kept_call (p : Prod T NT AK AV) : rb_call T NT AK AV := AddProdWithElems (action_key p) (action_value p) (prod_elements p).
  Definition kept_calls (s k : btset NT) : list (gb_call T NT AK AV) :=
    map (fun r => AddRule (r_head r) (map kept_call (kept_prods s r))) (filter (fun r => bs_mem (r_head r) k) (rules g)).
  (** [None] if the start symbol derives no word. *)
  Definition clean (fuel : nat) : outcome (option (result (Grammar T NT AK AV) (GrammarErrors NT))) :=
    s <- usable g fuel ;;
    if bs_mem (start_nt g) s then
      k <- breadth_first_search [start_nt g] (fun A => Ret (kept_next s A)) fuel ;;
      r <- build (start_nt g) (kept_calls s (bs_add (start_nt g) k)) fuel ;;
      Ret (Some r)
    else Ret None.
End Clean.

(** The production is used in some derivation of a word from the start symbol. *)
Definition used {T NT AK AV} (g : Grammar T NT AK AV) (A : NT) (p : ProdInner T NT AK AV) : Prop :=
  prod_of g A p /\
  exists pre post u, derives_form (rhs_of g) [NonTerm (start_nt g)] (pre ++ NonTerm A :: post) /\
    gen (rhs_of g) (pre ++ map pe_elem (pi_elements p) ++ post) u.
