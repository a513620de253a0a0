(** Renaming the symbols and actions of a grammar. *)
From Coq Require Import List.
From Verif.Model Require Import Ord BTree Outcome Utils Grammar Nullable NonNull Tokens.
From Verif.Spec Require Import BuildSpec.
Import ListNotations.

Section RenameSpec.
  Context {T NT AK AV T' NT' AK' AV' : Type} `{Ord NT'}.
  Variables (fT : T -> T') (fN : NT -> NT') (fK : AK -> AK') (fV : AV -> AV').

  Definition ren_elem (e : Elem T NT) : Elem T' NT' :=
    match e with Term t => Term (fT t) | NonTerm A => NonTerm (fN A) end.
  Definition ren_pe (e : ProdElement T NT) : ProdElement T' NT' := Build_ProdElement (pe_id e) (ren_elem (pe_elem e)).
  Definition ren_prod (p : ProdInner T NT AK AV) : ProdInner T' NT' AK' AV' :=
    Build_ProdInner (fK (pi_action_key p)) (fV (pi_action_value p)) (map ren_pe (pi_elements p)).
  Definition ren_rule (r : RuleInner T NT AK AV) : RuleInner T' NT' AK' AV' :=
    Build_RuleInner (fN (r_head r)) (map ren_prod (r_prods r)).

  (** The builder calls with renamed symbols and actions. *)
  Definition ren_pb (c : pb_call T NT) : pb_call T' NT' :=
    match c with
    | AddTerm t => AddTerm (fT t)
    | AddNamedTerm n t => AddNamedTerm n (fT t)
    | AddNonterm A => AddNonterm (fN A)
    | AddNamedNonterm n A => AddNamedNonterm n (fN A)
    end.
  Definition ren_rb (c : rb_call T NT AK AV) : rb_call T' NT' AK' AV' :=
    match c with
    | AddProd k v cs => AddProd (fK k) (fV v) (map ren_pb cs)
    | AddProdWithElems k v es => AddProdWithElems (fK k) (fV v) (map ren_pe es)
    end.
  Definition ren_gb (c : gb_call T NT AK AV) : gb_call T' NT' AK' AV' :=
    match c with AddRule A rcs => AddRule (fN A) (map ren_rb rcs) end.

  (** The image of a map or set whose keys are nonterminals; it is sorted again. *)
  Definition ren_map {X Y} (f : X -> Y) (m : btmap NT X) : btmap NT' Y :=
    bt_of_list (map (fun kv => (fN (fst kv), f (snd kv))) m).
  Definition ren_grammar (g : Grammar T NT AK AV) : Grammar T' NT' AK' AV' :=
    Build_Grammar (fN (start_symbol g)) (ren_map ren_rule (rule_set g)).
  Definition ren_errors (e : GrammarErrors NT) : GrammarErrors NT' :=
    Build_GrammarErrors (bs_of_list (map fN (unreachable_nonterms e))) (bs_of_list (map fN (nonterms_without_rules e)))
      (bs_of_list (map fN (rules_without_prods e))).

  (** Action trees: only the production keys mention symbols. *)
  Definition ren_key (k : ProdKey NT AK) : ProdKey NT' AK' := Build_ProdKey (fN (pk_head k)) (fK (pk_action_key k)).
  Fixpoint ren_tree (t : TreeNode (ProdKey NT AK) Void) : TreeNode (ProdKey NT' AK') Void :=
    match t with TNode k ps => TNode (ren_key k) (map (fun nv => (fst nv, ren_value (snd nv))) ps) end
  with ren_value (v : TreeValue (ProdKey NT AK) Void) : TreeValue (ProdKey NT' AK') Void :=
    match v with TVNode t => TVNode (ren_tree t) | TVLeaf x => TVLeaf x end.
  Definition ren_info : GrammarNullableInfo NT AK -> GrammarNullableInfo NT' AK' := ren_map ren_tree.

  (** The actions of the null-free grammar. *)
  Definition ren_nk (k : NNActionKey AK) : NNActionKey AK' := Build_NNActionKey (fK (nk_action k)) (nk_nullable_states k).
  Definition ren_nv (v : NNActionValue NT AK AV) : NNActionValue NT' AK' AV' :=
    Build_NNActionValue (fV (nv_parent_value v)) (map (fun a => (fst a, ren_tree (snd a))) (nv_nullable_arguments v)).
End RenameSpec.
