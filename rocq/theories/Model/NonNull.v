(** src/grammar/transform/nonnull.rs: rewriting a grammar so that no nonterminal derives the empty
    word. *)
From Coq Require Import String List.
From Verif.Model Require Import Ord BTree Outcome Utils Grammar Nullable.
Import ListNotations.
Local Open Scope string_scope.

(** nonnull.rs:63-67 [ActionKey]. *)
Record NNActionKey (AK : Type) := {
  nk_action : AK;
  nk_nullable_states : list bool
}.
Arguments nk_action {AK} _.
Arguments nk_nullable_states {AK} _.
Arguments Build_NNActionKey {AK} _ _.
(** nonnull.rs:63: derived [Ord], field by field. *)
#[export] Instance Ord_NNActionKey {AK} `{Ord AK} : Ord (NNActionKey AK) := fun a b =>
  then_cmp (cmp (nk_action a) (nk_action b)) (cmp (nk_nullable_states a) (nk_nullable_states b)).

(** nonnull.rs:84-88 [ActionValue]. *)
Record NNActionValue (NT AK AV : Type) := {
  nv_parent_value : AV;
  nv_nullable_arguments : btmap name (TreeNode (ProdKey NT AK) Void)
}.
Arguments nv_parent_value {NT AK AV} _.
Arguments nv_nullable_arguments {NT AK AV} _.
Arguments Build_NNActionValue {NT AK AV} _ _.

(** nonnull.rs:105-106 [NonNullGrammar]. *)
Definition NonNullGrammar (T NT AK AV : Type) :=
  Grammar T NT (NNActionKey AK) (NNActionValue NT AK AV).

(** nonnull.rs:138-143 [ProdBuildState]. *)
Record ProdBuildState (T NT AK : Type) := {
  bs_elems : list (ProdElement T NT);
  bs_nullable_states : list bool;
  bs_action_args : btmap name (TreeNode (ProdKey NT AK) Void)
}.
Arguments bs_elems {T NT AK} _.
Arguments bs_nullable_states {T NT AK} _.
Arguments bs_action_args {T NT AK} _.
Arguments Build_ProdBuildState {T NT AK} _ _ _.

(** The two ways [transform_to_nonnull] fails (nonnull.rs:120 [?] and 135 [map_err]); the error
    payloads ([anyhow::Error]) are not modelled. *)
Inductive NNError := NNNullable (e : NullableError) | NNBuild.

Section NonNull.
  Context {T NT AK AV : Type} `{Ord NT}.

  (** nonnull.rs:171-172, 190-191: push the element, and [false]. *)
  Definition nn_keep (e : ProdElement T NT) (s : ProdBuildState T NT AK) : ProdBuildState T NT AK :=
    Build_ProdBuildState (bs_elems s ++ [e]) (bs_nullable_states s ++ [false]) (bs_action_args s).

  (** nonnull.rs:175-182: the null version of the cloned state. *)
  Definition nn_drop (e : ProdElement T NT) (action : TreeNode (ProdKey NT AK) Void)
    (s : ProdBuildState T NT AK) : ProdBuildState T NT AK :=
    Build_ProdBuildState (bs_elems s) (bs_nullable_states s ++ [true])
      (match pe_id e with
       | Some id => bt_insert id action (bs_action_args s)
       | None => bs_action_args s
       end).

  (** nonnull.rs:196-200: a terminal is pushed. *)
  Definition nn_term (e : ProdElement T NT) (s : ProdBuildState T NT AK) : ProdBuildState T NT AK :=
    Build_ProdBuildState (bs_elems s ++ [e]) (bs_nullable_states s) (bs_action_args s).

  (** nonnull.rs:161-202: the body of the loop over the production's elements. *)
  Definition nn_step (info : GrammarNullableInfo NT AK) (states : list (ProdBuildState T NT AK))
    (e : ProdElement T NT) : list (ProdBuildState T NT AK) :=
    match pe_elem e with
    | NonTerm nt =>
        match get_nullable_action info nt with
        | Some action => map (nn_keep e) states ++ map (nn_drop e action) states
        | None => map (nn_keep e) states
        end
    | Term _ => map (nn_term e) states
    end.

  (** nonnull.rs:145-223 [build_nonnull_prods]: the [add_prod_with_elems] calls made on the rule
      builder. *)
  Definition build_nonnull_prods (info : GrammarNullableInfo NT AK) (prod : Prod T NT AK AV)
    : list (rb_call T NT (NNActionKey AK) (NNActionValue NT AK AV)) :=
    map (fun s => AddProdWithElems
            (Build_NNActionKey (action_key prod) (bs_nullable_states s))
            (Build_NNActionValue (action_value prod) (bs_action_args s))
            (bs_elems s))
      (fold_left (nn_step info) (prod_elements prod) [Build_ProdBuildState [] [] []]).

  (** nonnull.rs:123-133: the [add_rule] call for one entry of [g.rule_set()] (base.rs:401-407). *)
  Definition nn_rule_call (info : GrammarNullableInfo NT AK) (entry : NT * RuleInner T NT AK AV)
    : gb_call T NT (NNActionKey AK) (NNActionValue NT AK AV) :=
    AddRule (fst entry)
      (flat_map (fun prod => if is_prod_nullable info prod then [] else build_nonnull_prods info prod)
         (rule_prods (snd entry))).

  (** nonnull.rs:110-136 [transform_to_nonnull].  The fresh [PassContext] is used for one
      [get_pass::<Nullable>()], i.e. one run of [calculate_nullables] (see [Model/Passes.v]). *)
  Definition transform_to_nonnull (lay : layout NT) (g : Grammar T NT AK AV) (fuel : nat)
    : outcome (result (NonNullGrammar T NT AK AV) NNError) :=
    nullable <- calculate_nullables lay g fuel ;;
    match nullable with
    | Err e => Ret (Err (NNNullable e))
    | Ok info =>
        r <- build (start_nt g) (map (nn_rule_call info) (rule_set g)) fuel ;;
        Ret (match r with Ok g' => Ok g' | Err _ => Err NNBuild end)
    end.
End NonNull.
