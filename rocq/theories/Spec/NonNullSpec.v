(** What removing empty productions should mean, independent of the transformation's code. *)
From Coq Require Import List Sorted.
From Verif.Model Require Import Ord BTree Grammar Nullable NonNull.
From Verif.Spec Require Import Reach Cfg NullSpec.
Import ListNotations.

Section NonNullSpec.
  Context {T NT AK AV : Type}.
  Variable g : Grammar T NT AK AV.

  (** [choice es flags kept dropped]: [kept] is [es] without some nonterminals that derive the empty
      word; [dropped] are those; [flags] says for each nonterminal occurrence whether it is dropped. *)
  Inductive choice : list (ProdElement T NT) -> list bool -> list (ProdElement T NT) ->
                     list (ProdElement T NT) -> Prop :=
  | ch_nil : choice [] [] [] []
  | ch_term e t es fl k d :
      pe_elem e = Term t -> choice es fl k d -> choice (e :: es) fl (e :: k) d
  | ch_keep e B es fl k d :
      pe_elem e = NonTerm B -> choice es fl k d -> choice (e :: es) (false :: fl) (e :: k) d
  | ch_drop e B es fl k d :
      pe_elem e = NonTerm B -> derives_empty g B ->
      choice es fl k d -> choice (e :: es) (true :: fl) k (e :: d).

  (** [q] is a null-free variant of the production [p]. *)
  Definition is_variant (p : ProdInner T NT AK AV)
    (q : ProdInner T NT (NNActionKey AK) (NNActionValue NT AK AV)) : Prop :=
    exists fl k d, choice (pi_elements p) fl k d /\
      pi_elements q = k /\
      pi_action_key q = Build_NNActionKey (pi_action_key p) fl /\
      nv_parent_value (pi_action_value q) = pi_action_value p /\
      StronglySorted (fun a b => cmp a b = Lt) (map fst (nv_nullable_arguments (pi_action_value q))) /\
      (forall id t, In (id, t) (nv_nullable_arguments (pi_action_value q)) <->
         exists B, last_named d id B /\ null_tree g B t).

  (** All variants of a production, each once; none for one that derives the empty word. *)
  Definition variants (p : ProdInner T NT AK AV)
    (qs : list (ProdInner T NT (NNActionKey AK) (NNActionValue NT AK AV))) : Prop :=
    (body_derives_empty g p /\ qs = []) \/
    (~ body_derives_empty g p /\ NoDup qs /\
     (forall fl k d, choice (pi_elements p) fl k d ->
        exists q, In q qs /\ nk_nullable_states (pi_action_key q) = fl /\
          forall q', In q' qs -> nk_nullable_states (pi_action_key q') = fl -> q' = q) /\
     forall q, In q qs <-> is_variant p q).

  (** [B] occurs in a body of [A] that does not derive the empty word. *)
  Definition kept_mentions (A B : NT) : Prop :=
    exists p, prod_of g A p /\ ~ body_derives_empty g p /\ In (NonTerm B) (map pe_elem (pi_elements p)).

  (** The rewritten rules would be rejected by [build]. *)
  Definition nonnull_rejected : Prop :=
    (exists A r, In (A, r) (rule_set g) /\ forall p, In p (r_prods r) -> body_derives_empty g p) \/
    (exists A B, kept_mentions A B /\ ~ plus kept_mentions (start_symbol g) B).

  (** Derivations in which a production deriving the empty word is used for the empty word only. *)
  Inductive strict : list (Elem T NT) -> list T -> Prop :=
  | st_nil : strict [] []
  | st_term t es w : strict es w -> strict (Term t :: es) (t :: w)
  | st_empty A es w : derives_empty g A -> strict es w -> strict (NonTerm A :: es) w
  | st_node A p es u w :
      prod_of g A p -> ~ body_derives_empty g p ->
      strict (map pe_elem (pi_elements p)) u -> strict es w -> strict (NonTerm A :: es) (u ++ w).

  (** Productions deriving the empty word derive nothing else. *)
  Definition null_prods_pure : Prop := forall A p w,
    prod_of g A p -> body_derives_empty g p -> gen (rhs_of g) (map pe_elem (pi_elements p)) w -> w = [].

  (** Only the empty body derives the empty word. *)
  Definition null_bodies_empty : Prop := forall A p, prod_of g A p -> body_derives_empty g p -> pi_elements p = [].
  (** Every nonterminal with a rule derives a word. *)
  Definition productive : Prop := forall A rhs, rhs_of g A rhs -> exists w, lang (rhs_of g) A w.

  (** [q] is [p] with the same elements, a key saying that nothing was dropped, and no recorded arguments. *)
  Definition relabelled (p : ProdInner T NT AK AV) (q : ProdInner T NT (NNActionKey AK) (NNActionValue NT AK AV)) : Prop :=
    pi_elements q = pi_elements p /\
    pi_action_key q = Build_NNActionKey (pi_action_key p) (map (fun _ => false) (filter_map as_nonterm (map pe_elem (pi_elements p)))) /\
    nv_parent_value (pi_action_value q) = pi_action_value p /\ nv_nullable_arguments (pi_action_value q) = [].
End NonNullSpec.
