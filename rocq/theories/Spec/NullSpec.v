(** The empty word: derivability, derivation trees, and the action tree of the empty derivation. *)
From Coq Require Import List Sorted NArith.
From Verif.Model Require Import Ord BTree Grammar Nullable.
From Verif.Spec Require Import Cfg.
Import ListNotations.

Section NullSpec.
  Context {T NT AK AV : Type}.
  Variable g : Grammar T NT AK AV.

  (** The [ix]-th production of [A] is [p]. *)
  Definition nth_prod (A : NT) (ix : nat) (p : ProdInner T NT AK AV) : Prop :=
    exists r, In (A, r) (rule_set g) /\ nth_error (r_prods r) ix = Some p.

  (** Different productions of [g] live at different addresses (all that is assumed about memory). *)
  Definition lay_inj (lay : layout NT) : Prop := forall A i p B j q,
    nth_prod A i p -> nth_prod B j q -> lay A i = lay B j -> A = B /\ i = j.

  (** Where the productions of a grammar really are: those of one rule are the elements of one [Vec], one after
      the other, [size] bytes each, and the [Vec]s of different rules do not overlap
      (src/grammar/base.rs: [RuleInner::prods], [Grammar::rule_set]). *)
  Definition in_memory (lay : layout NT) : Prop := exists (size : N) (base : NT -> N), (0 < size)%N /\
    (forall A i p, nth_prod A i p -> lay A i = (base A + N.of_nat i * size)%N) /\
    (forall A r B r', In (A, r) (rule_set g) -> In (B, r') (rule_set g) -> A <> B ->
       (base A + N.of_nat (length (r_prods r)) * size <= base B)%N \/ (base B + N.of_nat (length (r_prods r')) * size <= base A)%N).

  (** [A] derives the empty word. *)
  Definition derives_empty (A : NT) : Prop := lang (rhs_of g) A [].
  (** The body of a production derives the empty word. *)
  Definition body_derives_empty (p : ProdInner T NT AK AV) : Prop :=
    gen (rhs_of g) (map pe_elem (pi_elements p)) [].

  (** Some nonterminal has two productions deriving the empty word. *)
  Definition null_ambiguous : Prop :=
    exists A i j p q, nth_prod A i p /\ nth_prod A j q /\ i <> j /\
      body_derives_empty p /\ body_derives_empty q.

  (** Derivation trees of the empty word: production number and one subtree per symbol. *)
  Inductive etree := ENode (ix : nat) (children : list etree).
  Inductive etree_of : NT -> etree -> Prop :=
  | etree_intro A ix p cs :
      nth_prod A ix p -> etrees_of (map pe_elem (pi_elements p)) cs -> etree_of A (ENode ix cs)
  with etrees_of : list (Elem T NT) -> list etree -> Prop :=
  | etrees_nil : etrees_of [] []
  | etrees_cons A es c cs : etree_of A c -> etrees_of es cs -> etrees_of (NonTerm A :: es) (c :: cs).

  (** The last element named [id] is the nonterminal [B]. *)
  Definition last_named (es : list (ProdElement T NT)) (id : name) (B : NT) : Prop :=
    exists pre post, es = pre ++ Build_ProdElement (Some id) (NonTerm B) :: post /\
      forall e, In e post -> pe_id e = Some id -> False.

  (** The action tree of an empty derivation of [A]; its parameters form a map, listed in increasing
      order of names. *)
  Inductive null_tree : NT -> TreeNode (ProdKey NT AK) Void -> Prop :=
  | null_tree_intro A p params :
      prod_of g A p -> body_derives_empty p ->
      StronglySorted (fun a b => cmp a b = Lt) (map fst params) ->
      (forall id v, In (id, v) params ->
         exists B t, last_named (pi_elements p) id B /\ v = TVNode t /\ null_tree B t) ->
      (forall id B, last_named (pi_elements p) id B -> exists v, In (id, v) params) ->
      null_tree A (TNode (Build_ProdKey A (pi_action_key p)) params).
End NullSpec.
