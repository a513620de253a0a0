(** Properties of comparisons (C83). *)
From Coq Require Import String List NArith Arith.
From Verif.Model Require Import Ord BTree Outcome Utils Grammar StartGrammar Nullable NonNull Tree State Compare.
From Verif.Spec Require Import CmpSpec.
From Verif.Proofs Require Import OrdFacts CompareFacts.
Import ListNotations.

Section S.
  Context {T NT AK AV V : Type} (RT : Cmp T) (RN : Cmp NT) (RK : Cmp AK) (RA : Cmp AV) (RV : Cmp V).
  Hypotheses (LT : lawful RT) (LN : lawful RN) (LK : lawful RK) (LA : lawful RA) (LV : lawful RV).

  (** C83. If the user's symbol types are lawfully ordered, so is every data type of the crate built from
      them: [==], [partial_cmp] and [cmp] agree, [cmp] is a total order and only identical values are equal. *)
  Theorem C83_data_lawful :
    lawful C_Name /\ lawful C_Terminal /\ lawful C_NonTerminal /\ lawful C_WasChanged /\ lawful C_Void /\
    lawful (C_Elem RT RN) /\ lawful (C_ProdElement RT RN) /\ lawful (C_ProdKey RN RK) /\
    lawful (C_ProdInner RT RN RK RA) /\
    lawful (C_StreamTerminal RT) /\ lawful (C_StartNonTerminal RN) /\ lawful (C_StartActionKey RK) /\
    lawful (C_NNActionKey RK) /\ lawful (C_Content RT RK RV) /\
    lawful (C_TreeNode RK RV) /\ lawful (C_TreeValue RK RV).
  Proof.
    repeat apply conj;
      auto using lawful_string, lawful_WasChanged, lawful_Void, lawful_Elem, lawful_ProdElement, lawful_ProdKey,
        lawful_ProdInner, lawful_StreamTerminal, lawful_StartNonTerminal, lawful_StartActionKey,
        lawful_NNActionKey, lawful_Content, lawful_TreeNode, lawful_TreeValue.
  Qed.

  (** Which way round: the constructors in declaration order, fields from the first to the last. *)
  Theorem C83_order_exact :
    (forall t n, c_cmp (C_Elem RT RN) (Term t) (NonTerm n) = Lt) /\
    (forall t u, c_cmp (C_Elem RT RN) (Term t) (Term u) = c_cmp RT t u) /\
    (forall m n, c_cmp (C_Elem RT RN) (NonTerm m) (NonTerm n) = c_cmp RN m n) /\
    (forall t, c_cmp (C_StreamTerminal RT) EndOfStream (STerm t) = Lt) /\
    (forall t u, c_cmp (C_StreamTerminal RT) (STerm t) (STerm u) = c_cmp RT t u) /\
    (forall n, c_cmp (C_StartNonTerminal RN) Start (NTerm n) = Lt) /\
    (forall m n, c_cmp (C_StartNonTerminal RN) (NTerm m) (NTerm n) = c_cmp RN m n) /\
    (forall k, c_cmp (C_StartActionKey RK) StartKey (ActionKey k) = Lt) /\
    (forall k l, c_cmp (C_StartActionKey RK) (ActionKey k) (ActionKey l) = c_cmp RK k l) /\
    (forall n v, c_cmp (C_TreeValue RK RV) (TVNode n) (TVLeaf v) = Lt) /\
    (forall e f, c_cmp (C_ProdElement RT RN) (pe_new_empty e) (pe_new_empty f) = c_cmp (C_Elem RT RN) e f) /\
    (forall i e f, c_cmp (C_ProdElement RT RN) (pe_new_empty e) (pe_new_with_name i f) = Lt) /\
    (forall i j e f, c_cmp C_Name i j = Lt ->
       c_cmp (C_ProdElement RT RN) (pe_new_with_name i e) (pe_new_with_name j f) = Lt) /\
    (forall i e f, c_cmp (C_ProdElement RT RN) (pe_new_with_name i e) (pe_new_with_name i f) =
       c_cmp (C_Elem RT RN) e f) /\
    (forall x y p q, c_cmp RN x y = Lt -> c_cmp (C_ProdKey RN RK) {| pk_head := x; pk_action_key := p |}
                                            {| pk_head := y; pk_action_key := q |} = Lt) /\
    (forall x p q, c_cmp (C_ProdKey RN RK) {| pk_head := x; pk_action_key := p |}
                                            {| pk_head := x; pk_action_key := q |} = c_cmp RK p q).
  Proof.
    repeat apply conj; try reflexivity.
    - intros i j e f L. simpl in *. rewrite L. reflexivity.
    - intros i e f. simpl. rewrite (cmp_refl i). reflexivity.
    - intros x y p q L. simpl. rewrite L. reflexivity.
    - intros x p q. simpl. rewrite (proj2 (law_equal _ _ LN x x) eq_refl). reflexivity.
  Qed.
End S.

(** The maps and sets of the model use these orders. *)
Theorem C83_same_orders {T NT AK AV V : Type} `{Ord T} `{Ord NT} `{Ord AK} `{Ord V} (lay : layout NT) :
  (forall a b : Elem T NT, c_cmp (C_Elem C_of C_of) a b = cmp a b) /\
  (forall a b : ProdElement T NT, c_cmp (C_ProdElement C_of C_of) a b = cmp a b) /\
  (forall a b : StreamTerminal T, c_cmp (C_StreamTerminal C_of) a b = cmp a b) /\
  (forall a b : StartNonTerminal NT, c_cmp (C_StartNonTerminal C_of) a b = cmp a b) /\
  (forall a b : StartActionKey AK, c_cmp (C_StartActionKey C_of) a b = cmp a b) /\
  (forall a b : ContentInner T AK V, c_cmp (C_Content C_of C_of C_of) a b = cmp a b) /\
  (forall a b : ProdState T NT AK AV, c_cmp (C_ProdState lay) a b = Ord_ProdState lay a b).
Proof.
  repeat apply conj; [apply link_Elem | apply link_ProdElement | apply link_StreamTerminal | apply link_StartNonTerminal
                     | apply link_StartActionKey | apply link_Content | apply link_ProdState].
Qed.

(** References to trees, nodes, alternatives and contents, for any number of trees at different
    addresses: lawful, by index first and then by tree. *)
Theorem C83_handles_lawful (adr : TreeHandle -> N) :
  (forall a b, adr a = adr b -> a = b) ->
  lawful (C_TreeHandle adr) /\ lawful (C_Node adr) /\ lawful (C_Alternative adr) /\ lawful (C_NodeContent adr) /\
  (forall a b, nd_index a < nd_index b -> c_cmp (C_Node adr) a b = Lt) /\
  (forall a b, nd_index a = nd_index b -> c_cmp (C_Node adr) a b = c_cmp (C_TreeHandle adr) (nd_inner a) (nd_inner b)).
Proof.
  intro I. repeat apply conj; try apply lawful_TreeHandle; try apply lawful_Node; try apply lawful_Alternative;
    try apply lawful_NodeContent; auto.
  - intros a b L. simpl. rewrite (proj2 (Nat.compare_lt_iff _ _) L). reflexivity.
  - intros a b E. simpl. rewrite (proj2 (Nat.compare_eq_iff _ _) E). reflexivity.
Qed.

(** References into a grammar: productions are lawful by identity; positions are lawful, but all positions
    of one production are equal; sets of positions compare their productions. *)
Theorem C83_positions_lawful {T NT AK AV : Type} (lay : layout NT) :
  (forall A i B j, lay A i = lay B j -> A = B /\ i = j) ->
  lawful_upto (fun p q : Prod T NT AK AV => p_head p = p_head q /\ p_ix p = p_ix q) (C_Prod lay) /\
  lawful_upto (fun a b : ProdState T NT AK AV =>
      p_head (ps_prod a) = p_head (ps_prod b) /\ p_ix (ps_prod a) = p_ix (ps_prod b)) (C_ProdState lay) /\
  lawful_upto (Forall2 (fun a b : ProdState T NT AK AV =>
      p_head (ps_prod a) = p_head (ps_prod b) /\ p_ix (ps_prod a) = p_ix (ps_prod b))) (C_ProdStateSet lay).
Proof.
  intro I. split; [exact (lawful_Prod lay I) | split; [exact (lawful_ProdState lay I) | exact (lawful_ProdStateSet lay I)]].
Qed.

(** The wrappers: [NoCompare] is never unequal; [ParentRef] is equal or panics. *)
Theorem C83_wrappers {A : Type} :
  lawful_upto (fun _ _ : A => True) C_NoCompare /\ lawful C_RefCompare /\
  (forall a b, a = b -> parent_eq a b = Ret true /\ parent_cmp a b = Ret Eq /\ parent_partial a b = Ret (Some Eq)) /\
  (forall a b, a <> b -> (exists m, parent_eq a b = Panic m) /\ (exists m, parent_cmp a b = Panic m) /\
                         exists m, parent_partial a b = Panic m).
Proof.
  split; [exact lawful_NoCompare | split; [exact lawful_addr|]]. unfold parent_partial, parent_eq, parent_cmp. split.
  - intros a b ->. rewrite N.eqb_refl. simpl. auto.
  - intros a b D. apply N.eqb_neq in D. rewrite D. simpl. repeat split; eexists; reflexivity.
Qed.

(** Concrete cases: nested trees that differ in a deep leaf, a shorter map, and different trees' nodes. *)
Example C83_case_tree :
  let t v := TNode 1 [("a"%string, TVNode (TNode 2 [("x"%string, TVLeaf v)])); ("b"%string, TVLeaf 5)] in
  c_cmp (C_TreeNode C_usize C_usize) (t 3) (t 4) = Lt /\
  c_eq (C_TreeNode C_usize C_usize) (t 3) (t 4) = false /\
  c_eq (C_TreeNode C_usize C_usize) (t 3) (t 3) = true /\
  c_cmp (C_TreeNode C_usize C_usize) (t 3) (TNode 1 [("a"%string, TVNode (TNode 2 []))]) = Gt.
Proof. vm_compute. auto. Qed.
Example C83_case_nodes :
  let adr h := match h with 0 => 900%N | 1 => 16%N | n => (1000 + N.of_nat n)%N end in
  c_cmp (C_Node adr) {| nd_index := 2; nd_inner := 0 |} {| nd_index := 2; nd_inner := 1 |} = Gt /\
  c_cmp (C_Node adr) {| nd_index := 1; nd_inner := 0 |} {| nd_index := 2; nd_inner := 1 |} = Lt.
Proof. vm_compute. auto. Qed.

Print Assumptions C83_data_lawful.
Print Assumptions C83_order_exact.
Print Assumptions C83_same_orders.
Print Assumptions C83_handles_lawful.
Print Assumptions C83_positions_lawful.
Print Assumptions C83_wrappers.
