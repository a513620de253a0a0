(** [PartialEq], [PartialOrd] and [Ord] of the crate's types: three functions per type, as the code (or what
    [derive] generates for it) computes them.  The other model files use only [Ord]; this file models all
    three, so that their agreement can be stated. *)
From Coq Require Import String List Bool Arith NArith.
From Verif.Model Require Import Ord BTree Outcome Utils Grammar StartGrammar Nullable NonNull Tree State.
Import ListNotations.

(** A type's [==], [partial_cmp] and [cmp]. *)
Record Cmp (A : Type) := {
  c_eq : A -> A -> bool;
  c_partial : A -> A -> option comparison;
  c_cmp : A -> A -> comparison
}.
Arguments c_eq {A} _ _ _.
Arguments c_partial {A} _ _ _.
Arguments c_cmp {A} _ _ _.
Arguments Build_Cmp {A} _ _ _.

(** The chain generated by [derive(PartialOrd)] for consecutive fields. *)
Definition then_partial (c d : option comparison) : option comparison :=
  match c with Some Eq => d | _ => c end.

(** * The standard library's *)

(** [usize], raw pointers, [bool] ([false] < [true]), [String] (bytes; [Rc] compares contents). *)
Definition C_usize : Cmp nat :=
  Build_Cmp Nat.eqb (fun a b => Some (Nat.compare a b)) Nat.compare.
Definition C_addr : Cmp N := Build_Cmp N.eqb (fun a b => Some (N.compare a b)) N.compare.
Definition C_bool : Cmp bool :=
  Build_Cmp Bool.eqb (fun a b => Some (cmp a b)) cmp.
Definition C_string : Cmp string :=
  Build_Cmp String.eqb (fun a b => Some (cmp a b)) cmp.

(** Pairs: field by field. *)
Definition C_pair {A B} (RA : Cmp A) (RB : Cmp B) : Cmp (A * B) :=
  Build_Cmp (fun x y => c_eq RA (fst x) (fst y) && c_eq RB (snd x) (snd y))
            (fun x y => then_partial (c_partial RA (fst x) (fst y)) (c_partial RB (snd x) (snd y)))
            (fun x y => then_cmp (c_cmp RA (fst x) (fst y)) (c_cmp RB (snd x) (snd y))).

(** [Option]: [None] first. *)
Definition C_option {A} (RA : Cmp A) : Cmp (option A) :=
  Build_Cmp
    (fun x y => match x, y with Some a, Some b => c_eq RA a b | None, None => true | _, _ => false end)
    (fun x y => match x, y with
                | Some a, Some b => c_partial RA a b
                | None, None => Some Eq | None, Some _ => Some Lt | Some _, None => Some Gt
                end)
    (fun x y => match x, y with
                | Some a, Some b => c_cmp RA a b
                | None, None => Eq | None, Some _ => Lt | Some _, None => Gt
                end).

(** [Vec], [im::Vector], [BTreeSet]; [BTreeMap] is this on its (key, value) pairs: equal lengths and
    elements; [Iterator::partial_cmp], [Iterator::cmp]. *)
Definition all_eq {A} (f : A -> A -> bool) : list A -> list A -> bool :=
  fix go p q := match p, q with
                | a :: p', b :: q' => f a b && go p' q'
                | _, _ => true
                end.
Definition iter_partial {A} (f : A -> A -> option comparison) : list A -> list A -> option comparison :=
  fix go p q := match p, q with
                | [], [] => Some Eq
                | [], _ :: _ => Some Lt
                | _ :: _, [] => Some Gt
                | a :: p', b :: q' => then_partial (f a b) (go p' q')
                end.
Definition iter_cmp {A} (f : A -> A -> comparison) : list A -> list A -> comparison :=
  fix go p q := match p, q with
                | [], [] => Eq
                | [], _ :: _ => Lt
                | _ :: _, [] => Gt
                | a :: p', b :: q' => then_cmp (f a b) (go p' q')
                end.
Definition C_vec {A} (RA : Cmp A) : Cmp (list A) :=
  Build_Cmp (fun p q => Nat.eqb (length p) (length q) && all_eq (c_eq RA) p q)
            (iter_partial (c_partial RA))
            (iter_cmp (c_cmp RA)).

(** * Derived for the crate's data *)

(** utils.rs:73 [Name] (one field, an [Rc<String>]); element_types.rs:6 [Terminal], 24 [NonTerminal] (one
    field, a [Name]). *)
Definition C_Name : Cmp name := C_string.
Definition C_Terminal : Cmp name := C_Name.
Definition C_NonTerminal : Cmp name := C_Name.

(** utils.rs:148 [Void]: no values. *)
Definition C_Void : Cmp Void :=
  Build_Cmp (fun (a _ : Void) => match a with end) (fun (a _ : Void) => match a with end)
            (fun (a _ : Void) => match a with end).

(** utils.rs:205 [WasChanged]: [Changed] before [Unchanged]. *)
Definition C_WasChanged : Cmp WasChanged :=
  Build_Cmp
    (fun a b => match a, b with Changed, Changed => true | Unchanged, Unchanged => true | _, _ => false end)
    (fun a b => match a, b with
                | Changed, Unchanged => Some Lt | Unchanged, Changed => Some Gt | _, _ => Some Eq
                end)
    (fun a b => match a, b with Changed, Unchanged => Lt | Unchanged, Changed => Gt | _, _ => Eq end).

(** base.rs:30 [Elem]: terminals first. *)
Definition C_Elem {T NT} (RT : Cmp T) (RN : Cmp NT) : Cmp (Elem T NT) :=
  Build_Cmp
    (fun a b => match a, b with
                | Term x, Term y => c_eq RT x y
                | NonTerm x, NonTerm y => c_eq RN x y
                | _, _ => false
                end)
    (fun a b => match a, b with
                | Term x, Term y => c_partial RT x y
                | NonTerm x, NonTerm y => c_partial RN x y
                | Term _, NonTerm _ => Some Lt
                | NonTerm _, Term _ => Some Gt
                end)
    (fun a b => match a, b with
                | Term x, Term y => c_cmp RT x y
                | NonTerm x, NonTerm y => c_cmp RN x y
                | Term _, NonTerm _ => Lt
                | NonTerm _, Term _ => Gt
                end).

(** base.rs:97 [ProdElement]: identifier, element. *)
Definition C_ProdElement {T NT} (RT : Cmp T) (RN : Cmp NT) : Cmp (ProdElement T NT) :=
  let RI := C_option C_Name in let RE := C_Elem RT RN in
  Build_Cmp
    (fun a b => c_eq RI (pe_id a) (pe_id b) && c_eq RE (pe_elem a) (pe_elem b))
    (fun a b => then_partial (c_partial RI (pe_id a) (pe_id b)) (c_partial RE (pe_elem a) (pe_elem b)))
    (fun a b => then_cmp (c_cmp RI (pe_id a) (pe_id b)) (c_cmp RE (pe_elem a) (pe_elem b))).

(** base.rs:183 [ProdInner]: action key, action value, elements. *)
Definition C_ProdInner {T NT AK AV} (RT : Cmp T) (RN : Cmp NT) (RK : Cmp AK) (RV : Cmp AV)
  : Cmp (ProdInner T NT AK AV) :=
  let RE := C_vec (C_ProdElement RT RN) in
  Build_Cmp
    (fun a b => c_eq RK (pi_action_key a) (pi_action_key b) &&
                (c_eq RV (pi_action_value a) (pi_action_value b) && c_eq RE (pi_elements a) (pi_elements b)))
    (fun a b => then_partial (c_partial RK (pi_action_key a) (pi_action_key b))
                  (then_partial (c_partial RV (pi_action_value a) (pi_action_value b))
                     (c_partial RE (pi_elements a) (pi_elements b))))
    (fun a b => then_cmp (c_cmp RK (pi_action_key a) (pi_action_key b))
                  (then_cmp (c_cmp RV (pi_action_value a) (pi_action_value b))
                     (c_cmp RE (pi_elements a) (pi_elements b)))).

(** base.rs:245 [ProdKey]: head, action key. *)
Definition C_ProdKey {NT AK} (RN : Cmp NT) (RK : Cmp AK) : Cmp (ProdKey NT AK) :=
  Build_Cmp
    (fun a b => c_eq RN (pk_head a) (pk_head b) && c_eq RK (pk_action_key a) (pk_action_key b))
    (fun a b => then_partial (c_partial RN (pk_head a) (pk_head b))
                  (c_partial RK (pk_action_key a) (pk_action_key b)))
    (fun a b => then_cmp (c_cmp RN (pk_head a) (pk_head b)) (c_cmp RK (pk_action_key a) (pk_action_key b))).

(** start_grammar.rs:17, 57, 81: the added constructor first. *)
Definition C_StreamTerminal {T} (RT : Cmp T) : Cmp (StreamTerminal T) :=
  Build_Cmp
    (fun a b => match a, b with
                | STerm x, STerm y => c_eq RT x y | EndOfStream, EndOfStream => true | _, _ => false
                end)
    (fun a b => match a, b with
                | STerm x, STerm y => c_partial RT x y
                | EndOfStream, EndOfStream => Some Eq
                | EndOfStream, STerm _ => Some Lt | STerm _, EndOfStream => Some Gt
                end)
    (fun a b => match a, b with
                | STerm x, STerm y => c_cmp RT x y
                | EndOfStream, EndOfStream => Eq
                | EndOfStream, STerm _ => Lt | STerm _, EndOfStream => Gt
                end).
Definition C_StartNonTerminal {T} (RT : Cmp T) : Cmp (StartNonTerminal T) :=
  Build_Cmp
    (fun a b => match a, b with
                | NTerm x, NTerm y => c_eq RT x y | Start, Start => true | _, _ => false
                end)
    (fun a b => match a, b with
                | NTerm x, NTerm y => c_partial RT x y
                | Start, Start => Some Eq | Start, NTerm _ => Some Lt | NTerm _, Start => Some Gt
                end)
    (fun a b => match a, b with
                | NTerm x, NTerm y => c_cmp RT x y
                | Start, Start => Eq | Start, NTerm _ => Lt | NTerm _, Start => Gt
                end).
Definition C_StartActionKey {T} (RT : Cmp T) : Cmp (StartActionKey T) :=
  Build_Cmp
    (fun a b => match a, b with
                | ActionKey x, ActionKey y => c_eq RT x y | StartKey, StartKey => true | _, _ => false
                end)
    (fun a b => match a, b with
                | ActionKey x, ActionKey y => c_partial RT x y
                | StartKey, StartKey => Some Eq
                | StartKey, ActionKey _ => Some Lt | ActionKey _, StartKey => Some Gt
                end)
    (fun a b => match a, b with
                | ActionKey x, ActionKey y => c_cmp RT x y
                | StartKey, StartKey => Eq | StartKey, ActionKey _ => Lt | ActionKey _, StartKey => Gt
                end).

(** transform/nonnull.rs:63 [ActionKey]: action, nullable states. *)
Definition C_NNActionKey {AK} (RK : Cmp AK) : Cmp (NNActionKey AK) :=
  let RS := C_vec C_bool in
  Build_Cmp
    (fun a b => c_eq RK (nk_action a) (nk_action b) && c_eq RS (nk_nullable_states a) (nk_nullable_states b))
    (fun a b => then_partial (c_partial RK (nk_action a) (nk_action b))
                  (c_partial RS (nk_nullable_states a) (nk_nullable_states b)))
    (fun a b => then_cmp (c_cmp RK (nk_action a) (nk_action b))
                  (c_cmp RS (nk_nullable_states a) (nk_nullable_states b))).

(** tree.rs:29-45 [NodeContentInner] with its two records: leaves first, then field by field. *)
Definition C_Content {T AK V} (RT : Cmp T) (RK : Cmp AK) (RV : Cmp V) : Cmp (ContentInner T AK V) :=
  let RL := C_pair RT RV in let RB := C_pair RK (C_vec C_usize) in
  Build_Cmp
    (fun a b => match a, b with
                | CLeaf k v, CLeaf k' v' => c_eq RL (k, v) (k', v')
                | CBranch x n, CBranch x' n' => c_eq RB (x, n) (x', n')
                | _, _ => false
                end)
    (fun a b => match a, b with
                | CLeaf k v, CLeaf k' v' => c_partial RL (k, v) (k', v')
                | CBranch x n, CBranch x' n' => c_partial RB (x, n) (x', n')
                | CLeaf _ _, CBranch _ _ => Some Lt | CBranch _ _, CLeaf _ _ => Some Gt
                end)
    (fun a b => match a, b with
                | CLeaf k v, CLeaf k' v' => c_cmp RL (k, v) (k', v')
                | CBranch x n, CBranch x' n' => c_cmp RB (x, n) (x', n')
                | CLeaf _ _, CBranch _ _ => Lt | CBranch _ _, CLeaf _ _ => Gt
                end).

Section Trees.
  Context {L V : Type} (RL : Cmp L) (RV : Cmp V).
  (** utils.rs:121 [TreeValue] (nodes first), 127 [TreeNode] (action name, then the parameter map as pairs
      in key order).  [Box] compares contents. *)
  Fixpoint tn_eq (a b : TreeNode L V) {struct a} : bool :=
    match a, b with
    | TNode x ps, TNode y qs =>
        c_eq RL x y &&
        (Nat.eqb (length ps) (length qs) &&
         all_eq (fun p q => c_eq C_Name (fst p) (fst q) && tv_eq (snd p) (snd q)) ps qs)
    end
  with tv_eq (a b : TreeValue L V) {struct a} : bool :=
    match a, b with
    | TVNode m, TVNode n => tn_eq m n
    | TVLeaf v, TVLeaf w => c_eq RV v w
    | _, _ => false
    end.
  Fixpoint tn_partial (a b : TreeNode L V) {struct a} : option comparison :=
    match a, b with
    | TNode x ps, TNode y qs =>
        then_partial (c_partial RL x y)
          (iter_partial (fun p q => then_partial (c_partial C_Name (fst p) (fst q)) (tv_partial (snd p) (snd q))) ps qs)
    end
  with tv_partial (a b : TreeValue L V) {struct a} : option comparison :=
    match a, b with
    | TVNode m, TVNode n => tn_partial m n
    | TVLeaf v, TVLeaf w => c_partial RV v w
    | TVNode _, TVLeaf _ => Some Lt
    | TVLeaf _, TVNode _ => Some Gt
    end.
  Fixpoint tn_cmp (a b : TreeNode L V) {struct a} : comparison :=
    match a, b with
    | TNode x ps, TNode y qs =>
        then_cmp (c_cmp RL x y)
          (iter_cmp (fun p q => then_cmp (c_cmp C_Name (fst p) (fst q)) (tv_cmp (snd p) (snd q))) ps qs)
    end
  with tv_cmp (a b : TreeValue L V) {struct a} : comparison :=
    match a, b with
    | TVNode m, TVNode n => tn_cmp m n
    | TVLeaf v, TVLeaf w => c_cmp RV v w
    | TVNode _, TVLeaf _ => Lt
    | TVLeaf _, TVNode _ => Gt
    end.
  Definition C_TreeNode : Cmp (TreeNode L V) := Build_Cmp tn_eq tn_partial tn_cmp.
  Definition C_TreeValue : Cmp (TreeValue L V) := Build_Cmp tv_eq tv_partial tv_cmp.
End Trees.

(** * References *)

(** cmp_wrappers.rs:110-129 [RefCompare]: the address. *)
Definition C_RefCompare : Cmp N :=
  Build_Cmp N.eqb (fun a b => Some (N.compare a b)) N.compare.

(** cmp_wrappers.rs:72-90 [NoCompare]: never looks. *)
Definition C_NoCompare {A} : Cmp A := Build_Cmp (fun _ _ => true) (fun _ _ => Some Eq) (fun _ _ => Eq).

(** cmp_wrappers.rs:24-44 [ParentRef]: asserts that both are the same object. *)
Definition parent_eq (a b : N) : outcome bool :=
  _ <- assert_ (N.eqb a b) "assertion failed: ref_eq(self.0, other.0)" ;; Ret true.
Definition parent_cmp (a b : N) : outcome comparison :=
  _ <- assert_ (N.eqb a b) "assertion failed: ref_eq(self.0, other.0)" ;; Ret Eq.
Definition parent_partial (a b : N) : outcome (option comparison) :=
  c <- parent_cmp a b ;; Ret (Some c).

(** base.rs:638-665 [Prod]: the production's address. *)
Definition C_Prod {T NT AK AV} (lay : layout NT) : Cmp (Prod T NT AK AV) :=
  Build_Cmp (prod_eqb lay) (fun p q => Some (prod_cmp lay p q)) (prod_cmp lay).

(** state.rs:48-75 [ProdState]: the production only. *)
Definition C_ProdState {T NT AK AV} (lay : layout NT) : Cmp (ProdState T NT AK AV) :=
  Build_Cmp (ps_eqb lay) (fun a b => Some (prod_cmp lay (ps_prod a) (ps_prod b)))
            (fun a b => prod_cmp lay (ps_prod a) (ps_prod b)).

(** state.rs:155-180 [ProdStateSet]: the set of states, in order. *)
Definition C_ProdStateSet {T NT AK AV} (lay : layout NT) : Cmp (list (ProdState T NT AK AV)) :=
  C_vec (C_ProdState lay).

(** lalr.rs:39-73 [ParseState]: the map from states to sets of lookaheads, pair by pair in key order; [partial_cmp] is [cmp]. *)
Definition C_ParseState {T NT AK AV} (lay : layout NT) (RT : Cmp T) : Cmp (list (ProdState T NT AK AV * list T)) :=
  let R := C_vec (C_pair (C_ProdState lay) (C_vec RT)) in
  Build_Cmp (c_eq R) (fun a b => Some (c_cmp R a b)) (c_cmp R).

Section Handles.
  (** The address of each tree's lock. *)
  Variable adr : TreeHandle -> N.
  (** tree.rs:22-27 [cmp_raw_refs], 232-248 [TreeHandle]. *)
  Definition C_TreeHandle : Cmp TreeHandle :=
    Build_Cmp (fun a b => match N.compare (adr a) (adr b) with Eq => true | _ => false end)
              (fun a b => Some (N.compare (adr a) (adr b)))
              (fun a b => N.compare (adr a) (adr b)).

  (** tree.rs:354-365 [Node], 427-438 [Alternative], 464-475 [Leaf], 510-521 [Branch]: index, then tree;
      all four have these two fields and these derived comparisons. *)
  Definition C_Ref : Cmp (nat * TreeHandle) := C_pair C_usize C_TreeHandle.
  Definition C_Node : Cmp Node :=
    Build_Cmp (fun a b => c_eq C_Ref (nd_index a, nd_inner a) (nd_index b, nd_inner b))
              (fun a b => c_partial C_Ref (nd_index a, nd_inner a) (nd_index b, nd_inner b))
              (fun a b => c_cmp C_Ref (nd_index a, nd_inner a) (nd_index b, nd_inner b)).
  Definition C_Alternative : Cmp Alternative :=
    Build_Cmp (fun a b => c_eq C_Ref (al_index a, al_inner a) (al_index b, al_inner b))
              (fun a b => c_partial C_Ref (al_index a, al_inner a) (al_index b, al_inner b))
              (fun a b => c_cmp C_Ref (al_index a, al_inner a) (al_index b, al_inner b)).
  (** tree.rs:564-577 [NodeContent]: a [Leaf] ([inl]) or a [Branch] ([inr]), leaves first.  (derivative's
      [feature_allow_slow_enum] compares discriminants, then fields.) *)
  Definition C_NodeContent : Cmp ((nat * TreeHandle) + (nat * TreeHandle)) :=
    Build_Cmp
      (fun a b => match a, b with
                  | inl x, inl y => c_eq C_Ref x y | inr x, inr y => c_eq C_Ref x y | _, _ => false
                  end)
      (fun a b => match a, b with
                  | inl x, inl y => c_partial C_Ref x y | inr x, inr y => c_partial C_Ref x y
                  | inl _, inr _ => Some Lt | inr _, inl _ => Some Gt
                  end)
      (fun a b => match a, b with
                  | inl x, inl y => c_cmp C_Ref x y | inr x, inr y => c_cmp C_Ref x y
                  | inl _, inr _ => Lt | inr _, inl _ => Gt
                  end).
End Handles.
