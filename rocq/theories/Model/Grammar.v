(** src/grammar/base.rs and src/grammar/base/builder.rs: grammars and their construction. *)
From Coq Require Import String List NArith Bool.
From Verif.Model Require Import Ord BTree Outcome Utils.
Import ListNotations.
Local Open Scope string_scope.

(** src/utils.rs:74 [Name]: the string value.  (Sharing and [make_mut] are modelled in
    [Model/Name.v].) *)
Definition name := string.

(** src/grammar/base.rs:31-34 [Elem]. *)
Inductive Elem (T NT : Type) : Type :=
| Term (t : T)
| NonTerm (nt : NT).
Arguments Term {T NT} t.
Arguments NonTerm {T NT} nt.

(** src/grammar/base.rs:39-44 [Elem::as_term]. *)
Definition as_term {T NT} (e : Elem T NT) : option T :=
  match e with NonTerm _ => None | Term t => Some t end.

(** src/grammar/base.rs:47-52 [Elem::as_nonterm]. *)
Definition as_nonterm {T NT} (e : Elem T NT) : option NT :=
  match e with NonTerm nt => Some nt | Term _ => None end.

(** [derive(PartialOrd, Ord)] on [Elem] (base.rs:30): [Term] before [NonTerm]. *)
#[export] Instance Ord_Elem {T NT} `{Ord T} `{Ord NT} : Ord (Elem T NT) := fun a b =>
  match a, b with
  | Term x, Term y => cmp x y
  | Term _, NonTerm _ => Lt
  | NonTerm _, Term _ => Gt
  | NonTerm x, NonTerm y => cmp x y
  end.

(** src/grammar/base.rs:98-101 [ProdElement]. *)
Record ProdElement (T NT : Type) := {
  pe_id : option name;
  pe_elem : Elem T NT
}.
Arguments pe_id {T NT} _.
Arguments pe_elem {T NT} _.
Arguments Build_ProdElement {T NT} _ _.

(** [derive(PartialOrd, Ord)] on [ProdElement] (base.rs:97): identifier, then element. *)
#[export] Instance Ord_ProdElement {T NT} `{Ord T} `{Ord NT} : Ord (ProdElement T NT) := fun a b =>
  then_cmp (cmp (pe_id a) (pe_id b)) (cmp (pe_elem a) (pe_elem b)).

(** src/grammar/base.rs:105-110, 113-118, 121-126. *)
Definition pe_new_with_name {T NT} (n : name) (e : Elem T NT) : ProdElement T NT :=
  Build_ProdElement (Some n) e.
Definition pe_new {T NT} (n : option name) (e : Elem T NT) : ProdElement T NT :=
  Build_ProdElement n e.
Definition pe_new_empty {T NT} (e : Elem T NT) : ProdElement T NT :=
  Build_ProdElement None e.

(** src/grammar/base.rs:184-188 [ProdInner]. *)
Record ProdInner (T NT AK AV : Type) := {
  pi_action_key : AK;
  pi_action_value : AV;
  pi_elements : list (ProdElement T NT)
}.
Arguments pi_action_key {T NT AK AV} _.
Arguments pi_action_value {T NT AK AV} _.
Arguments pi_elements {T NT AK AV} _.
Arguments Build_ProdInner {T NT AK AV} _ _ _.

(** src/grammar/base.rs:207-209 [elements_iter]; 211-213 [element_at]. *)
Definition elements_iter {T NT AK AV} (p : ProdInner T NT AK AV) : list (Elem T NT) :=
  map pe_elem (pi_elements p).
Definition pi_element_at {T NT AK AV} (p : ProdInner T NT AK AV) (index : nat) : option (Elem T NT) :=
  option_map pe_elem (nth_error (pi_elements p) index).

(** src/grammar/base.rs:246-249 [ProdKey]. *)
Record ProdKey (NT AK : Type) := {
  pk_head : NT;
  pk_action_key : AK
}.
Arguments pk_head {NT AK} _.
Arguments pk_action_key {NT AK} _.
Arguments Build_ProdKey {NT AK} _ _.

(** src/grammar/base.rs:265-268 [RuleInner]. *)
Record RuleInner (T NT AK AV : Type) := {
  r_head : NT;
  r_prods : list (ProdInner T NT AK AV)
}.
Arguments r_head {T NT AK AV} _.
Arguments r_prods {T NT AK AV} _.
Arguments Build_RuleInner {T NT AK AV} _ _.

(** src/grammar/base.rs:324-327 [Grammar]. *)
Record Grammar (T NT AK AV : Type) := {
  start_symbol : NT;
  rule_set : btmap NT (RuleInner T NT AK AV)
}.
Arguments start_symbol {T NT AK AV} _.
Arguments rule_set {T NT AK AV} _.
Arguments Build_Grammar {T NT AK AV} _ _.

(** src/grammar/base.rs:632-636 [Prod]: a reference to a production of a grammar.  Rust compares
    such references by address ([RefCompare], base.rs:638-665); the identity of the referenced
    [ProdInner] is its head and its position in the head's production vector.  The [grammar]
    back-pointer is not compared and not modelled. *)
Record Prod (T NT AK AV : Type) := {
  p_head : NT;
  p_ix : nat;
  p_inner : ProdInner T NT AK AV
}.
Arguments p_head {T NT AK AV} _.
Arguments p_ix {T NT AK AV} _.
Arguments p_inner {T NT AK AV} _.
Arguments Build_Prod {T NT AK AV} _ _ _.

(** src/grammar/base.rs:472-476 [GrammarErrors]. *)
Record GrammarErrors (NT : Type) := {
  unreachable_nonterms : btset NT;
  nonterms_without_rules : btset NT;
  rules_without_prods : btset NT
}.
Arguments unreachable_nonterms {NT} _.
Arguments nonterms_without_rules {NT} _.
Arguments rules_without_prods {NT} _.
Arguments Build_GrammarErrors {NT} _ _ _.

(** [filter_map] on an iterator. *)
Definition filter_map {A B} (f : A -> option B) (l : list A) : list B :=
  flat_map (fun a => match f a with Some b => [b] | None => [] end) l.

Section Prods.
  Context {T NT AK AV : Type}.

  (** src/grammar/base.rs:683-743 accessors of [Prod]. *)
  Definition prod_elements (p : Prod T NT AK AV) : list (ProdElement T NT) := pi_elements (p_inner p).
  Definition elements (p : Prod T NT AK AV) : list (Elem T NT) := elements_iter (p_inner p).
  Definition num_elements (p : Prod T NT AK AV) : nat := length (pi_elements (p_inner p)).
  Definition action_key (p : Prod T NT AK AV) : AK := pi_action_key (p_inner p).
  Definition action_value (p : Prod T NT AK AV) : AV := pi_action_value (p_inner p).
  Definition prod_element_at (p : Prod T NT AK AV) (i : nat) : option (ProdElement T NT) :=
    nth_error (pi_elements (p_inner p)) i.
  Definition element_at (p : Prod T NT AK AV) (i : nat) : option (Elem T NT) :=
    pi_element_at (p_inner p) i.
  Definition prod_key (p : Prod T NT AK AV) : ProdKey NT AK := Build_ProdKey (p_head p) (action_key p).
  Definition first_elem (p : Prod T NT AK AV) : option (Elem T NT) :=
    option_map pe_elem (hd_error (pi_elements (p_inner p))).

  (** src/grammar/base.rs:585-592 [Rule::prods]: the productions of a rule, numbered from [i]. *)
  Fixpoint number_prods (head : NT) (i : nat) (ps : list (ProdInner T NT AK AV))
    : list (Prod T NT AK AV) :=
    match ps with
    | [] => []
    | p :: ps' => Build_Prod head i p :: number_prods head (S i) ps'
    end.
  Definition rule_prods (r : RuleInner T NT AK AV) : list (Prod T NT AK AV) :=
    number_prods (r_head r) 0 (r_prods r).

  Variable g : Grammar T NT AK AV.

  (** src/grammar/base.rs:346-348 [start_nt]. *)
  Definition start_nt : NT := start_symbol g.

  (** src/grammar/base.rs:350-364 [get_elements], [get_terminals], [get_nonterminals]. *)
  Definition get_elements : list (Elem T NT) :=
    flat_map elements_iter (flat_map r_prods (bt_values (rule_set g))).
  Definition get_terminals : list T := filter_map as_term get_elements.
  Definition get_nonterminals : list NT := filter_map as_nonterm get_elements.

  (** src/grammar/base.rs:367-372 [rules]; 375-377 [prods]. *)
  Definition rules : list (RuleInner T NT AK AV) := bt_values (rule_set g).
  Definition prods : list (Prod T NT AK AV) := flat_map rule_prods rules.
End Prods.

Section Check.
  Context {T NT AK AV : Type} `{Ord NT}.
  Variable g : Grammar T NT AK AV.

  (** src/grammar/base.rs:410-415 [try_get_rule]; 418-422 [get_rule]. *)
  Definition try_get_rule (nt : NT) : option (RuleInner T NT AK AV) := bt_get nt (rule_set g).
  Definition get_rule (nt : NT) : outcome (RuleInner T NT AK AV) :=
    expect (try_get_rule nt) "An NT rule exists in the grammar.".

  (** src/grammar/base.rs:424-429 [nonterminals_without_rules]. *)
  Definition find_nonterminals_without_rules : btset NT :=
    bs_of_list (filter (fun nt => negb (bt_mem nt (rule_set g))) (get_nonterminals g)).

  (** src/grammar/base.rs:431-438 [rules_without_prods]. *)
  Definition find_rules_without_prods : btset NT :=
    bs_of_list (map r_head (filter (fun r => match rule_prods r with [] => true | _ => false end)
      (rules g))).

  (** The closure of src/grammar/base.rs:441-448: nonterminals of the bodies of [nt]'s rule. *)
  Definition successors (nt : NT) : outcome (list NT) :=
    rule <- get_rule nt ;;
    Ret (bs_of_list (filter_map as_nonterm (flat_map elements (rule_prods rule)))).

  (** src/grammar/base.rs:440-449 [reachable_nonterms]. *)
  Definition find_reachable_nonterms (fuel : nat) : outcome (btset NT) :=
    breadth_first_search [start_symbol g] successors fuel.

  (** src/grammar/base.rs:451-457 [unreachable_nonterms]. *)
  Definition find_unreachable_nonterms (fuel : nat) : outcome (btset NT) :=
    reachable <- find_reachable_nonterms fuel ;;
    Ret (bs_of_list (filter (fun nt => negb (bs_mem nt reachable)) (get_nonterminals g))).

  Definition is_nil {A} (l : list A) : bool := match l with [] => true | _ => false end.

  (** src/grammar/base.rs:479-488 [GrammarErrors::into_result]. *)
  Definition into_result (e : GrammarErrors NT) : result unit (GrammarErrors NT) :=
    if is_nil (unreachable_nonterms e) && is_nil (nonterms_without_rules e)
       && is_nil (rules_without_prods e)
    then Ok tt else Err e.

  (** src/grammar/base.rs:496-515 [check_grammar]. *)
  Definition check_grammar (fuel : nat) : outcome (result unit (GrammarErrors NT)) :=
    unreachable <- find_unreachable_nonterms fuel ;;
    Ret (into_result (Build_GrammarErrors unreachable
      find_nonterminals_without_rules find_rules_without_prods)).
End Check.

Section Build.
  Context {T NT AK AV : Type} `{Ord NT}.

  (** src/grammar/base.rs:385-398 [Grammar::new]. *)
  Definition grammar_new (start : NT) (rule_list : list (RuleInner T NT AK AV)) (fuel : nat)
    : outcome (result (Grammar T NT AK AV) (GrammarErrors NT)) :=
    let g := Build_Grammar start (bt_of_list (map (fun r => (r_head r, r)) rule_list)) in
    r <- check_grammar g fuel ;;
    Ret (match r with Ok _ => Ok g | Err e => Err e end).

  (** Calls a production-building closure makes on its [ProductionBuilder]
      (src/grammar/base/builder.rs:71-107).  A closure is modelled by the sequence of its calls. *)
  Inductive pb_call :=
  | AddTerm (t : T)
  | AddNamedTerm (n : name) (t : T)
  | AddNonterm (nt : NT)
  | AddNamedNonterm (n : name) (nt : NT).

  (** builder.rs:71-76, 78-88, 90-95, 97-107: each pushes one element. *)
  Definition pb_apply (elems : list (ProdElement T NT)) (c : pb_call) : list (ProdElement T NT) :=
    match c with
    | AddTerm t => elems ++ [pe_new_empty (Term t)]
    | AddNamedTerm n t => elems ++ [pe_new_with_name n (Term t)]
    | AddNonterm nt => elems ++ [pe_new_empty (NonTerm nt)]
    | AddNamedNonterm n nt => elems ++ [pe_new_with_name n (NonTerm nt)]
    end.

  (** Calls on a [RuleBuilder] (builder.rs:133-161). *)
  Inductive rb_call :=
  | AddProd (ak : AK) (av : AV) (calls : list pb_call)
  | AddProdWithElems (ak : AK) (av : AV) (elems : list (ProdElement T NT)).

  (** builder.rs:54-69 ([ProductionBuilder::new], [build]), 133-145 [add_prod],
      147-161 [add_prod_with_elems]. *)
  Definition rb_apply (prods : list (ProdInner T NT AK AV)) (c : rb_call)
    : list (ProdInner T NT AK AV) :=
    match c with
    | AddProd ak av calls => prods ++ [Build_ProdInner ak av (fold_left pb_apply calls [])]
    | AddProdWithElems ak av elems => prods ++ [Build_ProdInner ak av elems]
    end.

  (** A call of [GrammarBuilder::add_rule] (builder.rs:188-200): head and the closure's calls. *)
  Inductive gb_call :=
  | AddRule (head : NT) (calls : list rb_call).

  (** builder.rs:121-131 ([RuleBuilder::new], [build]) and 188-200 [add_rule]. *)
  Definition gb_apply (rs : list (RuleInner T NT AK AV)) (c : gb_call)
    : list (RuleInner T NT AK AV) :=
    match c with
    | AddRule head calls => rs ++ [Build_RuleInner head (fold_left rb_apply calls [])]
    end.

  (** builder.rs:225-236 [build], 176-186 ([GrammarBuilder::new], [build]). *)
  Definition build (start : NT) (calls : list gb_call) (fuel : nat)
    : outcome (result (Grammar T NT AK AV) (GrammarErrors NT)) :=
    grammar_new start (fold_left gb_apply calls []) fuel.
End Build.
Arguments pb_call T NT : clear implicits.
Arguments rb_call T NT AK AV : clear implicits.
Arguments gb_call T NT AK AV : clear implicits.

(** ** Comparison of references (src/grammar/base/cmp_wrappers.rs) *)

(** Where the productions of a grammar live in memory: the address of the [ix]-th production of the
    rule of [head].  Different [ProdInner]s have different addresses ([ProdInner] holds a [Vec], so
    it is not zero-sized); theorems assume nothing else about it. *)
Definition layout (NT : Type) := NT -> nat -> N.

(** base.rs:638-645 [Ord for Prod] via cmp_wrappers.rs:7-9 [ref_cmp], 124-128. *)
Definition prod_cmp {T NT AK AV} (lay : layout NT) (p q : Prod T NT AK AV) : comparison :=
  N.compare (lay (p_head p) (p_ix p)) (lay (p_head q) (p_ix q)).

(** base.rs:656-663 [PartialEq for Prod] via [ref_eq]. *)
Definition prod_eqb {T NT AK AV} (lay : layout NT) (p q : Prod T NT AK AV) : bool :=
  N.eqb (lay (p_head p) (p_ix p)) (lay (p_head q) (p_ix q)).

(** base.rs:564-576 [Rule]: a pair of the address of its grammar and of its [RuleInner]. *)
Record RuleRef := { rr_grammar : N; rr_rule : N }.

(** Derived [Ord]/[PartialEq] of [Rule]: [ParentRef] (cmp_wrappers.rs:24-44) asserts that both
    grammars are the same object, then [RefCompare] compares addresses. *)
Definition rule_cmp (a b : RuleRef) : outcome comparison :=
  _ <- assert_ (N.eqb (rr_grammar a) (rr_grammar b)) "assertion failed: ref_eq(self.0, other.0)" ;;
  Ret (then_cmp Eq (N.compare (rr_rule a) (rr_rule b))).
Definition rule_eqb (a b : RuleRef) : outcome bool :=
  _ <- assert_ (N.eqb (rr_grammar a) (rr_grammar b)) "assertion failed: ref_eq(self.0, other.0)" ;;
  Ret (N.eqb (rr_rule a) (rr_rule b)).
