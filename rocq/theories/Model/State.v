(** src/state.rs: positions inside productions, and sets of them. *)
From Coq Require Import List Arith NArith.
From Verif.Model Require Import Ord BTree Outcome Grammar.
Import ListNotations.

(** state.rs:39-46 [ProdState]. *)
Record ProdState (T NT AK AV : Type) := {
  ps_prod : Prod T NT AK AV;
  ps_index : nat
}.
Arguments ps_prod {T NT AK AV} _.
Arguments ps_index {T NT AK AV} _.
Arguments Build_ProdState {T NT AK AV} _ _.

(** state.rs:48-64 [Ord], [PartialOrd], 66-75 [PartialEq]: the production only, not the index. *)
Definition Ord_ProdState {T NT AK AV} (lay : layout NT) : Ord (ProdState T NT AK AV) := fun a b =>
  prod_cmp lay (ps_prod a) (ps_prod b).
Definition ps_eqb {T NT AK AV} (lay : layout NT) (a b : ProdState T NT AK AV) : bool :=
  prod_eqb lay (ps_prod a) (ps_prod b).

Section ProdState.
  Context {T NT AK AV : Type}.
  Local Notation PS := (ProdState T NT AK AV).

  (** state.rs:81-83 [from_start]. *)
  Definition from_start (p : Prod T NT AK AV) : PS := Build_ProdState p 0.
  (** state.rs:89-91 [offset_prod_elem]; 93-95 [offset_elem].  The sum is unbounded here; with machine integers it
      can overflow: Model/Machine.v, C116. *)
  Definition offset_prod_elem (s : PS) (i : nat) : option (ProdElement T NT) :=
    nth_error (prod_elements (ps_prod s)) (ps_index s + i).
  Definition offset_elem (s : PS) (i : nat) : option (Elem T NT) := option_map pe_elem (offset_prod_elem s i).
  (** state.rs:97-99 [next_prod_elem]; 101-103 [next_elem]. *)
  Definition next_prod_elem (s : PS) : option (ProdElement T NT) := offset_prod_elem s 0.
  Definition next_elem (s : PS) : option (Elem T NT) := offset_elem s 0.
  (** state.rs:107-119 [next_elem_state]. *)
  Definition next_elem_state (s : PS) : option (ProdElement T NT * PS) :=
    option_map (fun prod_elem => (prod_elem, Build_ProdState (ps_prod s) (ps_index s + 1))) (next_prod_elem s).
  (** state.rs:121-123 [is_complete]. *)
  Definition is_complete (s : PS) : bool := Nat.eqb (num_elements (ps_prod s)) (ps_index s).
  (** state.rs:125-127 [action_key]. *)
  Definition ps_action_key (s : PS) : AK := action_key (ps_prod s).
  (** state.rs:137-145 [advance_if]; [==] on elements is [Eq] of the derived instance. *)
  Definition advance_if `{Ord T} `{Ord NT} (s : PS) (elem : Elem T NT) : option PS :=
    match next_elem_state s with
    | Some (e, next) => if eqb (pe_elem e) elem then Some next else None
    | None => None
    end.
End ProdState.

(** state.rs:148-153 [ProdStateSet]: a [BTreeSet] of states, so ordered and searched with
    [Ord_ProdState] (production only). *)
Section ProdStateSet.
  Context {T NT AK AV : Type} `{Ord T} `{Ord NT}.
  Variable lay : layout NT.
  Local Notation PS := (ProdState T NT AK AV).
  #[local] Hint Extern 0 (Ord (ProdState _ _ _ _)) => exact (Ord_ProdState lay) : typeclass_instances.
  Definition ProdStateSet : Type := btset PS.

  (** state.rs:199-203 [new_empty]. *)
  Definition pss_new_empty : ProdStateSet := [].

  (** state.rs:184-196 [from_iter] ([collect] into a [BTreeSet]).  When the iterator yields several
      [Equal] states, older versions of std insert one by one (the first survives), newer ones sort
      and deduplicate (the last survives): [keep_last] says which. *)
  Definition pss_from_iter (keep_last : bool) (l : list PS) : ProdStateSet :=
    bs_of_list (if keep_last then rev l else l).

  (** state.rs:206-214 [complete]. *)
  Definition pss_complete (s : ProdStateSet) : list PS := filter is_complete s.

  (** state.rs:222-224 [add]. *)
  Definition pss_add (s : ProdStateSet) (st : PS) : ProdStateSet := bs_add st s.

  (** state.rs:228-242 [nexts]: [entry(k).or_insert_with(new_empty).add(v)] for each advanced state;
      the map is keyed by [&ProdElement], compared by value. *)
  Definition pss_nexts (s : ProdStateSet) : btmap (ProdElement T NT) ProdStateSet :=
    fold_left (fun result kv =>
      let '(k, v) := kv in
      let set := match bt_get k result with Some set => set | None => pss_new_empty end in
      bt_insert k (pss_add set v) result) (filter_map next_elem_state s) [].

  (** state.rs:155-162 [Ord::cmp], 173-180 [PartialEq::eq]: those of [BTreeSet], element by element. *)
  Definition pss_cmp (a b : ProdStateSet) : comparison := list_cmp a b.
  Fixpoint pss_eqb (a b : ProdStateSet) : bool :=
    match a, b with
    | [], [] => true
    | x :: a', y :: b' => andb (ps_eqb lay x y) (pss_eqb a' b')
    | _, _ => false
    end.

  (** state.rs:245-270 [take_closure].  [close_func] is an [FnMut]: its captured state is threaded.
      The items of the iterator it returns are modelled as a list (finite, produced without access to
      the sets). *)
  Section Closure.
    Context {St : Type}.
    Variable close_func : PS -> St -> list PS * St.

    (** state.rs:255-259: the inner [for new_state in close_func(state)]. *)
    Definition tc_visit (new_states : list PS) (acc : ProdStateSet * ProdStateSet)
      : ProdStateSet * ProdStateSet :=
      fold_left (fun acc new_state =>
        let '(seen_states, next_states) := acc in
        let '(inserted, seen_states') := bs_insert new_state seen_states in
        if inserted then (seen_states', bs_add new_state next_states)
        else (seen_states', next_states)) new_states acc.

    (** state.rs:254-260: [for state in curr_states.iter()]. *)
    Definition tc_round (curr_states : list PS) (acc : (ProdStateSet * ProdStateSet) * St)
      : (ProdStateSet * ProdStateSet) * St :=
      fold_left (fun acc state =>
        let '(sets, st) := acc in
        let '(new_states, st') := close_func state st in
        (tc_visit new_states sets, st')) curr_states acc.

    (** state.rs:253-269: the [loop]. *)
    Fixpoint tc_loop (fuel : nat) (seen_states curr_states : ProdStateSet) (st : St)
      : outcome (ProdStateSet * St) :=
      match fuel with
      | 0 => NoFuel
      | S fuel' =>
          let '((seen', next), st') := tc_round curr_states ((seen_states, []), st) in
          match next with
          | [] => Ret (seen', st')
          | _ => tc_loop fuel' seen' next st'
          end
      end.

    (** state.rs:245-270 [take_closure]: the resulting set and the closure's final state. *)
    Definition take_closure (s : ProdStateSet) (st : St) (fuel : nat) : outcome (ProdStateSet * St) :=
      tc_loop fuel s s st.
  End Closure.
End ProdStateSet.
Arguments ProdStateSet T NT AK AV : clear implicits.
