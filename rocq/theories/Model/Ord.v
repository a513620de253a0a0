(** Rust's [Ord] as a comparison function, and the derived instances the code relies on.

    Rust: [std::cmp::Ord]; [#[derive(PartialOrd, Ord)]] compares fields / tuple components
    lexicographically and enum variants in declaration order. *)
From Coq Require Import List Arith NArith Bool Ascii String.
Import ListNotations.

(** [Ord::cmp].  Only the function: the laws are stated separately in [TotalPre] / [OrdEq], because
    some key types of the code ([ProdState], src/state.rs:48-75) have a [cmp] that does not
    distinguish all values. *)
Class Ord (A : Type) := cmp : A -> A -> comparison.
Arguments cmp {A _} _ _ : simpl never.

(** A lawful Rust [Ord]: a total preorder ([cmp] = [Eq] is an equivalence, not necessarily
    identity). *)
Class TotalPre (A : Type) `{Ord A} : Prop := {
  cmp_refl : forall x : A, cmp x x = Eq;
  cmp_sym : forall x y : A, cmp y x = CompOpp (cmp x y);
  cmp_lt_trans : forall x y z : A, cmp x y = Lt -> cmp y z = Lt -> cmp x z = Lt;
  cmp_eq_compat : forall x y z : A, cmp x y = Eq -> cmp x z = cmp y z
}.

(** A lawful [Ord] whose [Equal] is identity (what user symbol types are assumed to have). *)
Class OrdEq (A : Type) `{Ord A} : Prop := {
  oe_pre : TotalPre A;
  cmp_eq : forall x y : A, cmp x y = Eq -> x = y
}.
#[export] Existing Instance oe_pre.

(** [Ordering::then]: first non-equal result, as in derived [Ord]. *)
Definition then_cmp (c d : comparison) : comparison :=
  match c with Eq => d | _ => c end.

#[export] Instance Ord_nat : Ord nat := Nat.compare.
#[export] Instance Ord_N : Ord N := N.compare.
#[export] Instance Ord_unit : Ord unit := fun _ _ => Eq.

(** [bool]: false < true. *)
#[export] Instance Ord_bool : Ord bool := fun a b =>
  match a, b with
  | false, true => Lt
  | true, false => Gt
  | _, _ => Eq
  end.

(** [char] / byte order by code. *)
#[export] Instance Ord_ascii : Ord ascii := fun a b => N.compare (N_of_ascii a) (N_of_ascii b).

(** Tuples compare lexicographically. *)
#[export] Instance Ord_prod {A B} `{Ord A} `{Ord B} : Ord (A * B) := fun p q =>
  then_cmp (cmp (fst p) (fst q)) (cmp (snd p) (snd q)).

(** [Option]: [None] < [Some _]. *)
#[export] Instance Ord_option {A} `{Ord A} : Ord (option A) := fun p q =>
  match p, q with
  | None, None => Eq
  | None, Some _ => Lt
  | Some _, None => Gt
  | Some a, Some b => cmp a b
  end.

(** [Vec], slices, [im::Vector], [BTreeSet], [BTreeMap]: lexicographic on iteration order. *)
Fixpoint list_cmp {A} `{Ord A} (p q : list A) : comparison :=
  match p, q with
  | [], [] => Eq
  | [], _ :: _ => Lt
  | _ :: _, [] => Gt
  | a :: p', b :: q' => then_cmp (cmp a b) (list_cmp p' q')
  end.
#[export] Instance Ord_list {A} `{Ord A} : Ord (list A) := list_cmp.

(** [String]: lexicographic on bytes. *)
#[export] Instance Ord_string : Ord string := fun s t =>
  list_cmp (list_ascii_of_string s) (list_ascii_of_string t).

(** The boolean [==] that goes with a lawful [Ord]. *)
Definition eqb {A} `{Ord A} (x y : A) : bool :=
  match cmp x y with Eq => true | _ => false end.
