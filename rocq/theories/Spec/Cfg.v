(** Context-free derivations, independent of any algorithm.

    A grammar is seen only through the relation [P A rhs] = "there is a production A -> rhs". *)
From Coq Require Import List.
From Verif.Model Require Import Grammar.
From Verif.Spec Require Import Reach.
Import ListNotations.

Section Cfg.
  Context {T NT : Type}.
  Variable P : NT -> list (Elem T NT) -> Prop.

  (** [gen es w]: the sequence of symbols [es] derives the terminal word [w]. *)
  Inductive gen : list (Elem T NT) -> list T -> Prop :=
  | gen_nil : gen [] []
  | gen_term t es w : gen es w -> gen (Term t :: es) (t :: w)
  | gen_nonterm A rhs es u w :
      P A rhs -> gen rhs u -> gen es w -> gen (NonTerm A :: es) (u ++ w).

  (** The words derived by a nonterminal. *)
  Definition lang (A : NT) (w : list T) : Prop := gen [NonTerm A] w.

  (** One rewriting step on sentential forms, and its closure. *)
  Inductive sstep : list (Elem T NT) -> list (Elem T NT) -> Prop :=
  | sstep_intro pre A rhs post : P A rhs -> sstep (pre ++ NonTerm A :: post) (pre ++ rhs ++ post).
  Definition derives_form := star sstep.

  (** [t] is in FIRST(A): A derives a sentential form beginning with [t]. *)
  Definition first_of (A : NT) (t : T) : Prop :=
    exists rest, derives_form [NonTerm A] (Term t :: rest).

  (** [t] is in FOLLOW(A) starting from [B]. *)
  Definition follow_from (B A : NT) (t : T) : Prop :=
    exists pre post, derives_form [NonTerm B] (pre ++ NonTerm A :: Term t :: post).

  (** FOLLOW restricted to immediately adjacent symbols and last positions (nothing is skipped). *)
  Inductive adjacent_follow : NT -> T -> Prop :=
  | af_term H pre A t post :
      P H (pre ++ NonTerm A :: Term t :: post) -> adjacent_follow A t
  | af_nonterm H pre A B post t :
      P H (pre ++ NonTerm A :: NonTerm B :: post) -> first_of B t -> adjacent_follow A t
  | af_last H pre A t :
      P H (pre ++ [NonTerm A]) -> adjacent_follow H t -> adjacent_follow A t.

  (** [e] can come first in a body of [A]: everything before it derives the empty word. *)
  Definition can_be_first (A : NT) (e : Elem T NT) : Prop :=
    exists pre post, P A (pre ++ e :: post) /\ gen pre [].
End Cfg.

(** The productions of a model grammar, as a relation. *)
Definition prod_of {T NT AK AV} (g : Grammar T NT AK AV) (A : NT) (p : ProdInner T NT AK AV) : Prop :=
  exists r, In (A, r) (rule_set g) /\ In p (r_prods r).
Definition rhs_of {T NT AK AV} (g : Grammar T NT AK AV) (A : NT) (rhs : list (Elem T NT)) : Prop :=
  exists p, prod_of g A p /\ rhs = map pe_elem (pi_elements p).
