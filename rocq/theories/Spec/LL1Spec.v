(** Grammars in which the next token decides the production, and no symbol derives the empty word. *)
From Coq Require Import List.
From Verif.Model Require Import Ord BTree Grammar Nullable Firsts.
From Verif.Spec Require Import Reach Cfg NullSpec.
Import ListNotations.

Section LL1Spec.
  Context {T NT AK AV : Type}.
  Variable g : Grammar T NT AK AV.
  Definition body (p : ProdInner T NT AK AV) : list (Elem T NT) := map pe_elem (pi_elements p).

  (** The symbols [es] derive something that begins with the terminal [t]. *)
  Definition begins (es : list (Elem T NT)) (t : T) : Prop :=
    exists rest, derives_form (rhs_of g) es (Term t :: rest).

  (** No two different productions (the [i]-th and the [j]-th) of a nonterminal can begin with the same terminal,
      and nothing derives the empty word. *)
  Definition ll1 : Prop :=
    (forall A, ~ derives_empty g A) /\
    (forall A i j p q t, nth_prod g A i p -> nth_prod g A j q -> begins (body p) t -> begins (body q) t -> i = j).

  (** The same test made with the library's passes: the terminals that can begin a body, by its first symbol and
      the result [m] of the Firsts pass. *)
  Definition starts_with `{Ord NT} (m : btmap NT (btset T)) (es : list (Elem T NT)) : list T :=
    match es with
    | [] => []
    | Term t :: _ => [t]
    | NonTerm B :: _ => match firsts_get m B with Some s => s | None => [] end
    end.
  Definition starts_differ `{Ord NT} (m : btmap NT (btset T)) : Prop :=
    forall A i j p q t, nth_prod g A i p -> nth_prod g A j q -> i <> j ->
      In t (starts_with m (body p)) -> ~ In t (starts_with m (body q)).
End LL1Spec.

(** Two conditions on the productions reachable from [S]. *)
Section Overlaps.
  Context {T NT : Type}.
  Variable P : NT -> list (Elem T NT) -> Prop.
  Variable S : NT.
  Definition reachable_nt (A : NT) : Prop := star (fun X Y => exists rhs, P X rhs /\ In (NonTerm Y) rhs) S A.
  (** No beginning of a body derives a word that a longer beginning of it derives as well. *)
  Definition no_overlap : Prop := forall A pre mid post x,
    reachable_nt A -> P A (pre ++ mid ++ post) -> mid <> [] -> gen P pre x -> ~ gen P (pre ++ mid) x.
  (** No beginning of a body derives a word that can be cut before its last symbol in two ways. *)
  Definition one_cut : Prop := forall A pre e post x y x' y',
    reachable_nt A -> P A (pre ++ e :: post) -> gen P pre x -> gen P [e] y -> gen P pre x' -> gen P [e] y' ->
    x ++ y = x' ++ y' -> x = x'.
End Overlaps.
