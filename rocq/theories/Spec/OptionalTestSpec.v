(** A program over the public calls that tests a grammar with optional parts: which nonterminals derive a nonempty word,
    whether productions that derive the empty word derive nothing else, and whether the grammar without the empty word
    passes the test of GrammarTestSpec. *)
From Coq Require Import List Bool.
From Verif.Model Require Import Ord BTree Outcome Utils Grammar Nullable NonNull Firsts.
From Verif.Spec Require Import GrammarTestSpec.
Import ListNotations.

Section Test.
  Context {T NT AK AV : Type} `{Ord T} `{Ord NT} `{Ord AK}.
  Variable g : Grammar T NT AK AV.

  (** The element derives a nonempty word: a terminal, or a nonterminal known to ([s]). *)
  Definition lasts (s : btset NT) (e : Elem T NT) : bool := match e with Term _ => true | NonTerm B => bs_mem B s end.
  (** A production all of whose nonterminals derive words ([u]) and one of whose elements derives a nonempty one. *)
  Definition lasting_step (u : btset NT) (p : Prod T NT AK AV) (s : btset NT) : outcome (WasChanged * btset NT) :=
    if forallb (fun B => bs_mem B u) (filter_map as_nonterm (elements p)) && existsb (lasts s) (elements p)
    then Ret (from_changed (negb (bs_mem (p_head p) s)), bs_add (p_head p) s)
    else Ret (Unchanged, s).
  Definition lasting (fuel : nat) : outcome (btset NT) :=
    u <- usable g fuel ;;
    change_loop (change_iter (lasting_step u) (prods g)) fuel [].

  (** No production that derives the empty word ([info] is the Nullable pass) has an element that derives another. *)
  Definition pure (info : GrammarNullableInfo NT AK) (s : btset NT) : bool :=
    forallb (fun p => negb (is_prod_nullable info p && existsb (lasts s) (elements p))) (prods g).

  (** [lay]: where the productions of the grammar live, [lay']: where those of the result of the transformation live. *)
  Definition test_optional (lay lay' : layout NT) (fuel : nat) : outcome bool :=
    r <- calculate_nullables lay g fuel ;;
    match r with
    | Err _ => Ret false
    | Ok info =>
        t <- transform_to_nonnull lay g fuel ;;
        match t with
        | Err _ => Ret false
        | Ok g' =>
            s <- lasting fuel ;;
            b <- test_grammar g' lay' fuel ;;
            Ret (pure info s && b)
        end
    end.
End Test.
