(** A predictive parser, as a user can write it with [Grammar::get_rule], the Nullable pass and the Firsts pass: it keeps the
    symbols still to be read on a stack and looks at the next token to choose a production. *)
From Coq Require Import String List Arith.
From Verif.Model Require Import Ord BTree Outcome Utils Grammar Nullable Firsts Tokens.
From Verif.Spec Require Import Reach Cfg NullSpec TreeSpec EarleySpec LL1Spec.
Import ListNotations.

Section Program.
  Context {T NT AK AV V : Type} `{Ord T} `{Ord NT}.
  Variable g : Grammar T NT AK AV.
  Variable info : GrammarNullableInfo NT AK.       (* the result of the Nullable pass *)
  Variable m : btmap NT (btset T).                 (* the result of the Firsts pass *)
  Variable follows : NT -> T -> bool.              (* what the program knows of what can follow a nonterminal *)

  (** Can a text of these symbols begin with [t]? *)
  Fixpoint can_start (es : list (Elem T NT)) (t : T) : bool :=
    match es with
    | [] => false
    | Term a :: _ => match cmp t a with Eq => true | _ => false end
    | NonTerm B :: rest =>
        orb (match firsts_get m B with Some s => bs_mem t s | None => false end) (andb (is_nullable info B) (can_start rest t))
    end.
  (** May the production be taken, seeing the next token (or the end)? *)
  Definition fits (p : Prod T NT AK AV) (next : option T) : bool :=
    match next with
    | Some t => orb (can_start (elements p) t) (andb (is_prod_nullable info p) (follows (p_head p) t))
    | None => is_prod_nullable info p
    end.
  Definition next_kind (w : list (Token T V)) : option T := option_map tk_kind (hd_error w).

  (** The trees of the symbols on the stack, or [None] if the input does not fit.  The first production that fits is taken. *)
  Fixpoint predict (fuel : nat) (stack : list (Elem T NT)) (w : list (Token T V)) : outcome (option (list (ptree T AK V))) :=
    match fuel with
    | 0 => NoFuel
    | S fuel =>
        match stack with
        | [] => Ret (match w with [] => Some [] | _ => None end)
        | Term a :: rest =>
            match w with
            | x :: w' =>
                match cmp a (tk_kind x) with
                | Eq => r <- predict fuel rest w' ;; Ret (option_map (cons (PLeaf (tk_kind x) (tk_value x))) r)
                | _ => Ret None
                end
            | [] => Ret None
            end
        | NonTerm A :: rest =>
            r <- get_rule g A ;;
            match find (fun p => fits p (next_kind w)) (rule_prods r) with
            | None => Ret None
            | Some p =>
                r <- predict fuel (elements p ++ rest) w ;;
                Ret (option_map (fun cs => PBranch (action_key p) (firstn (num_elements p) cs) :: skipn (num_elements p) cs) r)
            end
        end
    end.

  (** The check a user would make first: two productions never fit the same token (or the end). *)
  Definition no_conflict : Prop := forall A i j p q next, nth_prod g A i p -> nth_prod g A j q ->
    fits (Build_Prod A i p) next = true -> fits (Build_Prod A j q) next = true -> i = j.
End Program.

(** Three ways to know what can follow. *)
(** The content of the Follows pass (which has no accessor: src/grammar/passes/follows.rs:15). *)
Definition by_pass {T NT} `{Ord T} `{Ord NT} (fo : btmap NT (btset T)) (A : NT) (t : T) : bool :=
  match bt_get A fo with Some s => bs_mem t s | None => false end.
(** Nothing: take the empty production when no other begins with the token. *)
Definition otherwise {T NT AK} `{Ord T} `{Ord NT} (info : GrammarNullableInfo NT AK) (m : btmap NT (btset T)) (A : NT) (t : T) : bool :=
  negb (can_start info m [NonTerm A] t).

Section LL1.
  Context {T NT AK AV : Type}.
  Variable g : Grammar T NT AK AV.
  (** Anything that can really follow where the empty word can stand is known. *)
  Definition knows_follows (follows : NT -> T -> bool) : Prop :=
    forall A B t, derives_empty g A -> follow_from (rhs_of g) B A t -> follows A t = true.
  (** Nothing else is. *)
  Definition only_follows (follows : NT -> T -> bool) : Prop :=
    forall A t, derives_empty g A -> follows A t = true -> exists B, follow_from (rhs_of g) B A t.
  (** LL(1) in the usual sense, with empty words. *)
  Definition ll1_with_empty : Prop :=
    (forall A i j p q t, nth_prod g A i p -> nth_prod g A j q -> begins g (body p) t -> begins g (body q) t -> i = j) /\
    (forall A B t, derives_empty g A -> first_of (rhs_of g) A t -> ~ follow_from (rhs_of g) B A t) /\
    ~ null_ambiguous g.
End LL1.
