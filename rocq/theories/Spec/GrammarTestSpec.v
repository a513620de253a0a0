(** A program over the public calls that tests a grammar: which nonterminals derive a word, whether every reachable one
    does, and whether one token decides between the productions of each rule. *)
From Coq Require Import List Bool.
From Verif.Model Require Import Ord BTree Outcome Utils Grammar Nullable Firsts.
From Verif.Spec Require Import LL1Spec.
Import ListNotations.

Section Test.
  Context {T NT AK AV : Type} `{Ord T} `{Ord NT}.
  Variable g : Grammar T NT AK AV.

  (** A production all of whose nonterminals derive words makes its head derive one. *)
  Definition usable_step (p : Prod T NT AK AV) (s : btset NT) : outcome (WasChanged * btset NT) :=
    if forallb (fun B => bs_mem B s) (filter_map as_nonterm (elements p))
    then Ret (from_changed (negb (bs_mem (p_head p) s)), bs_add (p_head p) s)
    else Ret (Unchanged, s).
  (** The library's loops (src/utils.rs:234-252) repeat this over all productions until nothing changes. *)
  Definition usable (fuel : nat) : outcome (btset NT) := change_loop (change_iter usable_step (prods g)) fuel [].
  (** The walk of src/grammar/base.rs:440-449, which the program repeats with the public breadth_first_search, visits
      what can be reached. *)
  Definition all_useful (fuel : nat) : outcome bool :=
    s <- usable fuel ;;
    r <- find_reachable_nonterms g fuel ;;
    Ret (bs_mem (start_nt g) s && forallb (fun A => bs_mem A s) r).

  Definition disjoint (l l' : list T) : bool :=
    forallb (fun t => forallb (fun t' => match cmp t t' with Eq => false | _ => true end) l') l.
  (** All pairs of different productions of a rule begin differently. *)
  Fixpoint pairs_differ (m : btmap NT (btset T)) (ps : list (ProdInner T NT AK AV)) : bool :=
    match ps with
    | [] => true
    | p :: ps => forallb (fun q => disjoint (starts_with m (body p)) (starts_with m (body q))) ps && pairs_differ m ps
    end.

  Definition test_grammar (lay : layout NT) (fuel : nat) : outcome bool :=
    r <- calculate_nullables lay g fuel ;;
    match r with
    | Err _ => Ret false
    | Ok info =>
        f <- calculate_firsts lay g fuel ;;
        match f with
        | Err _ => Ret false
        | Ok m =>
            u <- all_useful fuel ;;
            Ret (match get_nullable_set info with [] => true | _ => false end &&
                 forallb (fun r => pairs_differ m (r_prods r)) (rules g) && u)
        end
    end.
End Test.
