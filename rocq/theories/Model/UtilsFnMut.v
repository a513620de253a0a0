(** src/utils.rs: [fixed_point] and [breadth_first_search] with a function that has effects.  Both take an [FnMut]; its
    captured state is threaded as [S], and it may panic.  (In Model/Utils.v the function has no state; Proofs/FnMutFacts.v shows
    that those are the special cases.) *)
From Coq Require Import List.
From Verif.Model Require Import Ord BTree Outcome Utils.
Import ListNotations.

(** src/utils.rs:23-32 [fixed_point].  [eq] is [T: Eq]'s [==]. *)
Fixpoint fixed_point_mut {T S} (eq : T -> T -> bool) (apply : T -> S -> outcome (T * S)) (fuel : nat) (curr : T) (s : S) : outcome (T * S) :=
  match fuel with
  | 0 => NoFuel
  | Datatypes.S fuel' =>
      '(next, s') <- apply curr s ;;
      if eq next curr then Ret (curr, s') else fixed_point_mut eq apply fuel' next s'
  end.

Section BFS.
  Context {T S : Type} `{Ord T}.

  (** src/utils.rs:166-173: the loop over [curr_set]. *)
  Fixpoint bfs_round_mut (f : T -> S -> outcome (list T * S)) (curr : list T) (acc : btset T * btset T) (s : S)
    : outcome ((btset T * btset T) * S) :=
    match curr with
    | [] => Ret (acc, s)
    | next_item :: curr' =>
        '(step_items, s') <- f next_item s ;;
        bfs_round_mut f curr' (bfs_visit step_items acc) s'
    end.

  (** src/utils.rs:165-177: the [while] loop. *)
  Fixpoint bfs_loop_mut (f : T -> S -> outcome (list T * S)) (fuel : nat) (curr_set seen_set : btset T) (s : S) : outcome (btset T * S) :=
    match fuel with
    | 0 => NoFuel
    | Datatypes.S fuel' =>
        match curr_set with
        | [] => Ret (seen_set, s)
        | _ =>
            '((next_set, seen_set'), s') <- bfs_round_mut f curr_set ([], seen_set) s ;;
            bfs_loop_mut f fuel' next_set seen_set' s'
        end
    end.

  (** src/utils.rs:151-180 [breadth_first_search]. *)
  Definition breadth_first_search_mut (initial : list T) (f : T -> S -> outcome (list T * S)) (s : S) (fuel : nat) : outcome (btset T * S) :=
    bfs_loop_mut f fuel (bs_of_list initial) [] s.
End BFS.
