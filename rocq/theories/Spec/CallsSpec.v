(** The calls a higher-order function makes to its argument. *)
From Coq Require Import List Sorted.
From Verif.Model Require Import Ord Outcome.
Import ListNotations.

(** The calls [log] (arguments and answers), made in this order, take the state of [f] from [s] to [s']. *)
Inductive calls {A B S} (f : A -> S -> outcome (B * S)) : list (A * B) -> S -> S -> Prop :=
| calls_none s : calls f [] s s
| calls_then a b log s s1 s2 : f a s = Ret (b, s1) -> calls f log s1 s2 -> calls f ((a, b) :: log) s s2.

(** Each call is made with the answer of the one before, the first with [start]. *)
Fixpoint linked {A} (start : A) (log : list (A * A)) : Prop :=
  match log with
  | [] => True
  | (a, b) :: log' => a = start /\ linked b log'
  end.

Section Search.
  Context {T : Type} `{Ord T}.

  (** [y] is among the answers of the calls [log]. *)
  Definition answered (log : list (T * list T)) (y : T) : Prop := exists x ys, In (x, ys) log /\ In y ys.
  Definition increasing (l : list T) : Prop := StronglySorted (fun a b => cmp a b = Lt) l.
  (** [new] are the items answered for the first time in this round. *)
  Definition first_answered (past round : list (T * list T)) (new : list T) : Prop :=
    increasing new /\ forall y, In y new <-> answered round y /\ ~ answered past y.

  (** Breadth-first order: after the calls [past], a round of calls with [items] in order, then a round with the items
      answered there for the first time, in increasing order, and so on until there are no such items. *)
  Inductive by_rounds (past : list (T * list T)) : list T -> list (T * list T) -> Prop :=
  | br_end : by_rounds past [] []
  | br_round round new log : round <> [] -> first_answered past round new ->
      by_rounds (past ++ round) new log -> by_rounds past (map fst round) (round ++ log).

  (** After the calls [log] of such a search, [x] is the argument of the next call. *)
  Inductive next_call (past : list (T * list T)) : list T -> list (T * list T) -> T -> Prop :=
  | nc_here log x rest : next_call past (map fst log ++ x :: rest) log x
  | nc_later round new log x : round <> [] -> first_answered past round new ->
      next_call (past ++ round) new log x -> next_call past (map fst round) (round ++ log) x.
End Search.
