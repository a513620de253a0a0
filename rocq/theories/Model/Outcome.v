(** Result of running a piece of Rust code: it returns, panics, or (in the fuelled model only) has
    not finished within the given number of loop iterations. *)
From Coq Require Import String List.
Import ListNotations.

Inductive outcome (A : Type) : Type :=
| Ret (a : A)
| Panic (msg : string)   (** a Rust panic; [msg] identifies the panic site *)
| NoFuel.                (** fuel exhausted: the loop has not exited yet *)
Arguments Ret {A} a.
Arguments Panic {A} msg.
Arguments NoFuel {A}.

Definition obind {A B} (x : outcome A) (f : A -> outcome B) : outcome B :=
  match x with
  | Ret a => f a
  | Panic m => Panic m
  | NoFuel => NoFuel
  end.

Declare Scope outcome_scope.
Notation "x <- e ;; k" := (obind e (fun x => k))
  (at level 100, e at next level, right associativity) : outcome_scope.
Notation "' p <- e ;; k" := (obind e (fun p => k))
  (at level 100, p pattern, e at next level, right associativity) : outcome_scope.
Open Scope outcome_scope.

(** [assert!] *)
Definition assert_ (b : bool) (msg : string) : outcome unit :=
  if b then Ret tt else Panic msg.

(** [Option::unwrap] / [expect]. *)
Definition expect {A} (x : option A) (msg : string) : outcome A :=
  match x with Some a => Ret a | None => Panic msg end.

(** Rust [Result]. *)
Inductive result (A E : Type) : Type :=
| Ok (a : A)
| Err (e : E).
Arguments Ok {A E} a.
Arguments Err {A E} e.

(** "Running [f] with enough fuel gives [r]": the meaning of a terminating execution.  All fuelled
    functions of the model are monotone in fuel (proved where used). *)
Definition runs_to {A} (f : nat -> outcome A) (r : outcome A) : Prop :=
  r <> NoFuel /\ exists n, forall fuel, n <= fuel -> f fuel = r.

(** Never finishes, however much fuel is given. *)
Definition diverges {A} (f : nat -> outcome A) : Prop :=
  forall fuel, f fuel = NoFuel.
