(** A program that finds out whether an input has infinitely many readings, and otherwise lists all of them. *)
From Coq Require Import List Arith Bool.
From Verif.Model Require Import Ord BTree Outcome Grammar Tokens Tree.
From Verif.Spec Require Import EarleySpec WalkSpec SizeSpec SiftSpec.
Import ListNotations.

(** [None]: infinitely many.  [bound] is a height above which trees repeat a rule on the same piece of the input. *)
Definition readings {T AK V} `{Ord T} `{Ord V} (W : world T AK V) (bound : nat) (w : list (Token T V)) (n : Node)
  : outcome (option (list (ptree T AK V))) :=
  l <- trees_upto W (2 * bound) n ;;
  let s := sift w l in
  Ret (if existsb (fun tr => bound <? height tr) s then None else Some s).
