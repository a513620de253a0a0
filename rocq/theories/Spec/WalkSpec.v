(** Programs that read trees out of a forest, as a user can write them with [Node::alts], [Alternative::content],
    [Branch::nodes] and the accessors of [Leaf] and [Branch].  [fuel] bounds the depth of the recursion. *)
From Coq Require Import String List Arith.
From Verif.Model Require Import Ord BTree Outcome Tree.
From Verif.Spec Require Import EarleySpec.
Import ListNotations.

Section Program.
  Context {T AK V : Type}.
  Variable w : world T AK V.
  Local Notation pt := (ptree T AK V).

  (** [f] on each node in turn. *)
  Fixpoint each {A B} (f : A -> outcome B) (l : list A) : outcome (list B) :=
    match l with
    | [] => Ret []
    | x :: l => y <- f x ;; ys <- each f l ;; Ret (y :: ys)
    end.

  (** The tree got by always taking the first alternative. *)
  Fixpoint first_tree (fuel : nat) (n : Node) : outcome pt :=
    match fuel with
    | 0 => NoFuel
    | S fuel =>
        l <- w_alts w n ;;
        a <- expect (hd_error l) "called `Option::unwrap()` on a `None` value" ;;
        c <- w_content w a ;;
        match c with
        | NLeaf k v => Ret (PLeaf k v)
        | NBranch x ns => cs <- each (first_tree fuel) ns ;; Ret (PBranch x cs)
        end
    end.

  (** All ways to take one element of each list. *)
  Fixpoint choose {A} (ls : list (list A)) : list (list A) :=
    match ls with
    | [] => [[]]
    | l :: ls => flat_map (fun x => map (cons x) (choose ls)) l
    end.
  (** All trees: for each alternative, all trees of its children. *)
  Fixpoint all_trees (fuel : nat) (n : Node) : outcome (list pt) :=
    match fuel with
    | 0 => NoFuel
    | S fuel =>
        l <- w_alts w n ;;
        trs <- each (fun a =>
          c <- w_content w a ;;
          match c with
          | NLeaf k v => Ret [PLeaf k v]
          | NBranch x ns => css <- each (all_trees fuel) ns ;; Ret (map (PBranch x) (choose css))
          end) l ;;
        Ret (concat trs)
    end.

  (** [f] on each node in turn, up to the first one where it finds nothing. *)
  Fixpoint each_some {A B} (f : A -> outcome (option B)) (l : list A) : outcome (option (list B)) :=
    match l with
    | [] => Ret (Some [])
    | x :: l =>
        o <- f x ;;
        match o with
        | None => Ret None
        | Some y => ys <- each_some f l ;; Ret (option_map (cons y) ys)
        end
    end.
  (** The tree, if there is nothing to choose; it gives up at the first node that does not have exactly one alternative. *)
  Fixpoint only_tree (fuel : nat) (n : Node) : outcome (option pt) :=
    match fuel with
    | 0 => NoFuel
    | S fuel =>
        l <- w_alts w n ;;
        match l with
        | [a] =>
            c <- w_content w a ;;
            match c with
            | NLeaf k v => Ret (Some (PLeaf k v))
            | NBranch x ns => cs <- each_some (only_tree fuel) ns ;; Ret (option_map (PBranch x) cs)
            end
        | _ => Ret None
        end
    end.
End Program.
