(** Programs that get exactly the derivation trees of the input out of any forest: they list the trees up to some height and
    keep those whose leaves are the input. *)
From Coq Require Import List Arith Bool.
From Verif.Model Require Import Ord BTree Outcome Grammar Tokens Tree.
From Verif.Spec Require Import EarleySpec WalkSpec SizeSpec.
Import ListNotations.

(** Nodes on the longest way from the top to a leaf. *)
Fixpoint height {T AK V} (tr : ptree T AK V) : nat :=
  match tr with
  | PLeaf _ _ => 1
  | PBranch _ cs => 1 + fold_right (fun c h => max (height c) h) 0 cs
  end.

Section Program.
  Context {T AK V : Type} `{Ord T} `{Ord V}.
  Variable W : world T AK V.
  Local Notation pt := (ptree T AK V).

  (** The trees of height at most [k]. *)
  Fixpoint trees_upto (k : nat) (n : Node) : outcome (list pt) :=
    match k with
    | 0 => Ret []
    | S k =>
        l <- w_alts W n ;;
        trs <- each (fun a =>
          c <- w_content W a ;;
          match c with
          | NLeaf x v => Ret [PLeaf x v]
          | NBranch x ns => css <- each (trees_upto k) ns ;; Ret (map (PBranch x) (choose css))
          end) l ;;
        Ret (concat trs)
    end.

  Definition same_token (a b : Token T V) : bool := eqb (tk_kind a) (tk_kind b) && eqb (tk_value a) (tk_value b).
  Fixpoint same_tokens (l l' : list (Token T V)) : bool :=
    match l, l' with
    | [], [] => true
    | a :: l, b :: l' => same_token a b && same_tokens l l'
    | _, _ => false
    end.
  (** The trees whose leaves are the tokens [w], from left to right. *)
  Definition sift (w : list (Token T V)) (l : list pt) : list pt := filter (fun tr => same_tokens (yield tr) w) l.

  (** The first tree whose leaves are [w], trying heights [k], [k + 1], ... *)
  Fixpoint find_tree (fuel k : nat) (w : list (Token T V)) (n : Node) : outcome pt :=
    match fuel with
    | 0 => NoFuel
    | S fuel =>
        l <- trees_upto k n ;;
        match sift w l with
        | tr :: _ => Ret tr
        | [] => find_tree fuel (S k) w n
        end
    end.

  (** Are there two different trees of height at most [k] whose leaves are [w]? *)
  Fixpoint same_tree `{Ord AK} (a b : pt) : bool :=
    match a, b with
    | PLeaf x v, PLeaf y u => eqb x y && eqb v u
    | PBranch x cs, PBranch y ds =>
        eqb x y && (fix same cs ds :=
          match cs, ds with
          | [], [] => true
          | c :: cs, d :: ds => same_tree c d && same cs ds
          | _, _ => false
          end) cs ds
    | _, _ => false
    end.
  Definition two_trees `{Ord AK} (k : nat) (w : list (Token T V)) (n : Node) : outcome bool :=
    l <- trees_upto k n ;;
    match sift w l with
    | [] => Ret false
    | tr :: l => Ret (existsb (fun tr' => negb (same_tree tr tr')) l)
    end.
End Program.

(** A height that suffices: one level for each rule and piece of the input, and one for the leaves. *)
Definition height_bound {T NT AK AV} (g : Grammar T NT AK AV) (n : nat) : nat := length (rule_set g) * pieces n + 1.
