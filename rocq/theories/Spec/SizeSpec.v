(** Sizes: of a grammar, of the forest below a node, and how much a parser may use. *)
From Coq Require Import List Arith.
From Verif.Model Require Import Ord BTree Outcome Grammar Tokens Tree.
From Verif.Spec Require Import Reach.
Import ListNotations.

Section Grammar.
  Context {T NT AK AV : Type} (g : Grammar T NT AK AV).
  Definition all_prods : list (ProdInner T NT AK AV) := flat_map (fun ar => r_prods (snd ar)) (rule_set g).
  (** The number of productions, and the number of symbols on all right-hand sides. *)
  Definition nprods : nat := length all_prods.
  Definition nsyms : nat := list_sum (map (fun p => length (pi_elements p)) all_prods).

  (** The number of pieces [i .. k] of an input of length [n]. *)
  Definition pieces (n : nat) : nat := (n + 1) * (n + 2) / 2.

  (** Alternatives: one per token, and one per production and piece of the input. *)
  Definition alts_bound (n : nat) : nat := n + nprods * pieces n.
  (** Nodes: the root, and one per symbol on a right-hand side and piece of the input. *)
  Definition nodes_bound (n : nat) : nat := 1 + nsyms * pieces n.

  (** States at one position (the start production counts). *)
  Definition states_bound (n : nat) : nat := (nprods + 1) * (n + 1).
  (** Rounds of the loop at one position. *)
  Definition rounds_bound (n : nat) : nat := 1 + states_bound n + (nsyms + 2) * (n + 1) * alts_bound n.
  (** Nodes made altogether, those that are thrown away included. *)
  Definition made_bound (n : nat) : nat :=
    (n + 1) * (rounds_bound n * (states_bound n * states_bound n)) + n * states_bound n.
End Grammar.

Section Forest.
  Context {T AK V : Type} (t : Inner T AK V).
  (** [n'] is a child of [n]: it occurs in an alternative of [n]. *)
  Definition child (n n' : nat) : Prop := exists s a x ns,
    get_node t n = Ret s /\ In a s /\ get_alt t a = Ret (CBranch x ns) /\ In n' ns.
  (** The nodes and alternatives of the forest below [m]. *)
  Definition forest_node (m n : nat) : Prop := star child m n.
  Definition forest_alt (m a : nat) : Prop := exists n s, forest_node m n /\ get_node t n = Ret s /\ In a s.
End Forest.
