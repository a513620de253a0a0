(** Sizes of empty derivations and of null-free grammars. *)
From Coq Require Import String List Arith.
From Verif.Model Require Import Ord BTree Grammar Nullable NonNull.
From Verif.Spec Require Import Cfg NullSpec.
Import ListNotations.
Local Open Scope nat_scope.

(** The nodes of an action tree.  Each is a separate piece of memory: subtrees are cloned (src/utils.rs:119-131,
    src/grammar/passes/nullable/nullables.rs:195-198). *)
Fixpoint tree_nodes {L V} (t : TreeNode L V) : nat :=
  match t with TNode _ ps => S (list_sum (map (fun p => value_nodes (snd p)) ps)) end
with value_nodes {L V} (v : TreeValue L V) : nat :=
  match v with TVNode t => tree_nodes t | TVLeaf _ => 0 end.

(** 1 + b + b^2 + ... (n terms). *)
Fixpoint geometric (b n : nat) : nat := match n with 0 => 0 | S n => 1 + b * geometric b n end.

Section NullSize.
  Context {T NT AK AV : Type}.
  Variable g : Grammar T NT AK AV.
  (** [n] of the elements are nonterminals that derive the empty word. *)
  Inductive null_occurrences : list (ProdElement T NT) -> nat -> Prop :=
  | no_nil : null_occurrences [] 0
  | no_term e t es n : pe_elem e = Term t -> null_occurrences es n -> null_occurrences (e :: es) n
  | no_other e B es n : pe_elem e = NonTerm B -> ~ derives_empty g B -> null_occurrences es n -> null_occurrences (e :: es) n
  | no_null e B es n : pe_elem e = NonTerm B -> derives_empty g B -> null_occurrences es n -> null_occurrences (e :: es) (S n).

  (** How many productions a production gives. *)
  Definition variant_count (p : ProdInner T NT AK AV) (n : nat) : Prop :=
    (body_derives_empty g p /\ n = 0) \/ (~ body_derives_empty g p /\ exists k, null_occurrences (pi_elements p) k /\ n = 2 ^ k).
End NullSize.

(** i -> l:(i+1) r:(i+1) for i < n, and n -> (empty). *)
Definition doubling (n : nat) : list (gb_call nat nat nat nat) :=
  map (fun i => AddRule i [AddProd 0 0 [AddNamedNonterm "l"%string (S i); AddNamedNonterm "r"%string (S i)]]) (seq 0 n) ++ [AddRule n [AddProd 0 0 []]].

(** 0 -> x 1 1 ... 1 (n times), 1 -> (empty) | y. *)
Definition optional (n : nat) : list (gb_call nat nat nat nat) :=
  [AddRule 0 [AddProd 0 0 (AddTerm 0 :: repeat (AddNonterm 1) n)]; AddRule 1 [AddProd 1 0 []; AddProd 2 0 [AddTerm 1]]].
