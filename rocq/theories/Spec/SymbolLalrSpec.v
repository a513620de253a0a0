(** Replacing the symbols and actions in productions, items and LALR states by the keys they are compared by. *)
From Coq Require Import List.
From Verif.Model Require Import Ord BTree Outcome Utils Grammar Nullable State Lalr.
From Verif.Spec Require Import RenameSpec SymbolSpec.
Import ListNotations.

Section Items.
  Context {T NT AK AV T' NT' AK' AV' : Type}.
  Variables (fT : T -> T') (fN : NT -> NT') (fK : AK -> AK') (fV : AV -> AV').
  (** The production with the same number in the rule of the same head. *)
  Definition keys_prod (p : Prod T NT AK AV) : Prod T' NT' AK' AV' := Build_Prod (fN (p_head p)) (p_ix p) (ren_prod fT fN fK fV (p_inner p)).
  (** The same position in it. *)
  Definition keys_item (s : ProdState T NT AK AV) : ProdState T' NT' AK' AV' := Build_ProdState (keys_prod (ps_prod s)) (ps_index s).
  (** An item with its lookahead. *)
  Definition keys_la (x : ProdState T NT AK AV * btset T) : ProdState T' NT' AK' AV' * btset T' := (keys_item (fst x), map fT (snd x)).
  (** An LALR state: its items with their lookaheads. *)
  Definition keys_state (s : ParseState T NT AK AV) : ParseState T' NT' AK' AV' := map keys_la s.
  (** Next elements with the sets of items after them. *)
  Definition keys_nexts (m : btmap (ProdElement T NT) (ProdStateSet T NT AK AV)) : btmap (ProdElement T' NT') (ProdStateSet T' NT' AK' AV') :=
    key_map (ren_pe fT fN) (map keys_item) m.
  (** Terminals with the states after them. *)
  Definition keys_shift (m : btmap T (ParseState T NT AK AV)) : btmap T' (ParseState T' NT' AK' AV') := key_map fT keys_state m.
End Items.
