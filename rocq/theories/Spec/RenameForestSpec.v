(** The same forest under other names. *)
From Coq Require Import List NArith.
From Verif.Model Require Import Ord BTree Outcome Utils Grammar StartGrammar Tokens Tree.
From Verif.Spec Require Import EarleySpec.
Import ListNotations.

(** The renaming of the nonterminals of the wrapped grammar: the added start symbol stays. *)
Definition ren_snt {NT NT'} (f : NT -> NT') (x : StartNonTerminal NT) : StartNonTerminal NT' :=
  match x with Start => Start | NTerm A => NTerm (f A) end.

(** Corresponding productions lie in the same order in memory. *)
Definition same_order {NT NT'} (f : NT -> NT') (lay : layout (StartNonTerminal NT)) (lay' : layout (StartNonTerminal NT')) : Prop :=
  forall A i B j, N.compare (lay' (ren_snt f A) i) (lay' (ren_snt f B) j) = N.compare (lay A i) (lay B j).

Section Forests.
  Context {T AK V T' AK' V' : Type}.
  Variables (fT : T -> T') (fK : AK -> AK') (fX : V -> V').

  Definition ren_token (x : Token T V) : Token T' V' := Build_Token (fT (tk_kind x)) (fX (tk_value x)).
  Definition ren_content (c : ContentInner T AK V) : ContentInner T' AK' V' :=
    match c with CLeaf k v => CLeaf (fT k) (fX v) | CBranch a ns => CBranch (fK a) ns end.

  (** Node by node the same alternatives (by number); alternative by alternative the renamed content. *)
  Definition same_forest (t : Inner T AK V) (t' : Inner T' AK' V') : Prop :=
    (forall n, get_node t' n = get_node t n) /\
    (forall a, get_alt t' a = match get_alt t a with Ret c => Ret (ren_content c) | Panic m => Panic m | NoFuel => NoFuel end).

  Fixpoint ren_ptree (t : ptree T AK V) : ptree T' AK' V' :=
    match t with PLeaf k v => PLeaf (fT k) (fX v) | PBranch a cs => PBranch (fK a) (map ren_ptree cs) end.
End Forests.
