(** What a Debug text can tell. *)
From Coq Require Import String Ascii List Bool.
From Verif.Model Require Import Ord BTree Outcome Utils Grammar Nullable State Debug.
Import ListNotations.
Local Open Scope string_scope.

(** Words: what is left of a text without white space and the punctuation of Debug texts. *)
Definition dbg_space (c : ascii) : bool := Ascii.eqb c " " || Ascii.eqb c "010".
Definition dbg_punct (c : ascii) : bool :=
  existsb (Ascii.eqb c) ["<"; ">"; ","; "{"; "}"; "["; "]"; "("; ")"; ":"]%char.
Fixpoint no_sep (s : string) : bool :=
  match s with "" => true | String c s => negb (dbg_space c || dbg_punct c) && no_sep s end.
Definition is_word (s : string) : Prop := s <> "" /\ no_sep s = true.

(** The Debug implementations the compiler derives, over words: a unit variant or a number is a word, a
    struct has named fields, a tuple struct unnamed ones, and vectors and sets have items. *)
Inductive derived : fcall -> Prop :=
| dv_word s : is_word s -> derived (FStr s)
| dv_struct n fs : is_word n -> fs <> [] -> Forall (fun fc => is_word (fst fc) /\ derived (snd fc)) fs -> derived (FStruct n fs)
| dv_tuple n xs : is_word n -> xs <> [] -> Forall derived xs -> derived (FTuple n xs)
| dv_list xs : Forall derived xs -> derived (FList xs)
| dv_set xs : Forall derived xs -> derived (FSet xs).

(** Different values of the type make different calls. *)
Definition dbg_inj (A : Type) `{Debug A} : Prop := forall x y : A, dbg x = dbg y -> x = y.

Section Shown.
  Context {T NT AK AV : Type} {DT : Debug T} {DN : Debug NT}.
  (** The name of an element, if any, is a word, and the Debug implementation of its symbol is a derived one. *)
  Definition word_elem (e : ProdElement T NT) : Prop :=
    (forall n, pe_id e = Some n -> is_word n) /\
    match pe_elem e with Term t => derived (dbg t) | NonTerm n => derived (dbg n) end.
  Definition word_prod (p : Prod T NT AK AV) : Prop := derived (dbg (p_head p)) /\ Forall word_elem (prod_elements p).
  Definition word_grammar (g : Grammar T NT AK AV) : Prop :=
    forall r, In r (rules g) -> derived (dbg (r_head r)) /\ forall p, In p (r_prods r) -> Forall word_elem (pi_elements p).

  (** The rules of a grammar: heads and bodies with element names, without actions. *)
  Definition rule_shapes (g : Grammar T NT AK AV) : list (NT * list (list (ProdElement T NT))) :=
    map (fun r => (r_head r, map pi_elements (r_prods r))) (rules g).
End Shown.

(** The parameter names of an action tree are words, and its actions and leaves have derived implementations. *)
Inductive word_tree {L V : Type} {DL : Debug L} {DV : Debug V} : TreeNode L V -> Prop :=
| wt a ps : derived (dbg a) -> (forall n v, In (n, v) ps -> is_word n) ->
    (forall n t, In (n, TVNode t) ps -> word_tree t) -> (forall n v, In (n, TVLeaf v) ps -> derived (dbg v)) ->
    word_tree (TNode a ps).
