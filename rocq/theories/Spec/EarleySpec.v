(** What an Earley parser computes, independent of its code: predicted nonterminals, viable prefixes, and
    derivation trees. *)
From Coq Require Import List Arith.
From Verif.Model Require Import Ord Outcome Grammar Tokens Tree.
From Verif.Spec Require Import Reach Cfg TreeSpec.
Import ListNotations.

(** The part of [w] from position [i] up to position [k]. *)
Definition seg {A} (w : list A) (i k : nat) : list A := firstn (k - i) (skipn i w).

Section Recognition.
  Context {T NT : Type}.
  Variable P : NT -> list (Elem T NT) -> Prop.
  Variable S : NT.
  Variable w : list T.

  (** [A] may begin at position [i], given the input before [i]. *)
  Inductive predicted : nat -> NT -> Prop :=
  | predicted_start : predicted 0 S
  | predicted_next i A pre B post k :
      predicted i A -> P A (pre ++ NonTerm B :: post) -> i <= k -> k <= length w -> gen P pre (seg w i k) ->
      predicted k B.

  (** At position [k] some production that began at a position [i] can be in two different places: both a
      part of its body and a longer part of it derive the input from [i] to [k]. *)
  Definition two_places (k : nat) : Prop :=
    exists i A pre mid post, predicted i A /\ P A (pre ++ mid ++ post) /\ mid <> [] /\ i <= k /\ k <= length w /\
      gen P pre (seg w i k) /\ gen P (pre ++ mid) (seg w i k).

  (** [u] is the beginning of a sentential form. *)
  Definition viable (u : list T) : Prop := exists rest, derives_form P [NonTerm S] (map Term u ++ rest).

  (** The ways to cut the input between [i] and [k] into pieces derived by the symbols [es]: the list of the
      ends of the pieces. *)
  Inductive cuts : list (Elem T NT) -> nat -> nat -> list nat -> Prop :=
  | cuts_nil i : cuts [] i i []
  | cuts_cons e es i j k cs : i <= j -> j <= length w -> gen P [e] (seg w i j) -> cuts es j k cs -> cuts (e :: es) i k (j :: cs).

  (** Every part of a production that occurs while parsing [w] cuts the input in only one way. *)
  Definition unique_cuts : Prop := forall i A pre post k cs cs',
    predicted i A -> P A (pre ++ post) -> cuts pre i k cs -> cuts pre i k cs' -> cs = cs'.

  (** No nonterminal derives the empty word or a proper prefix of another of its words. *)
  Definition prefix_free : Prop := forall A u v, lang P A u -> u <> [] /\ (lang P A (u ++ v) -> v = []).

  (** Every nonterminal reachable from [S] derives a word. *)
  Definition productive : Prop :=
    forall A, star (fun X Y => exists rhs, P X rhs /\ In (NonTerm Y) rhs) S A -> exists u, lang P A u.
End Recognition.

(** Derivation trees as the API shows them: leaves carry kind and value, branches an action key. *)
Inductive ptree (T AK V : Type) :=
| PLeaf (kind : T) (value : V)
| PBranch (action : AK) (children : list (ptree T AK V)).
Arguments PLeaf {T AK V} kind value.
Arguments PBranch {T AK V} action children.

Section Trees.
  Context {T NT AK AV V : Type}.
  Variable g : Grammar T NT AK AV.

  (** [dtree e ts t]: [t] is a derivation tree of the token sequence [ts] from the symbol [e]. *)
  Inductive dtree : Elem T NT -> list (Token T V) -> ptree T AK V -> Prop :=
  | dtree_leaf k v : dtree (Term k) [Build_Token k v] (PLeaf k v)
  | dtree_branch A p ts cs : prod_of g A p -> dtrees (map pe_elem (pi_elements p)) ts cs ->
      dtree (NonTerm A) ts (PBranch (pi_action_key p) cs)
  with dtrees : list (Elem T NT) -> list (Token T V) -> list (ptree T AK V) -> Prop :=
  | dtrees_nil : dtrees [] [] []
  | dtrees_cons e es ts us c cs : dtree e ts c -> dtrees es us cs -> dtrees (e :: es) (ts ++ us) (c :: cs).

  (** A tree that uses the grammar's productions correctly, whatever it derives. *)
  Definition conforms (e : Elem T NT) (t : ptree T AK V) : Prop := exists ts, dtree e ts t.

  (** The tokens at the leaves of a tree. *)
  Fixpoint yield (t : ptree T AK V) : list (Token T V) :=
    match t with
    | PLeaf k v => [Build_Token k v]
    | PBranch _ cs => flat_map yield cs
    end.
End Trees.

Section Reads.
  Context {T AK V : Type}.

  (** [reads t n tr]: [tr] can be read off node [n] of the forest [t] by choosing an alternative at every
      node. *)
  Inductive reads (t : Inner T AK V) : nat -> ptree T AK V -> Prop :=
  | reads_leaf n s a k v : get_node t n = Ret s -> In a s -> get_alt t a = Ret (CLeaf k v) -> reads t n (PLeaf k v)
  | reads_branch n s a x ns cs : get_node t n = Ret s -> In a s -> get_alt t a = Ret (CBranch x ns) ->
      reads_all t ns cs -> reads t n (PBranch x cs)
  with reads_all (t : Inner T AK V) : list nat -> list (ptree T AK V) -> Prop :=
  | reads_all_nil : reads_all t [] []
  | reads_all_cons n ns c cs : reads t n c -> reads_all t ns cs -> reads_all t (n :: ns) (c :: cs).
End Reads.

Section Pieces.
  Context {T NT AK AV V : Type}.
  Variable g : Grammar T NT AK AV.
  Variable w : list (Token T V).
  Local Notation P := (rhs_of g).
  Local Notation kw := (map tk_kind w).

  (** [pieced e i k tr]: [tr] is put together from pieces of [w].  A leaf is the token at [i].  A branch at
      [i], [k] is a production whose body derives the input from [i] to [k]; each child is put together, in the
      same way, from a piece of the input which begins where the symbols before it can end, and which for the
      last child ends at [k].  The pieces of different children need not fit together. *)
  Inductive pieced : Elem T NT -> nat -> nat -> ptree T AK V -> Prop :=
  | pieced_leaf i k v : nth_error w i = Some (Build_Token k v) -> pieced (Term k) i (S i) (PLeaf k v)
  | pieced_branch A p i k cs : prod_of g A p -> i <= k -> k <= length w ->
      gen P (map pe_elem (pi_elements p)) (seg kw i k) ->
      length cs = length (pi_elements p) ->
      (forall c e tr, nth_error (map pe_elem (pi_elements p)) c = Some e -> nth_error cs c = Some tr ->
         exists a b, i <= a /\ gen P (firstn c (map pe_elem (pi_elements p))) (seg kw i a) /\
           (S c = length (pi_elements p) -> b = k) /\ pieced e a b tr) ->
      pieced (NonTerm A) i k (PBranch (pi_action_key p) cs).
End Pieces.

(** A tree some program has built through the API. *)
Definition api_tree {T AK V} `{Ord T} `{Ord AK} `{Ord V} (t : Inner T AK V) : Prop :=
  exists tr w h, run tr w /\ known_tree tr h /\ nth_error w h = Some t.
