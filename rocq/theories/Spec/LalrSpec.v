(** LR(1) item closure, and the closure the code computes. *)
From Coq Require Import List Arith Sorted.
From Verif.Model Require Import Ord BTree Outcome Grammar Firsts State Lalr.
From Verif.Spec Require Import Reach Cfg StateSpec.
Import ListNotations.

(** Of a list of items with several states of one production, the states that count: the first of each
    production (or the last), with the lookaheads of the last. *)
Definition kept {T NT AK AV} (keep_last : bool) (items : list (ProdState T NT AK AV * list T))
  (s : ProdState T NT AK AV) (ts : list T) : Prop :=
  (if keep_last then latest_in s (map fst items) else earliest_in s (map fst items)) /\
  exists s' l1 l2, items = l1 ++ (s', ts) :: l2 /\ ps_prod s' = ps_prod s /\
    forall y, In y l2 -> ps_prod (fst y) <> ps_prod s.

Section LalrSpec.
  Context {T NT AK AV : Type}.
  Variable g : Grammar T NT AK AV.
  Local Notation PS := (ProdState T NT AK AV).
  (** [item s ts]: state [s] is given with the lookaheads [ts]. *)
  Variable item : PS -> list T -> Prop.

  (** The symbols still to be read in a state. *)
  Definition todo (s : PS) : list (Elem T NT) := skipn (ps_index s) (elements (ps_prod s)).

  (** LR(1) closure, as in the textbooks: from A -> a . B b with lookahead [t], every production of B
      at its start, with every terminal that can begin what follows B. *)
  Inductive lr1 : PS -> T -> Prop :=
  | lr1_item s ts t : item s ts -> In t ts -> lr1 s t
  | lr1_step s t B rest p b more :
      lr1 s t -> todo s = NonTerm B :: rest -> In p (prods g) -> p_head p = B ->
      derives_form (rhs_of g) (rest ++ [Term t]) (Term b :: more) ->
      lr1 (Build_ProdState p 0) b.

  (** What the code computes: one state per production, and only the symbol right after B is used.
      [carries p t]: the (only) state of production [p] has lookahead [t]; [present s]: state [s] is in
      the set; [looks s t]: [t] is propagated to the productions of the nonterminal at the dot of [s]. *)
  Inductive carries : Prod T NT AK AV -> T -> Prop :=
  | carries_item s ts t : item s ts -> In t ts -> carries (ps_prod s) t
  | carries_step s B rest p t :
      present s -> todo s = NonTerm B :: rest -> In p (prods g) -> p_head p = B -> looks s t -> carries p t
  with present : PS -> Prop :=
  | present_item s ts : item s ts -> present s
  | present_new p t :
      carries p t -> (forall s ts, item s ts -> ps_prod s <> p) -> present (Build_ProdState p 0)
  with looks : PS -> T -> Prop :=
  | looks_term s B t rest : todo s = NonTerm B :: Term t :: rest -> looks s t
  | looks_nonterm s B C rest t : todo s = NonTerm B :: NonTerm C :: rest -> first_of (rhs_of g) C t -> looks s t
  | looks_end s B t : todo s = [NonTerm B] -> carries (ps_prod s) t -> looks s t.

  (** The items are of different productions. *)
  Definition one_per_prod : Prop := forall s ts s' ts', item s ts -> item s' ts' ->
    ps_prod s = ps_prod s' -> s = s' /\ ts = ts'.

  (** No item of a production in progress whose start is also in the LR(1) closure. *)
  Definition no_collision : Prop := forall s ts, item s ts -> ps_index s <> 0 ->
    forall t, ~ lr1 (Build_ProdState (ps_prod s) 0) t.
End LalrSpec.
Scheme carries_mut := Induction for carries Sort Prop
  with present_mut := Induction for present Sort Prop
  with looks_mut := Induction for looks Sort Prop.
Combined Scheme closure_mut from carries_mut, present_mut, looks_mut.

(** An item the API can produce for [g]: a position in a production of [g], and a set of terminals. *)
Definition item_of {T NT AK AV} `{Ord T} `{Ord NT} (g : Grammar T NT AK AV) (it : ProdState T NT AK AV * btset T) : Prop :=
  In (ps_prod (fst it)) (prods g) /\ position (ps_prod (fst it)) (fst it) /\
  StronglySorted (fun a b => cmp a b = Lt) (snd it).

(** The items of parse state [self] moved over terminal [t]. *)
Definition moved {T NT AK AV} (self : list (ProdState T NT AK AV * list T)) (t : T)
  (s' : ProdState T NT AK AV) (ts : list T) : Prop :=
  exists s rest, In (s, ts) self /\ todo s = Term t :: rest /\ s' = Build_ProdState (ps_prod s) (S (ps_index s)).

(** The next-but-one symbol is a nonterminal for which the Firsts pass has no entry (C15). *)
Definition undefined {T NT AK AV} (g : Grammar T NT AK AV) (s : ProdState T NT AK AV) : Prop :=
  exists A C rest, todo s = NonTerm A :: NonTerm C :: rest /\
    forall e, can_be_first (rhs_of g) C e -> e = NonTerm C.

(** The parse states the API can produce. *)
Inductive lalr_state {T NT AK AV} `{Ord T} `{Ord NT} (lay : layout NT) (g : Grammar T NT AK AV) (keep_last : bool)
  : ParseState T NT AK AV -> Prop :=
| ls_items items m :
    Forall (item_of g) items ->
    runs_to (fun n => from_prod_lookahead lay g keep_last items n) (Ret (Ok m)) -> lalr_state lay g keep_last m
| ls_shift m acts t m' :
    lalr_state lay g keep_last m ->
    runs_to (fun n => shift_actions lay g keep_last m n) (Ret (Ok acts)) -> In (t, m') acts ->
    lalr_state lay g keep_last m'.
