(** Histories of production states and of sets of them. *)
From Coq Require Import List Arith.
From Verif.Model Require Import Ord BTree Outcome Grammar State.
Import ListNotations.

Section Positions.
  Context {T NT AK AV : Type} `{Ord T} `{Ord NT}.
  Local Notation PS := (ProdState T NT AK AV).

  (** The states the API can produce for production [p]: [from_start], then any sequence of
      [next_elem_state] and [advance_if] calls. *)
  Inductive position (p : Prod T NT AK AV) : PS -> Prop :=
  | pos_start : position p (from_start p)
  | pos_next s e s' : position p s -> next_elem_state s = Some (e, s') -> position p s'
  | pos_advance s e s' : position p s -> advance_if s e = Some s' -> position p s'.

  (** Reading elements one after the other with [next_elem_state] until there is none. *)
  Inductive reads : PS -> list (ProdElement T NT) -> Prop :=
  | reads_end s : next_elem_state s = None -> reads s []
  | reads_more s e s' l : next_elem_state s = Some (e, s') -> reads s' l -> reads s (e :: l).
End Positions.

Section Sets.
  Context {T NT AK AV : Type} `{Ord T} `{Ord NT}.
  Local Notation PS := (ProdState T NT AK AV).
  Variable lay : layout NT.

  (** [add]ing the states of [l] one by one to a new set. *)
  Definition adds (l : list PS) : ProdStateSet T NT AK AV := fold_left (pss_add lay) l pss_new_empty.

  (** The sets the API can produce. *)
  Inductive pss_built : ProdStateSet T NT AK AV -> Prop :=
  | pb_empty : pss_built pss_new_empty
  | pb_from_iter keep_last l : pss_built (pss_from_iter lay keep_last l)
  | pb_add s st : pss_built s -> pss_built (pss_add lay s st)
  | pb_nexts s e s' : pss_built s -> In (e, s') (pss_nexts lay s) -> pss_built s'
  | pb_closure (St : Type) (F : PS -> St -> list PS * St) s st n s' st' :
      pss_built s -> take_closure lay F s st n = Ret (s', st') -> pss_built s'.

  (** [x] is the first (last) state of its production in [l]. *)
  Definition earliest_in (x : PS) (l : list PS) : Prop :=
    exists l1 l2, l = l1 ++ x :: l2 /\ forall y, In y l1 -> ps_prod y <> ps_prod x.
  Definition latest_in (x : PS) (l : list PS) : Prop :=
    exists l1 l2, l = l1 ++ x :: l2 /\ forall y, In y l2 -> ps_prod y <> ps_prod x.

  (** A closure function that also records its calls and their results, oldest first. *)
  Definition logged {St} (F : PS -> St -> list PS * St)
    (s : PS) (st : St * list (PS * list PS)) : list PS * (St * list (PS * list PS)) :=
    let '(ys, st') := F s (fst st) in (ys, (st', snd st ++ [(s, ys)])).
End Sets.
