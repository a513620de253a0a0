(** Specifications for the generic helpers. *)
From Coq Require Import List.
From Verif.Model Require Import Outcome Utils.
Import ListNotations.

(** The calls made by a loop over [items]: each item is passed once, in order, with the state left by
    the previous call; [reports] are the reports of the calls, in order. *)
Inductive calls_in_order {S I} (f : I -> S -> outcome (WasChanged * S))
  : list I -> S -> list WasChanged -> S -> Prop :=
| cio_nil s : calls_in_order f [] s [] s
| cio_cons i is s c s1 cs s2 :
    f i s = Ret (c, s1) -> calls_in_order f is s1 cs s2 -> calls_in_order f (i :: is) s (c :: cs) s2.

(** [yields next s l]: called repeatedly, the iterator [next] in state [s] returns the items [l] and then
    reports that it has no more. *)
Inductive yields {S A} (next : S -> option A * S) : S -> list A -> Prop :=
| yields_end s s' : next s = (None, s') -> yields next s []
| yields_item s v s' l : next s = (Some v, s') -> yields next s' l -> yields next s (v :: l).

(** [n] calls reporting [Changed], then one reporting [Unchanged]. *)
Inductive until_unchanged {St} (f : St -> outcome (WasChanged * St)) : nat -> St -> St -> Prop :=
| uu_last s s' : f s = Ret (Unchanged, s') -> until_unchanged f 0 s s'
| uu_more n s s1 s' : f s = Ret (Changed, s1) -> until_unchanged f n s1 s' -> until_unchanged f (S n) s s'.

(** Abstract content of a map of sets: which keys are present, and which pairs it holds. *)
Record mapset (K V : Type) := { ms_has : K -> Prop; ms_rel : K -> V -> Prop }.
Arguments ms_has {K V} _ _.
Arguments ms_rel {K V} _ _ _.

Inductive cm_op (K V : Type) :=
| CInsert (k : K) (v : V)
| CInsertIter (k : K) (vs : list V)
| CInsertFromKeySet (k src : K).
Arguments CInsert {K V} _ _.
Arguments CInsertIter {K V} _ _.
Arguments CInsertFromKeySet {K V} _ _.

(** The pairs an operation adds. *)
Definition op_adds {K V} (o : cm_op K V) (m : mapset K V) (k : K) (v : V) : Prop :=
  match o with
  | CInsert k' v' => k = k' /\ v = v'
  | CInsertIter k' vs => k = k' /\ In v vs
  | CInsertFromKeySet k' src => k = k' /\ ms_rel m src v
  end.
(** The keys an operation makes present. *)
Definition op_touches {K V} (o : cm_op K V) (k : K) : Prop :=
  match o with
  | CInsert k' _ => k = k'
  | CInsertIter k' vs => k = k' /\ vs <> []
  | CInsertFromKeySet k' src => k = k' /\ k' <> src
  end.
Definition op_abs {K V} (o : cm_op K V) (m : mapset K V) : mapset K V :=
  {| ms_has := fun k => ms_has m k \/ op_touches o k;
     ms_rel := fun k v => ms_rel m k v \/ op_adds o m k v |}.
(** The operation adds a pair that was not there. *)
Definition op_grows {K V} (o : cm_op K V) (m : mapset K V) : Prop :=
  exists k v, op_adds o m k v /\ ~ ms_rel m k v.
