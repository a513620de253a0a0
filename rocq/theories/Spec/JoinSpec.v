(** Merging by least upper bounds. *)
From Coq Require Import List.
From Verif.Model Require Import Ord Outcome Utils Mergeables.
From Verif.Spec Require Import MergeSpec.
Import ListNotations.

Section JoinSpec.
  Context {K V : Type} `{Ord K}.
  Variable le : V -> V -> Prop.
  Variable merge : V -> V -> WasChanged * V.

  (** [merge] replaces a value by its least upper bound with the other, and reports [Unchanged] exactly if the other one was
      below already. *)
  Record joins : Prop := {
    le_refl : forall a, le a a;
    le_trans : forall a b c, le a b -> le b c -> le a c;
    le_antisym : forall a b, le a b -> le b a -> a = b;
    join_left : forall a b, le a (snd (merge a b));
    join_right : forall a b, le b (snd (merge a b));
    join_least : forall a b u, le a u -> le b u -> le (snd (merge a b)) u;
    join_report : forall a b, fst (merge a b) = Unchanged <-> le b a
  }.

  (** [v] was inserted under a key equal to [k]. *)
  Definition inserted (h : list (mm_op K V)) (k : K) (v : V) : Prop :=
    exists op, In op h /\ cmp k (v_key (op_value op)) = Eq /\ v_value (op_value op) = v.

  (** Key by key, [m2] holds at least what [m1] holds. *)
  Definition holds (m : MergableMap K V) (k : K) (v : V) : Prop := exists e, mm_get_entry m k = Some e /\ le v (v_value e).
  Definition map_below (m1 m2 : MergableMap K V) : Prop := forall k e, mm_get_entry m1 k = Some e -> holds m2 k (v_value e).

  (** The program [change_loop(|| change_iter(f(&map), |v| map.insert(v)))]. *)
  Definition insert_until_stable (f : MergableMap K V -> list (Value K V)) (m : MergableMap K V) (fuel : nat) : outcome (MergableMap K V) :=
    change_loop (fun m => change_iter (fun v m => Ret (mm_insert merge m v)) (f m) m) fuel m.
  (** Nothing [f] gives is missing. *)
  Definition all_held (f : MergableMap K V -> list (Value K V)) (m : MergableMap K V) : Prop :=
    forall v, In v (f m) -> holds m (v_key v) (v_value v).
End JoinSpec.
