(** src/utils/mergeables.rs: values that can be merged, and a map of them.  References are modelled by
    the values they refer to, and [clone] of keys and values by identity. *)
From Coq Require Import List.
From Verif.Model Require Import Ord BTree Utils.
Import ListNotations.

(** mergeables.rs:9-25 [Value]; 27-40 [ValueRef] (the same pair, borrowed). *)
Record Value (K V : Type) := { v_key : K; v_value : V }.
Arguments Build_Value {K V} _ _.
Arguments v_key {K V} _.
Arguments v_value {K V} _.

(** mergeables.rs:66-70 [ValueCow]. *)
Inductive ValueCow (K V : Type) :=
| Owned (v : Value K V)
| Borrowed (r : Value K V).
Arguments Owned {K V} v.
Arguments Borrowed {K V} r.

Section Mergeables.
  Context {K V : Type} `{Ord K}.

  (** mergeables.rs:73-84 [as_ref] *)
  Definition cow_as_ref (c : ValueCow K V) : Value K V := match c with Owned v => v | Borrowed r => r end.
  (** mergeables.rs:47-52 [ValueRef::to_value] (clones). *)
  Definition to_value (r : Value K V) : Value K V := Build_Value (v_key r) (v_value r).
  (** mergeables.rs:113-118 [into_owned] *)
  Definition cow_into_owned (c : ValueCow K V) : Value K V :=
    match c with Owned v => v | Borrowed r => to_value r end.

  (** mergeables.rs:153-155 [MergableMap] *)
  Definition MergableMap := btmap K V.
  (** mergeables.rs:170-174 [new] *)
  Definition mm_new : MergableMap := [].

  (** mergeables.rs:5-7 [Mergable::merge]: the report and the new value of [self]. *)
  Variable merge : V -> V -> WasChanged * V.

  (** mergeables.rs:176-184 [insert] *)
  Definition mm_insert (m : MergableMap) (val : Value K V) : WasChanged * MergableMap :=
    match bt_get (v_key val) m with
    | Some old => let '(c, new) := merge old (v_value val) in (c, bt_insert (v_key val) new m)
    | None => (Changed, bt_insert (v_key val) (v_value val) m)
    end.

  (** mergeables.rs:186-191 [get_entry] *)
  Definition mm_get_entry (m : MergableMap) (key : K) : option (Value K V) :=
    option_map (fun kv => Build_Value (fst kv) (snd kv)) (bt_get_kv key m).

  (** mergeables.rs:199-211 [insert_cow] *)
  Definition mm_insert_cow (m : MergableMap) (cow : ValueCow K V) : WasChanged * MergableMap :=
    match bt_get (v_key (cow_as_ref cow)) m with
    | Some mut_v =>
        let '(c, new) := merge mut_v (v_value (cow_as_ref cow)) in (c, bt_insert (v_key (cow_as_ref cow)) new m)
    | None =>
        let val := cow_into_owned cow in (Changed, bt_insert (v_key val) (v_value val) m)
    end.

  (** A use of the map. *)
  Inductive mm_op :=
  | MInsert (v : Value K V)
  | MInsertCow (c : ValueCow K V).

  Definition mm_step (m : MergableMap) (op : mm_op) : WasChanged * MergableMap :=
    match op with MInsert v => mm_insert m v | MInsertCow c => mm_insert_cow m c end.

  Fixpoint mm_exec (m : MergableMap) (ops : list mm_op) : list WasChanged * MergableMap :=
    match ops with
    | [] => ([], m)
    | op :: r => let '(c, m1) := mm_step m op in let '(cs, m2) := mm_exec m1 r in (c :: cs, m2)
    end.
End Mergeables.
Arguments MergableMap K V : clear implicits.
Arguments mm_op K V : clear implicits.
