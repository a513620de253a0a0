(** A map of mergeable values, key by key. *)
From Coq Require Import List.
From Verif.Model Require Import Ord Utils Mergeables.
Import ListNotations.

Section MergeSpec.
  Context {K V : Type} `{Ord K}.
  Variable merge : V -> V -> WasChanged * V.

  Definition op_value (op : mm_op K V) : Value K V :=
    match op with MInsert v => v | MInsertCow (Owned v) => v | MInsertCow (Borrowed v) => v end.

  (** The entry under keys equal to [k] after one more insertion, from the one before: the first key is
      kept, later values are merged into the stored one. *)
  Definition entry_step (k : K) (old : option (Value K V)) (v : Value K V) : option (Value K V) :=
    match cmp k (v_key v) with
    | Eq => match old with
            | None => Some v
            | Some o => Some (Build_Value (v_key o) (snd (merge (v_value o) (v_value v))))
            end
    | _ => old
    end.
  (** After a history. *)
  Definition entry_of (k : K) (h : list (mm_op K V)) : option (Value K V) :=
    fold_left (entry_step k) (map op_value h) None.

  (** What an insertion after history [h] reports. *)
  Definition report (h : list (mm_op K V)) (op : mm_op K V) : WasChanged :=
    match entry_of (v_key (op_value op)) h with
    | None => Changed
    | Some o => fst (merge (v_value o) (v_value (op_value op)))
    end.
End MergeSpec.
