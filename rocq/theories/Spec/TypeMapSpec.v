(** A typed map as a function of key type and key. *)
From Coq Require Import List.
From Verif.Model Require Import Ord Outcome TypeMap.
Import ListNotations.

Section S.
  Context {U : Type} (U_dec : forall a b : U, {a = b} + {a <> b}).
  Context (Key : U -> Type) (KeyOrd : forall u, Ord (Key u)).
  Context {W : Type} (Vt : W -> Type) (vty : U -> W).

  Definition amap := forall u : U, Key u -> option (Vt (vty u)).
  Definition a_new : amap := fun _ _ => None.

  (** Keys of the same type that compare equal to [k] now give [v]; everything else is as before. *)
  Definition a_insert (M : amap) (u : U) (k : Key u) (v : Vt (vty u)) : amap := fun u' =>
    match U_dec u u' with
    | left e => match e in _ = x return Key x -> option (Vt (vty x)) with
                | eq_refl => fun k' => match KeyOrd u k' k with Eq => Some v | _ => M u k' end
                end
    | right _ => M u'
    end.
  Definition a_merge (M N : amap) : amap := fun u k => match N u k with Some v => Some v | None => M u k end.

  Fixpoint a_set (l : list amap) (i : nat) (m : amap) : list amap :=
    match l, i with
    | [], _ => []
    | _ :: r, 0 => m :: r
    | x :: r, S i' => x :: a_set r i' m
    end.

  Definition a_step (st : list amap) (op : tm_op Key Vt vty) : list (tm_obs Vt vty) * list amap :=
    match op with
    | TNew _ _ _ => ([], st ++ [a_new])
    | TInsert _ _ _ i u k v =>
        match nth_error st i with Some m => ([], a_set st i (a_insert m u k v)) | None => ([], st) end
    | TGet _ _ _ i u k =>
        match nth_error st i with Some m => ([existT _ u (m u k)], st) | None => ([], st) end
    | TGetMut _ _ _ i u k f =>
        match nth_error st i with
        | Some m => ([existT _ u (m u k)],
                     match m u k with Some x => a_set st i (a_insert m u k (f x)) | None => st end)
        | None => ([], st)
        end
    | TMerge _ _ _ i j =>
        if Nat.eqb i j then ([], st)
        else match nth_error st i, nth_error st j with
             | Some m, Some o => ([], a_set (a_set st i (a_merge m o)) j a_new)
             | _, _ => ([], st)
             end
    end.
  Fixpoint a_exec (st : list amap) (ops : list (tm_op Key Vt vty)) : list (tm_obs Vt vty) * list amap :=
    match ops with
    | [] => ([], st)
    | op :: r => let '(o, st1) := a_step st op in let '(o', st2) := a_exec st1 r in (o ++ o', st2)
    end.
End S.
