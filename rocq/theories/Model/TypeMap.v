(** src/utils/type_map.rs: a map whose keys and values have different types. *)
From Coq Require Import String List.
From Verif.Model Require Import Ord BTree Outcome.
Import ListNotations.

Section TypeMap.
  (** The key types of a program, identified by their [TypeId] [u : U], with their [Ord]; the value types,
      identified by [w : W] ([W_dec]: comparison of [TypeId]s); and [TypeKey::ValueType]
      (type_map.rs:7-10).  Different key types may have the same value type. *)
  Context {U : Type} `{Ord U} (U_dec : forall a b : U, {a = b} + {a <> b}).
  Context (Key : U -> Type) (KeyOrd : forall u, Ord (Key u)).
  Context {W : Type} (W_dec : forall a b : W, {a = b} + {a <> b}) (Vt : W -> Type) (vty : U -> W).

  (** type_map.rs:66 [TypeKeyObject]: a boxed key with its type. *)
  Definition key_obj := {u : U & Key u}.
  (** [Box<dyn Any>] *)
  Definition any := {w : W & Vt w}.

  (** [<dyn Any>::downcast_ref] *)
  Definition downcast (a : any) (w : W) : option (Vt w) :=
    match W_dec (projT1 a) w with
    | left e => Some (eq_rect _ Vt (projT2 a) _ e)
    | right _ => None
    end.
  Definition downcast_key (a : key_obj) (u : U) : option (Key u) :=
    match U_dec (projT1 a) u with
    | left e => Some (eq_rect _ Key (projT2 a) _ e)
    | right _ => None
    end.

  (** type_map.rs:30-43 [cmp_concrete].  The [unwrap] of line 37 would panic in the [None] case; that
      case cannot occur, because equal [TypeId]s make the downcast succeed (proved in
      Proofs/TypeMapFacts.v, [downcast_key_eq]). *)
  Definition cmp_concrete (self other : key_obj) : comparison :=
    match cmp (projT1 self) (projT1 other) with
    | Eq =>
        match downcast_key other (projT1 self) with
        | Some other_value => KeyOrd (projT1 self) (projT2 self) other_value
        | None => Eq
        end
    | c => c
    end.
  (** type_map.rs:46-50, 68-72 *)
  Local Instance Ord_key_obj : Ord key_obj := cmp_concrete.

  (** type_map.rs:97 [TypeMap] *)
  Definition TypeMap := btmap key_obj any.
  (** type_map.rs:101-103 *)
  Definition tm_new : TypeMap := [].
  (** type_map.rs:106-108 *)
  Definition tm_insert (m : TypeMap) (u : U) (key : Key u) (value : Vt (vty u)) : TypeMap :=
    bt_insert (existT _ u key : key_obj) (existT _ (vty u) value : any) m.
  (** type_map.rs:111-117 *)
  Definition tm_get (m : TypeMap) (u : U) (key : Key u) : outcome (option (Vt (vty u))) :=
    match bt_get (existT _ u key : key_obj) m with
    | None => Ret None
    | Some v => x <- expect (downcast v (vty u)) "downcast_ref" ;; Ret (Some x)
    end.
  (** type_map.rs:120-126: the reference is used to change the value by [f]. *)
  Definition tm_get_mut (m : TypeMap) (u : U) (key : Key u) (f : Vt (vty u) -> Vt (vty u))
    : outcome (option (Vt (vty u)) * TypeMap) :=
    match bt_get (existT _ u key : key_obj) m with
    | None => Ret (None, m)
    | Some v =>
        x <- expect (downcast v (vty u)) "downcast_mut" ;;
        Ret (Some x, bt_insert (existT _ u key : key_obj) (existT _ (vty u) (f x) : any) m)
    end.
  (** type_map.rs:129-131 [merge]: [BTreeMap::append], which empties [other]. *)
  Definition tm_merge (m other : TypeMap) : TypeMap * TypeMap := (bt_append m other, []).

  (** Uses of any number of maps, named by creation order. *)
  Inductive tm_op :=
  | TNew
  | TInsert (i : nat) (u : U) (key : Key u) (value : Vt (vty u))
  | TGet (i : nat) (u : U) (key : Key u)
  | TGetMut (i : nat) (u : U) (key : Key u) (f : Vt (vty u) -> Vt (vty u))
  | TMerge (i j : nat).
  (** What [get] and [get_mut] return. *)
  Definition tm_obs := {u : U & option (Vt (vty u))}.

  Fixpoint tm_set (l : list TypeMap) (i : nat) (m : TypeMap) : list TypeMap :=
    match l, i with
    | [], _ => []
    | _ :: r, 0 => m :: r
    | x :: r, S i' => x :: tm_set r i' m
    end.

  (** Operations on maps that do not exist, and merging a map into itself, do not compile; here they do
      nothing. *)
  Definition tm_step (st : list TypeMap) (op : tm_op) : outcome (list tm_obs * list TypeMap) :=
    match op with
    | TNew => Ret ([], st ++ [tm_new])
    | TInsert i u k v =>
        match nth_error st i with
        | Some m => Ret ([], tm_set st i (tm_insert m u k v))
        | None => Ret ([], st)
        end
    | TGet i u k =>
        match nth_error st i with
        | Some m => r <- tm_get m u k ;; Ret ([existT _ u r : tm_obs], st)
        | None => Ret ([], st)
        end
    | TGetMut i u k f =>
        match nth_error st i with
        | Some m => '(r, m') <- tm_get_mut m u k f ;; Ret ([existT _ u r : tm_obs], tm_set st i m')
        | None => Ret ([], st)
        end
    | TMerge i j =>
        if Nat.eqb i j then Ret ([], st)
        else
          match nth_error st i, nth_error st j with
          | Some m, Some o => let '(m', o') := tm_merge m o in Ret ([], tm_set (tm_set st i m') j o')
          | _, _ => Ret ([], st)
          end
    end.

  Fixpoint tm_exec (st : list TypeMap) (ops : list tm_op) : outcome (list tm_obs * list TypeMap) :=
    match ops with
    | [] => Ret ([], st)
    | op :: r => '(o, st1) <- tm_step st op ;; '(o', st2) <- tm_exec st1 r ;; Ret (o ++ o', st2)
    end.
End TypeMap.
