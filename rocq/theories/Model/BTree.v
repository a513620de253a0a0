(** Rust's [BTreeMap] and [BTreeSet] as lists kept in increasing [cmp] order.

    Only the abstract behaviour documented by std is modelled (search by [cmp], iteration in
    increasing order, [insert] keeping the old key / old set element when an equal one is present);
    nodes, allocation and complexity are not. *)
From Coq Require Import List.
From Verif.Model Require Import Ord.
Import ListNotations.

Definition btmap (K V : Type) := list (K * V).
Definition btset (K : Type) := list K.

Section Map.
  Context {K V : Type} `{Ord K}.

  (** [BTreeMap::get]. *)
  Fixpoint bt_get (k : K) (m : btmap K V) : option V :=
    match m with
    | [] => None
    | (k', v) :: r => match cmp k k' with Eq => Some v | _ => bt_get k r end
    end.

  (** [BTreeMap::get_key_value]. *)
  Fixpoint bt_get_kv (k : K) (m : btmap K V) : option (K * V) :=
    match m with
    | [] => None
    | (k', v) :: r => match cmp k k' with Eq => Some (k', v) | _ => bt_get_kv k r end
    end.

  (** [BTreeMap::contains_key]. *)
  Definition bt_mem (k : K) (m : btmap K V) : bool :=
    match bt_get k m with Some _ => true | None => false end.

  (** [BTreeMap::insert]: replaces the value; "the key is not updated" if an equal one exists. *)
  Fixpoint bt_insert (k : K) (v : V) (m : btmap K V) : btmap K V :=
    match m with
    | [] => [(k, v)]
    | (k', v') :: r =>
        match cmp k k' with
        | Lt => (k, v) :: (k', v') :: r
        | Eq => (k', v) :: r
        | Gt => (k', v') :: bt_insert k v r
        end
    end.

  (** [BTreeMap::remove]. *)
  Fixpoint bt_remove (k : K) (m : btmap K V) : btmap K V :=
    match m with
    | [] => []
    | (k', v') :: r =>
        match cmp k k' with Eq => r | _ => (k', v') :: bt_remove k r end
    end.

  Definition bt_keys (m : btmap K V) : list K := map fst m.
  Definition bt_values (m : btmap K V) : list V := map snd m.

  (** [iter.collect::<BTreeMap<_, _>>()], for keys whose [Equal] is identity: later pairs win.
      (Which of two [Equal] but different keys survives depends on the std version; where that
      matters the model says so.) *)
  Definition bt_of_list (l : list (K * V)) : btmap K V :=
    fold_left (fun m kv => bt_insert (fst kv) (snd kv) m) l [].

  (** [BTreeMap::append]: moves all elements of [other]; its values win. *)
  Definition bt_append (m other : btmap K V) : btmap K V :=
    fold_left (fun m kv => bt_insert (fst kv) (snd kv) m) other m.
End Map.

Section Set_.
  Context {K : Type} `{Ord K}.

  (** [BTreeSet::contains]. *)
  Fixpoint bs_mem (k : K) (s : btset K) : bool :=
    match s with
    | [] => false
    | k' :: r => match cmp k k' with Eq => true | _ => bs_mem k r end
    end.

  (** [BTreeSet::insert]: when an equal element is present, "false is returned, and the entry is not
      updated". *)
  Fixpoint bs_add (k : K) (s : btset K) : btset K :=
    match s with
    | [] => [k]
    | k' :: r =>
        match cmp k k' with
        | Lt => k :: k' :: r
        | Eq => k' :: r
        | Gt => k' :: bs_add k r
        end
    end.

  (** [BTreeSet::insert] with its boolean result (true = newly inserted). *)
  Definition bs_insert (k : K) (s : btset K) : bool * btset K :=
    (negb (bs_mem k s), bs_add k s).

  (** [BTreeSet::remove]. *)
  Fixpoint bs_remove (k : K) (s : btset K) : btset K :=
    match s with
    | [] => []
    | k' :: r => match cmp k k' with Eq => r | _ => k' :: bs_remove k r end
    end.

  (** [iter.collect::<BTreeSet<_>>()] / repeated [insert] ([extend]). *)
  Definition bs_extend (s : btset K) (l : list K) : btset K :=
    fold_left (fun s k => bs_add k s) l s.
  Definition bs_of_list (l : list K) : btset K := bs_extend [] l.
End Set_.
