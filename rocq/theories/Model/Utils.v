(** src/utils.rs: generic helpers. *)
From Coq Require Import String List.
From Verif.Model Require Import Ord BTree Outcome.
Import ListNotations.
Local Open Scope string_scope.

(** src/utils.rs:23-32 [fixed_point].  [eq] is [T: Eq]'s [==]; [apply] has no state here (an
    [FnMut] may: Model/UtilsFnMut.v). *)
Fixpoint fixed_point {T} (eq : T -> T -> bool) (apply : T -> T) (fuel : nat) (start : T) : outcome T :=
  match fuel with
  | 0 => NoFuel
  | S fuel' =>
      let next := apply start in
      if eq next start then Ret start else fixed_point eq apply fuel' next
  end.

(** src/utils.rs:65-69 [take_only]; an iterator is modelled by the list of its items. *)
Definition take_only {A} (l : list A) : option A :=
  match l with
  | [] => None
  | v :: rest => match rest with _ :: _ => None | [] => Some v end
  end.

(** The same for an arbitrary iterator, finite or not: [next] returns the next item and the iterator's
    state after it, and the state left behind is returned. *)
Definition take_only_iter {S A} (next : S -> option A * S) (s : S) : option A * S :=
  match next s with
  | (None, s1) => (None, s1)
  | (Some v, s1) => match next s1 with (Some _, s2) => (None, s2) | (None, s2) => (Some v, s2) end
  end.

(** src/utils.rs:205-209 [WasChanged]. *)
Inductive WasChanged := Changed | Unchanged.

(** src/utils.rs:212-218 [WasChanged::from_changed]. *)
Definition from_changed (b : bool) : WasChanged := if b then Changed else Unchanged.

(** src/utils.rs:220-227 [WasChanged::join]. *)
Definition wc_join (a b : WasChanged) : WasChanged :=
  match a, b with
  | Changed, _ => Changed
  | _, Changed => Changed
  | _, _ => Unchanged
  end.

(** src/utils.rs:229-231 [WasChanged::merge]: [*self = self.join(other)]. *)
Definition wc_merge (self other : WasChanged) : WasChanged := wc_join self other.

(** src/utils.rs:234-239 [change_loop].  The closure's captured mutable state is threaded as [S]. *)
Fixpoint change_loop {S} (func : S -> outcome (WasChanged * S)) (fuel : nat) (s : S) : outcome S :=
  match fuel with
  | 0 => NoFuel
  | Datatypes.S fuel' =>
      '(c, s') <- func s ;;
      match c with
      | Changed => change_loop func fuel' s'
      | Unchanged => Ret s'
      end
  end.

(** src/utils.rs:241-252 [change_iter]: the accumulator [changed] and the captured state are
    threaded. *)
Fixpoint change_iter_from {S I} (func : I -> S -> outcome (WasChanged * S))
    (changed : WasChanged) (l : list I) (s : S) : outcome (WasChanged * S) :=
  match l with
  | [] => Ret (changed, s)
  | item :: l' =>
      '(c, s') <- func item s ;;
      change_iter_from func (wc_join changed c) l' s'
  end.
Definition change_iter {S I} (func : I -> S -> outcome (WasChanged * S)) (l : list I) (s : S)
  : outcome (WasChanged * S) := change_iter_from func Unchanged l s.

Section Collections.
  Context {K V : Type} `{Ord K} `{Ord V}.

  (** src/utils.rs:182-203 [merge_value_pairs]. *)
  Definition merge_value_pairs (iter : list (K * V)) : btmap K (btset V) :=
    fold_left (fun result kv =>
      let '(k, v) := kv in
      match bt_get k result with
      | None => bt_insert k (bs_add v []) result
      | Some set => bt_insert k (bs_add v set) result
      end) iter [].

  (** src/utils.rs:254 [CollectMap]; 271-273 [new]; 275-277 [from_seed]; 359-361 [into_inner]. *)
  Definition CollectMap := btmap K (btset V).
  Definition cm_new : CollectMap := [].
  Definition cm_from_seed (seed : btmap K (btset V)) : CollectMap := seed.
  Definition cm_into_inner (m : CollectMap) : btmap K (btset V) := m.

  (** src/utils.rs:279-281 [CollectMap::get]. *)
  Definition cm_get (m : CollectMap) (k : K) : option (btset V) := bt_get k m.

  (** src/utils.rs:283-295 [CollectMap::insert]. *)
  Definition cm_insert (m : CollectMap) (key : K) (value : V) : WasChanged * CollectMap :=
    match bt_get key m with
    | Some set =>
        let '(b, set') := bs_insert value set in
        (from_changed b, bt_insert key set' m)
    | None => (Changed, bt_insert key (bs_add value []) m)
    end.

  (** The [change_iter(values, |val| from_changed(set.insert(val)))] of src/utils.rs:308-310 and
      343-345; the closure cannot panic, so this is plain recursion. *)
  Fixpoint set_insert_iter (values : list V) (set : btset V) (changed : WasChanged)
    : WasChanged * btset V :=
    match values with
    | [] => (changed, set)
    | v :: values' =>
        let '(b, set') := bs_insert v set in
        set_insert_iter values' set' (wc_join changed (from_changed b))
    end.

  (** src/utils.rs:297-327 [CollectMap::insert_iter]. *)
  Definition cm_insert_iter (m : CollectMap) (key : K) (values : list V) : WasChanged * CollectMap :=
    match bt_get key m with
    | Some set =>
        let '(c, set') := set_insert_iter values set Unchanged in
        (c, bt_insert key set' m)
    | None =>
        match values with
        | init :: val_iter => (Changed, bt_insert key (bs_extend (bs_add init []) val_iter) m)
        | [] => (Unchanged, m)
        end
    end.

  (** src/utils.rs:329-353 [CollectMap::insert_from_key_set]: the entry is removed, extended from the
      source entry, and re-inserted (even when it did not exist and nothing was copied). *)
  Definition cm_insert_from_key_set (m : CollectMap) (key src_key : K) : WasChanged * CollectMap :=
    if eqb key src_key then (Unchanged, m)
    else
      let value := match bt_get key m with Some set => set | None => [] end in
      let m1 := bt_remove key m in
      let '(c, value') :=
        match bt_get src_key m1 with
        | Some src_set => set_insert_iter src_set value Unchanged
        | None => (Unchanged, value)
        end in
      (c, bt_insert key value' m1).
End Collections.
Arguments CollectMap K V : clear implicits.

Section BFS.
  Context {T : Type} `{Ord T}.

  (** Inner loops of src/utils.rs:166-173: [f] is applied to each item of [curr_set] in order; each
      step item not in [seen_set] is added to both [next_set] and [seen_set].  [f] may panic (the
      code's use passes a closure that calls [get_rule]). *)
  Definition bfs_visit (step_items : list T) (acc : btset T * btset T) : btset T * btset T :=
    fold_left (fun acc step_item =>
      let '(next_set, seen_set) := acc in
      if bs_mem step_item seen_set then (next_set, seen_set)
      else (bs_add step_item next_set, bs_add step_item seen_set)) step_items acc.

  Fixpoint bfs_round (f : T -> outcome (list T)) (curr : list T) (acc : btset T * btset T)
    : outcome (btset T * btset T) :=
    match curr with
    | [] => Ret acc
    | next_item :: curr' =>
        step_items <- f next_item ;;
        bfs_round f curr' (bfs_visit step_items acc)
    end.

  (** src/utils.rs:165-177: the [while !curr_set.is_empty()] loop; after [swap] and [clear] the next
      set is empty again. *)
  Fixpoint bfs_loop (f : T -> outcome (list T)) (fuel : nat) (curr_set seen_set : btset T)
    : outcome (btset T) :=
    match fuel with
    | 0 => NoFuel
    | S fuel' =>
        match curr_set with
        | [] => Ret seen_set
        | _ =>
            '(next_set, seen_set') <- bfs_round f curr_set ([], seen_set) ;;
            bfs_loop f fuel' next_set seen_set'
        end
    end.

  (** src/utils.rs:151-180 [breadth_first_search]: note [seen_set] starts empty. *)
  Definition breadth_first_search (initial : list T) (f : T -> outcome (list T)) (fuel : nat)
    : outcome (btset T) :=
    bfs_loop f fuel (bs_of_list initial) [].
End BFS.

Section FixedPointProcessor.
  Context {K V : Type} `{Ord K}.

  (** src/utils.rs:364-367 trait [FixedPointProcessor]. *)
  Record FixedPointProcessor := {
    fpp_next : K -> V -> list (K * V);
    fpp_merge : V -> V -> WasChanged * V
  }.

  (** src/utils.rs:383-396: the [for (next_k, next_v) in proc.next(..)] loop on
      [(target, nexts)]. *)
  Definition afp_apply (p : FixedPointProcessor) (nexts_target : btmap K V * btset K)
    (kvs : list (K * V)) : btmap K V * btset K :=
    fold_left (fun acc kv =>
      let '(target, nexts) := acc in
      let '(next_k, next_v) := kv in
      match bt_get next_k target with
      | None => (bt_insert next_k next_v target, bs_add next_k nexts)
      | Some old =>
          let '(c, new) := fpp_merge p old next_v in
          let target' := bt_insert next_k new target in
          match c with
          | Changed => (target', bs_add next_k nexts)
          | Unchanged => (target', nexts)
          end
      end) kvs nexts_target.

  (** src/utils.rs:379-397: [for curr in &currs]. *)
  Fixpoint afp_round (p : FixedPointProcessor) (currs : list K) (acc : btmap K V * btset K)
    : outcome (btmap K V * btset K) :=
    match currs with
    | [] => Ret acc
    | curr :: currs' =>
        curr_val <- expect (bt_get curr (fst acc)) "curr must already exist in target." ;;
        afp_round p currs' (afp_apply p acc (fpp_next p curr curr_val))
    end.

  (** src/utils.rs:378-398: [while !currs.is_empty()]; [currs] is never assigned in the loop. *)
  Fixpoint afp_loop (p : FixedPointProcessor) (fuel : nat) (currs : list K)
    (acc : btmap K V * btset K) : outcome (btmap K V) :=
    match fuel with
    | 0 => NoFuel
    | S fuel' =>
        match currs with
        | [] => Ret (fst acc)
        | _ => acc' <- afp_round p currs acc ;; afp_loop p fuel' currs acc'
        end
    end.

  (** src/utils.rs:369-399 [apply_fixed_point]. *)
  Definition apply_fixed_point (p : FixedPointProcessor) (target : btmap K V) (fuel : nat)
    : outcome (btmap K V) :=
    afp_loop p fuel (bs_of_list (bt_keys target)) (target, []).
End FixedPointProcessor.
