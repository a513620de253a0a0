(** Properties of names (C27), typed maps (C28), mergeable maps (C29, C64) and token streams (C36, C63). *)
From Coq Require Import String List Arith.
From Verif.Model Require Import Ord BTree Outcome Utils Name TypeMap Mergeables Tokens.
From Verif.Spec Require Import NameSpec TypeMapSpec MergeSpec.
From Verif.Proofs Require Import OrdFacts BTreeFacts NameFacts TypeMapFacts MergeFacts TokensFacts.
Import ListNotations.

(** C27. For every allocator and history, reference counted names with copy on write never use freed
    memory, observe what plain values observe, hold what plain values hold, and keep exactly the
    allocations that some live name refers to. *)
Theorem C27_names_are_values (alloc : heap -> addr) :
  (forall h, (exists a, h a = None) -> h (alloc h) = None) ->
  forall ops, exists st,
    n_exec alloc n_init ops = Ret (fst (v_exec [] ops), st) /\
    map (see st) (n_vars st) = snd (v_exec [] ops) /\
    (forall a, n_heap st a = None <-> ~ In (Some a) (n_vars st)).
Proof. exact (names_refine alloc). Qed.

(** C28. For any key types with lawful orders and any value types: every history returns what the maps
    from (key type, key) to values return, and no downcast fails. *)
Theorem C28_typemap_is_map
  {U : Type} `{OrdEq U} (U_dec : forall a b : U, {a = b} + {a <> b})
  (Key : U -> Type) (KeyOrd : forall u, Ord (Key u)) (KeyPre : forall u, @TotalPre (Key u) (KeyOrd u))
  {W : Type} (W_dec : forall a b : W, {a = b} + {a <> b}) (Vt : W -> Type) (vty : U -> W)
  (ops : list (tm_op Key Vt vty)) :
  exists st, tm_exec U_dec Key KeyOrd W_dec Vt vty [] ops
             = Ret (fst (a_exec U_dec Key KeyOrd Vt vty [] ops), st).
Proof. exact (typemap_refines U_dec Key KeyOrd KeyPre W_dec Vt vty ops). Qed.

(** C28. The downcast inside the comparison of two keys never fails. *)
Theorem C28_compare_never_panics
  {U : Type} `{OrdEq U} (U_dec : forall a b : U, {a = b} + {a <> b}) (Key : U -> Type) (a b : key_obj Key) :
  cmp (projT1 a) (projT1 b) = Eq -> downcast_key U_dec Key b (projT1 a) <> None.
Proof. exact (downcast_key_eq U_dec Key a b). Qed.

Section M.
  Context {K V : Type} `{TotalPre K}.

  (** C29. For every merge function and history of insertions: [get_entry] gives the first key inserted
      among the equal ones and the values merged in order; every insertion reports [Changed] on an absent
      key and what [merge] reports otherwise. *)
  Theorem C29_mergable_map (merge : V -> V -> WasChanged * V) (ops : list (mm_op K V)) :
    let '(cs, m) := mm_exec merge mm_new ops in
    (forall k, mm_get_entry m k = entry_of merge k ops) /\
    length cs = length ops /\
    (forall h op r, ops = h ++ op :: r -> nth_error cs (length h) = Some (report merge h op)).
  Proof.
    exact (let X := mm_history merge ops in
      match mm_exec merge mm_new ops as e return (let '(cs, m) := e in _ /\ _ /\ _ /\ _) -> (let '(cs, m) := e in _ /\ _ /\ _) with
      | (cs, m) => fun X => proj2 X end X).
  Qed.

  (** C29. The three ways to insert agree on every map. *)
  Theorem C29_insert_cow_agrees (merge : V -> V -> WasChanged * V) (m : MergableMap K V) v :
    mm_insert_cow merge m (Owned v) = mm_insert merge m v /\
    mm_insert_cow merge m (Borrowed v) = mm_insert merge m v.
  Proof. exact (conj (insert_cow_owned merge m v) (insert_cow_borrowed merge m v)). Qed.
End M.

(** C36 is false: a stream over one token panics. *)
Theorem C36_token_stream_refuted : exists (l : list (Token nat nat)) m,
  runs_to (fun fuel => vts_read fuel (vts_from l)) (Panic m).
Proof. exists [Build_Token 1 2]. eexists. exact (vts_fresh [Build_Token 1 2]). Qed.

(** C63. What reading a fresh stream does: it ends at once when there are no tokens, and panics
    otherwise. *)
Theorem C63_token_stream_exact {K T : Type} (l : list (Token K T)) :
  runs_to (fun fuel => vts_read fuel (vts_from l))
    (match l with [] => Ret [] | _ => Panic "assertion failed: len == position" end).
Proof. exact (vts_fresh l). Qed.

(** C63. Every other stream position panics too, except the end, where there is nothing left. *)
Theorem C63_token_stream_next {K T : Type} (s : VecTokenStream K T) :
  vts_next s =
  if Nat.eqb (vts_position s) (length (vts_tokens s)) then Ret None
  else if Nat.ltb (vts_position s) (length (vts_tokens s)) then Panic "assertion failed: len == position"
  else Panic "index out of bounds".
Proof. exact (vts_exact s). Qed.

Print Assumptions C27_names_are_values.
Print Assumptions C28_typemap_is_map.
Print Assumptions C28_compare_never_panics.
Print Assumptions C29_mergable_map.
Print Assumptions C29_insert_cow_agrees.
Print Assumptions C36_token_stream_refuted.
Print Assumptions C63_token_stream_exact.
Print Assumptions C63_token_stream_next.

(** *** Cases *)

(** An allocator: the first free address below [n], if any (enough for a short history). *)
Definition ex_alloc (h : heap) : addr :=
  match find (fun a => match h a with None => true | Some _ => false end) (seq 0 100) with Some a => a | None => 100 end.
Example ex_names :
  let ops := [NNew "a"%string; NClone 0; NWrite 1 (fun s => append s "b"); NStr 0; NStr 1; NDrop 0; NNew "c"%string;
              NWrite 1 (fun s => append s "d"); NStr 1; NCmp 1 2; NDrop 1; NStr 1] in
  match n_exec ex_alloc n_init ops with
  | Ret (o, st) => o = [OStr "a"; OStr "ab"; OStr "abd"; OCmp Lt]%string /\ n_vars st = [None; None; Some 0]
  | _ => False
  end.
Proof. vm_compute. auto. Qed.

(** Two key types ([bool] codes): numbers to strings, strings to numbers. *)
Definition exU_dec : forall a b : bool, {a = b} + {a <> b} := Bool.bool_dec.
Definition exKey (u : bool) : Type := if u then nat else string.
Definition exKeyOrd (u : bool) : Ord (exKey u) :=
  match u return Ord (exKey u) with true => Ord_nat | false => Ord_string end.
Definition exVt (w : bool) : Type := if w then string else nat.
Example ex_keypre : forall u, @TotalPre (exKey u) (exKeyOrd u).
Proof. intros []; simpl; typeclasses eauto. Qed.
Definition exvty (u : bool) : bool := u.
Example ex_typemap :
  let ops : list (tm_op exKey exVt exvty) :=
    [TNew exKey exVt exvty; TInsert exKey exVt exvty 0 true 5 "five"%string; TInsert exKey exVt exvty 0 false "5"%string 50; TGet exKey exVt exvty 0 true 5;
     TNew exKey exVt exvty; TInsert exKey exVt exvty 1 true 5 "cinq"%string; TMerge exKey exVt exvty 0 1; TGet exKey exVt exvty 0 true 5; TGet exKey exVt exvty 1 true 5;
     TGetMut exKey exVt exvty 0 false "5"%string S; TGet exKey exVt exvty 0 false "5"%string] in
  match tm_exec exU_dec exKey exKeyOrd Bool.bool_dec exVt exvty [] ops with
  | Ret (o, _) =>
      o = [existT _ true (Some "five"%string); existT _ true (Some "cinq"%string); existT _ true None;
           existT _ false (Some 50); existT _ false (Some 51)]
  | _ => False
  end.
Proof. vm_compute. reflexivity. Qed.

(** Sums, reporting a change unless zero is added. *)
Definition ex_merge (a b : nat) : WasChanged * nat := (if Nat.eqb b 0 then Unchanged else Changed, a + b).
Example ex_mergemap :
  let ops := [MInsert (Build_Value 3 10); MInsertCow (Borrowed (Build_Value 3 0)); MInsertCow (Owned (Build_Value 4 1));
              MInsert (Build_Value 3 5)] in
  let '(cs, m) := mm_exec ex_merge mm_new ops in
  cs = [Changed; Unchanged; Changed; Changed] /\ mm_get_entry m 3 = Some (Build_Value 3 15).
Proof. vm_compute. auto. Qed.
