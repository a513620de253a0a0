(** Properties of the generic helpers (C22-C26, C30). *)
From Coq Require Import List Arith Lia.
From Verif.Model Require Import Ord BTree Outcome Utils.
From Verif.Spec Require Import Reach UtilsSpec.
From Verif.Proofs Require Import OrdFacts BTreeFacts LoopFacts UtilsFacts UtilsMore.
Import ListNotations.

(** C22. [breadth_first_search] returns exactly the items reachable in one or more steps, and returns
    exactly when they are finitely many. *)
Theorem C22_bfs_result {T} `{OrdEq T} (next : T -> list T) (initial : list T) n s :
  breadth_first_search initial (fun a => Ret (next a)) n = Ret s ->
  sorted s /\ forall y, In y s <-> exists x, In x initial /\ plus (fun a b => In b (next a)) x y.
Proof. exact (bfs_result next initial n s). Qed.

Theorem C22_bfs_terminates {T} `{OrdEq T} (next : T -> list T) (initial : list T) :
  (exists s, runs_to (breadth_first_search initial (fun a => Ret (next a))) (Ret s)) <->
  (exists univ, forall x y, In x initial -> plus (fun a b => In b (next a)) x y -> In y univ).
Proof. exact (bfs_terminates_iff next initial). Qed.

(** C23. *)
Theorem C23_fixed_point {T} (eq : T -> T -> bool) (f : T -> T) (start x : T) :
  (forall a b, eq a b = true <-> a = b) ->
  runs_to (fun n => fixed_point eq f n start) (Ret x) <->
  exists n, x = Nat.iter n f start /\ f x = x /\
    forall i, i < n -> f (Nat.iter i f start) <> Nat.iter i f start.
Proof. exact (fun E => fixed_point_iff eq f E start x). Qed.

(** C24. *)
Theorem C24_merge_value_pairs {K V} `{OrdEq K} `{OrdEq V} (l : list (K * V)) :
  msorted (merge_value_pairs l) /\
  forall k, (bt_get k (merge_value_pairs l) = None /\ forall v, ~ In (k, v) l) \/
    exists s, bt_get k (merge_value_pairs l) = Some s /\ sorted s /\ s <> [] /\
      forall v, In v s <-> In (k, v) l.
Proof. exact (merge_value_pairs_full l). Qed.

(** C25. For every history of operations on a fresh map, the content is the abstract one and each call
    reported [Changed] iff it added a pair that was not there. *)
Theorem C25_collect_map_history {K V} `{OrdEq K} `{OrdEq V} (ops : list (cm_op K V)) :
  let empty := {| ms_has := fun _ : K => False; ms_rel := fun (_ : K) (_ : V) => False |} in
  let content n := fold_left (fun a o => op_abs o a) (firstn n ops) empty in
  let m := snd (cm_run cm_new ops) in
  let reports := fst (cm_run cm_new ops) in
  (forall k, ms_has (content (length ops)) k <-> exists s, cm_get m k = Some s) /\
  (forall k v, ms_rel (content (length ops)) k v <-> exists s, cm_get m k = Some s /\ In v s) /\
  length reports = length ops /\
  (forall n o c, nth_error ops n = Some o -> nth_error reports n = Some c ->
     (c = Changed <-> op_grows o (content n))).
Proof. exact (collect_map_history ops). Qed.

(** C26 as stated is false: with a non-empty target [apply_fixed_point] never returns, whatever the
    processor (in particular one whose [next] yields nothing). *)
Theorem C26_apply_fixed_point_diverges_refuted {K V} `{OrdEq K} (p : @FixedPointProcessor K V)
  (target : btmap K V) : target <> [] -> diverges (apply_fixed_point p target).
Proof. exact (apply_fixed_point_diverges p target). Qed.
Theorem C26_apply_fixed_point_empty_partial {K V} `{OrdEq K} (p : @FixedPointProcessor K V) :
  runs_to (apply_fixed_point p []) (Ret []).
Proof. exact (apply_fixed_point_empty p). Qed.

(** C76.  [take_only] returns an item exactly when the iterator yields that item and no other; an infinite
    iterator is no problem.  It never asks for a third item: *)
Theorem C76_take_only {S A} (next : S -> option A * S) (s : S) (x : A) :
  fst (take_only_iter next s) = Some x <-> yields next s [x].
Proof.
  unfold take_only_iter. destruct (next s) as [[v|] s1] eqn:E1; [destruct (next s1) as [[v2|] s2] eqn:E2|]; simpl; split; intro X.
  - discriminate.
  - inversion X as [|? ? ? ? E Y]; subst. rewrite E1 in E. injection E as <- <-. inversion Y; subst. congruence.
  - injection X as ->. eapply yields_item; [exact E1|]. eapply yields_end; exact E2.
  - inversion X as [|? ? ? ? E Y]; subst. congruence.
  - discriminate.
  - inversion X as [|? ? ? ? E Y]; subst. congruence.
Qed.
Theorem C76_take_only_calls {S A} (next : S -> option A * S) (s : S) :
  snd (take_only_iter next s) = snd (next s) \/ snd (take_only_iter next s) = snd (next (snd (next s))).
Proof.
  unfold take_only_iter. destruct (next s) as [[v|] s1] eqn:E1; [right|left; reflexivity].
  simpl. destruct (next s1) as [[v2|] s2]; reflexivity.
Qed.
(** For the items of a collection. *)
Theorem C76_take_only_list {A} (l : list A) x : take_only l = Some x <-> l = [x].
Proof. destruct l as [|y [|z l]]; simpl; split; intro E; congruence. Qed.
Example take_only_examples :
  yields (fun l : list nat => match l with [] => (None, []) | y :: r => (Some y, r) end) [5] [5] /\
  fst (take_only_iter (fun n => (Some n, S n)) 0) = None /\ take_only [1; 2] = None /\ take_only [3] = Some 3.
Proof. split; [|auto]. eapply yields_item; [reflexivity|]. eapply yields_end; reflexivity. Qed.

(** C30. *)
Theorem C30_change_iter {S I} (f : I -> S -> outcome (WasChanged * S)) (items : list I) s c s' :
  change_iter f items s = Ret (c, s') <->
  exists reports, calls_in_order f items s reports s' /\ (c = Changed <-> In Changed reports).
Proof. exact (change_iter_iff f items s c s'). Qed.
Theorem C30_change_iter_panics {S I} (f : I -> S -> outcome (WasChanged * S)) (items : list I) s m :
  change_iter f items s = Panic m <->
  exists l1 x l2 cs s1, items = l1 ++ x :: l2 /\ calls_in_order f l1 s cs s1 /\ f x s1 = Panic m.
Proof. exact (change_iter_panics f items s m). Qed.
Theorem C30_change_loop {S} (f : S -> outcome (WasChanged * S)) s s' :
  runs_to (fun n => change_loop f n s) (Ret s') <-> exists n, until_unchanged f n s s'.
Proof. exact (change_loop_runs f s s'). Qed.

(** Non-vacuity. *)
Example bfs_example :
  breadth_first_search [0] (fun n => Ret (if n <? 4 then [S n; n - 1] else [2])) 10 = Ret [0; 1; 2; 3; 4].
Proof. vm_compute. reflexivity. Qed.
Example bfs_strict_example : breadth_first_search [0] (fun n => Ret (if n <? 2 then [S n] else [])) 10 = Ret [1; 2].
Proof. vm_compute. reflexivity. Qed.
Example fixed_point_example :
  runs_to (fun n => fixed_point Nat.eqb (fun x => Nat.min 5 (S x)) n 0) (Ret 5).
Proof. split; [discriminate|]. exists 6. intros fuel L. do 6 (destruct fuel; [lia|]). reflexivity. Qed.
Example collect_map_example :
  fst (cm_run cm_new [CInsert 1 1; CInsertIter 2 []; CInsertFromKeySet 3 1; CInsertFromKeySet 3 1;
                      CInsertIter 1 [1; 2]; CInsert 1 2])
  = [Changed; Unchanged; Changed; Unchanged; Changed; Unchanged].
Proof. vm_compute. reflexivity. Qed.
Example change_loop_example :
  runs_to (fun n => change_loop (fun s => Ret (from_changed (s <? 3), S s)) n 0) (Ret 4).
Proof. split; [discriminate|]. exists 4. intros fuel L. do 4 (destruct fuel; [lia|]). reflexivity. Qed.

Print Assumptions C22_bfs_result.
Print Assumptions C22_bfs_terminates.
Print Assumptions C23_fixed_point.
Print Assumptions C24_merge_value_pairs.
Print Assumptions C25_collect_map_history.
Print Assumptions C26_apply_fixed_point_diverges_refuted.
Print Assumptions C26_apply_fixed_point_empty_partial.
Print Assumptions C30_change_iter.
Print Assumptions C30_change_iter_panics.
Print Assumptions C30_change_loop.
