(** C123: maps whose values are merged by least upper bounds (src/utils/mergeables.rs, with [change_loop] and [change_iter] of
    src/utils.rs). *)
From Coq Require Import List Arith Lia.
From Verif.Model Require Import Ord BTree Outcome Utils Mergeables.
From Verif.Spec Require Import MergeSpec JoinSpec.
From Verif.Proofs Require Import OrdFacts BTreeFacts LoopFacts MergeFacts JoinFacts.
Import ListNotations.

Section S.
  Context {K V : Type} `{TotalPre K}.
  Variable le : V -> V -> Prop.
  Variable merge : V -> V -> WasChanged * V.
  (** The map after a history of insertions. *)
  Local Notation after ops := (snd (mm_exec merge mm_new ops)).

  Lemma after_ok (ops : list (mm_op K V)) : msorted (after ops) /\ forall k, mm_get_entry (after ops) k = entry_of merge k ops.
  Proof. pose proof (mm_history merge ops) as X. destruct (mm_exec merge mm_new ops) as [cs m]. destruct X as (S & G & _). auto. Qed.

  (** C123.  A key has an entry exactly if something was inserted under an equal key, and its value is then the least upper
      bound of all values inserted under equal keys. *)
  Theorem C123_least_upper_bound (ops : list (mm_op K V)) k : joins le merge ->
    (mm_get_entry (after ops) k = None <-> forall v, ~ inserted ops k v) /\
    (forall e, mm_get_entry (after ops) k = Some e ->
      (forall v, inserted ops k v -> le v (v_value e)) /\
      (forall u, (forall v, inserted ops k v -> le v u) -> le (v_value e) u)).
  Proof. intro J. rewrite (proj2 (after_ok ops)). exact (entry_lub le merge J ops k). Qed.

  (** C123.  So neither the order of the insertions, nor repetitions, nor owning or borrowing matter. *)
  Theorem C123_order_free (ops ops' : list (mm_op K V)) : joins le merge ->
    (forall k v, inserted ops k v <-> inserted ops' k v) ->
    forall k, option_map v_value (mm_get_entry (after ops) k) = option_map v_value (mm_get_entry (after ops') k).
  Proof. intros J S k. rewrite (proj2 (after_ok ops)), (proj2 (after_ok ops')). exact (entry_same le merge J ops ops' k (S k)). Qed.

  (** C123.  An insertion reports [Unchanged] exactly if the map already holds at least that value under that key; it then does
      nothing at all.  Afterwards the map holds it. *)
  Theorem C123_unchanged (ops : list (mm_op K V)) op : joins le merge ->
    let '(c, m') := mm_step merge (after ops) op in
    (c = Unchanged <-> holds le (after ops) (v_key (op_value op)) (v_value (op_value op))) /\
    (c = Unchanged -> m' = after ops) /\
    holds le m' (v_key (op_value op)) (v_value (op_value op)).
  Proof.
    intro J. rewrite (mm_step_op merge (after ops) op). destruct (after_ok ops) as [S _].
    destruct (insert_unchanged le merge J (after ops) (op_value op) S) as [U1 U2].
    destruct (mm_insert_ok merge (after ops) (op_value op) S) as (_ & E & _).
    destruct (mm_insert merge (after ops) (op_value op)) as [c m']. cbn [fst snd] in *. split; [exact U1|]. split; [exact U2|].
    unfold holds. rewrite E. unfold entry_step. rewrite cmp_refl. destruct (mm_get_entry (after ops) (v_key (op_value op))); eexists; (split; [reflexivity|]).
    - apply (join_right _ _ J).
    - apply (le_refl _ _ J).
  Qed.

  (** C123.  Inserting what [f] gives for the map until nothing changes.  Let the values that occur have a bounded height, and
      the keys be among finitely many.  Then this ends; the result holds what the map held and everything [f] gives for the result; and if [f] is
      monotone, it is the least such map. *)
  Theorem C123_until_stable (ops : list (mm_op K V)) (f : MergableMap K V -> list (Value K V)) (good : V -> Prop) (rank : V -> nat) (top : nat) (keys : list K) :
    joins le merge ->
    (forall a b, good a -> good b -> good (snd (merge a b))) ->
    (forall a b, good a -> good b -> le a b -> a <> b -> rank a < rank b) -> (forall a, good a -> rank a <= top) ->
    (forall op, In op ops -> good (v_value (op_value op))) ->
    (forall ops1, (forall k e, mm_get_entry (after ops1) k = Some e -> good (v_value e)) ->
       forall v, In v (f (after ops1)) -> good (v_value v) /\ exists k, In k keys /\ cmp k (v_key v) = Eq) ->
    exists m, runs_to (insert_until_stable merge f (after ops)) (Ret m) /\
      map_below le (after ops) m /\ all_held le f m /\
      ((forall ops1 ops2, map_below le (after ops1) (after ops2) -> forall v, In v (f (after ops1)) ->
          exists w, In w (f (after ops2)) /\ cmp (v_key v) (v_key w) = Eq /\ le (v_value v) (v_value w)) ->
       forall ops2, map_below le (after ops) (after ops2) -> all_held le f (after ops2) -> map_below le m (after ops2)).
  Proof.
    intros J GM RL RT GO FG.
    assert (G : forall k e, mm_get_entry (after ops) k = Some e -> good (v_value e)).
    { intros k e. rewrite (proj2 (after_ok ops)). clear FG. revert e. induction ops as [|op h IH] using rev_ind; [discriminate|].
      intro e. rewrite entry_of_snoc. unfold entry_step. assert (Gh : forall o, In o h -> good (v_value (op_value o))) by (intros o I; apply GO, in_or_app; auto).
      assert (Go : good (v_value (op_value op))) by (apply GO, in_or_app; right; left; reflexivity).
      destruct (cmp k (v_key (op_value op))); [|exact (IH Gh e)..].
      destruct (entry_of merge k h) as [o|]; intros [= <-]; cbn [v_value]; [apply GM; [exact (IH Gh o eq_refl)|exact Go]|exact Go]. }
    assert (FG' : forall m, msorted m -> all_good good m -> forall v, In v (f m) -> good (v_value v) /\ exists k, In k keys /\ cmp k (v_key v) = Eq).
    { intros m S Gm. destruct (sorted_history merge m S) as (h & <-). exact (FG h Gm). }
    destruct (saturate_facts le merge J f good rank top keys GM RL RT FG' (after ops) (proj1 (after_ok ops)) G) as (m & R & _ & _ & B & Sa & Le).
    exists m. split; [exact R|]. split; [exact B|]. split; [exact Sa|]. intros Mono ops2. apply Le; [|exact (proj1 (after_ok ops2))].
    intros m1 m2 S1 S2. destruct (sorted_history merge m1 S1) as (h1 & <-), (sorted_history merge m2 S2) as (h2 & <-). exact (Mono h1 h2).
  Qed.
End S.

(** C123.  Where equal keys are the same, the whole maps agree. *)
Theorem C123_same_map {K V : Type} `{OrdEq K} (le : V -> V -> Prop) (merge : V -> V -> WasChanged * V) (ops ops' : list (mm_op K V)) :
  joins le merge -> (forall k v, inserted ops k v <-> inserted ops' k v) ->
  snd (mm_exec merge mm_new ops) = snd (mm_exec merge mm_new ops').
Proof.
  intros J S. destruct (after_ok merge ops) as [S1 _], (after_ok merge ops') as [S2 _]. apply msorted_ext; [exact S1|exact S2|].
  intro k. rewrite !get_entry_get. exact (C123_order_free le merge ops ops' J S k).
Qed.

(** Numbers with the maximum: from 0 under key 0, each key k passes one more than its value, at most 5, to the next key (of three). *)
Definition ex_max (a b : nat) : WasChanged * nat := (if Nat.leb b a then Unchanged else Changed, Nat.max a b).
Definition ex_pass (m : MergableMap nat nat) : list (Value nat nat) :=
  flat_map (fun k => match mm_get_entry m k with Some e => [Build_Value (S k mod 3) (Nat.min 5 (S (v_value e)))] | None => [] end) [0; 1; 2].
Lemma ex_max_joins : joins Nat.le ex_max.
Proof.
  constructor; unfold ex_max; cbn [fst snd]; intros; try lia. destruct (Nat.leb_spec b a); split; (discriminate || lia || reflexivity || (intro; exfalso; lia)).
Qed.
Example C123_example : joins Nat.le ex_max /\
  (forall a b, a <= 5 -> b <= 5 -> snd (ex_max a b) <= 5) /\ (forall a b, a <= b -> a <> b -> a < b) /\
  (forall m v, In v (ex_pass m) -> v_value v <= 5 /\ In (v_key v) [0; 1; 2]) /\
  (forall m1 m2, map_below Nat.le m1 m2 -> forall v, In v (ex_pass m1) ->
     exists w, In w (ex_pass m2) /\ cmp (v_key v) (v_key w) = Eq /\ v_value v <= v_value w) /\
  insert_until_stable ex_max ex_pass (snd (mm_exec ex_max mm_new [MInsert (Build_Value 0 0)])) 9 = Ret [(0, 5); (1, 5); (2, 5)] /\
  exists m, runs_to (insert_until_stable ex_max ex_pass (snd (mm_exec ex_max mm_new [MInsert (Build_Value 0 0)]))) (Ret m).
Proof.
  assert (P3 : forall m v, In v (ex_pass m) -> v_value v <= 5 /\ In (v_key v) [0; 1; 2]).
  { intros m v I. apply in_flat_map in I. destruct I as (k & Ik & I). destruct (mm_get_entry m k) as [e|]; [|destruct I]. destruct I as [<-|[]].
    cbn [v_value v_key]. split; [lia|]. destruct Ik as [<-|[<-|[<-|[]]]]; vm_compute; auto. }
  split; [exact ex_max_joins|]. split; [unfold ex_max; cbn [snd]; lia|]. split; [lia|]. split; [exact P3|]. split; [|split; [vm_compute; reflexivity|]].
  - intros m1 m2 B v I. apply in_flat_map in I. destruct I as (k & Ik & I). destruct (mm_get_entry m1 k) as [e|] eqn:E; [|destruct I]. destruct I as [<-|[]].
    destruct (B k e E) as (e2 & E2 & L). exists (Build_Value (S k mod 3) (Nat.min 5 (S (v_value e2)))). split; [apply in_flat_map; exists k; split; [exact Ik|rewrite E2; left; reflexivity]|].
    cbn [v_key v_value]. split; [apply cmp_refl|lia].
  - destruct (C123_until_stable Nat.le ex_max [MInsert (Build_Value 0 0)] ex_pass (fun v => v <= 5) (fun v => v) 5 [0; 1; 2] ex_max_joins) as (m & R & _);
      [unfold ex_max; cbn [snd]; lia|lia|auto|intros op [<-|[]]; cbn; lia| |exists m; exact R].
    intros ops1 _ v I. destruct (P3 _ _ I) as [L Ik]. split; [exact L|]. exists (v_key v). split; [exact Ik|apply cmp_refl].
Qed.

Print Assumptions C123_least_upper_bound.
Print Assumptions C123_order_free.
Print Assumptions C123_unchanged.
Print Assumptions C123_until_stable.
Print Assumptions C123_same_map.
