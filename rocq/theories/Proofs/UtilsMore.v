(** Proofs of the statements in [Properties/UtilsProps.v]. *)
From Coq Require Import List Arith Lia.
From Verif.Model Require Import Ord BTree Outcome Utils.
From Verif.Spec Require Import Reach UtilsSpec.
From Verif.Proofs Require Import OrdFacts BTreeFacts LoopFacts UtilsFacts.
Import ListNotations.

Section BFS.
  Context {T : Type} `{OrdEq T}.
  Variable next : T -> list T.
  Variable initial : list T.
  Let R x y := In y (next x).

  Lemma bfs_edge x y : edge (fun a => Ret (next a)) x y <-> R x y.
  Proof.
    unfold edge. split; [intros (l & E & I); injection E as <-; exact I|]. intro I. exists (next x). auto.
  Qed.
  Lemma bfs_star_iff x y : star (edge (fun a => Ret (next a))) x y <-> star R x y.
  Proof.
    split; intro S; (induction S as [|y z _ IH E]; [apply star_refl|]);
      (apply (star_step _ _ y); [exact IH|]); apply bfs_edge; exact E.
  Qed.
  Lemma bfs_reachp y : reachp (fun a => Ret (next a)) initial y <-> exists x, In x initial /\ plus R x y.
  Proof.
    unfold reachp, plus. split; intros (x & I & z & S & E); exists x; (split; [exact I|]); exists z;
      (split; [apply bfs_star_iff; exact S | apply bfs_edge; exact E]).
  Qed.

  Lemma bfs_result n s :
    breadth_first_search initial (fun a => Ret (next a)) n = Ret s ->
    sorted s /\ forall y, In y s <-> exists x, In x initial /\ plus R x y.
  Proof.
    intro E. pose proof (bfs_partial (fun a => Ret (next a)) initial n ltac:(discriminate)
      ltac:(rewrite E; discriminate)) as P. rewrite E in P. destruct P as (P1 & P2 & _).
    split; [exact P1|]. intro y. rewrite P2. apply bfs_reachp.
  Qed.

  Lemma bfs_returns univ :
    (forall x y, In x initial -> plus R x y -> In y univ) ->
    exists s, runs_to (breadth_first_search initial (fun a => Ret (next a))) (Ret s).
  Proof.
    intro U. destruct (bfs_total (fun a => Ret (next a)) initial univ) as (r & Rr & P).
    - discriminate.
    - intros y X. apply bfs_reachp in X. destruct X as (x & I & X). exact (U x y I X).
    - destruct r as [s|m|]; [exists s; exact Rr| |destruct P].
      destruct P as (x & _ & F). discriminate.
  Qed.

  (** Whenever the reachable set is infinite the search does not return. *)
  Lemma bfs_returns_finite n s :
    breadth_first_search initial (fun a => Ret (next a)) n = Ret s ->
    exists univ, forall x y, In x initial -> plus R x y -> In y univ.
  Proof. intro E. exists s. intros x y I X. apply (bfs_result n s E). exists x. auto. Qed.
End BFS.

Section FP.
  Context {T : Type}.
  Variable eq : T -> T -> bool.
  Variable f : T -> T.
  Hypothesis eq_spec : forall a b, eq a b = true <-> a = b.

  Lemma eq_false a b : eq a b = false <-> a <> b.
  Proof. rewrite <- eq_spec. destruct (eq a b); split; congruence. Qed.

  Lemma fixed_point_iff start x :
    runs_to (fun n => fixed_point eq f n start) (Ret x) <->
    exists n, x = Nat.iter n f start /\ f x = x /\
      forall i, i < n -> f (Nat.iter i f start) <> Nat.iter i f start.
  Proof.
    split.
    - intros [_ [n E]]. specialize (E n (le_n n)). apply fixed_point_exact in E.
      destruct E as (k & L & -> & E & F). exists k. split; [reflexivity|]. split; [apply eq_spec; exact E|].
      intros i Li. apply eq_false. apply F. exact Li.
    - intros (n & -> & E & F). split; [discriminate|]. exists (S n). intros fuel L.
      apply fixed_point_exact. exists n. split; [lia|]. split; [reflexivity|].
      split; [apply eq_spec; exact E|]. intros i Li. apply eq_false. apply F. exact Li.
  Qed.
End FP.

Section Loops.
  Context {St I : Type}.

  Lemma calls_change_iter (f : I -> St -> outcome (WasChanged * St)) l c0 s c s' :
    change_iter_from f c0 l s = Ret (c, s') <->
    exists cs, calls_in_order f l s cs s' /\ (c = Changed <-> c0 = Changed \/ In Changed cs).
  Proof.
    revert c0 s. induction l as [|x l IH]; intros c0 s; cbn [change_iter_from].
    - split.
      + intro E. injection E as <- <-. exists []. split; [constructor|]. simpl. tauto.
      + intros (cs & C & E). inversion C; subst. f_equal. f_equal.
        destruct c0, c; try reflexivity; exfalso.
        * assert (Unchanged = Changed) by (apply E; auto). discriminate.
        * destruct (proj1 E eq_refl) as [X|[]]. discriminate.
    - split.
      + intro E. destruct (f x s) as [[d s1]| |] eqn:F; cbn [obind] in E; try discriminate.
        apply IH in E. destruct E as (cs & C & E). exists (d :: cs). split.
        * exact (cio_cons f x l s d s1 cs s' F C).
        * rewrite E, wc_join_Changed. simpl. tauto.
      + intros (cs & C & E). inversion C as [|x' l' s0 d s1 cs' s2 F C']; subst. rewrite F. cbn [obind].
        apply IH. exists cs'. split; [exact C'|]. rewrite E, wc_join_Changed. simpl. tauto.
  Qed.

  Lemma change_iter_iff (f : I -> St -> outcome (WasChanged * St)) l s c s' :
    change_iter f l s = Ret (c, s') <->
    exists cs, calls_in_order f l s cs s' /\ (c = Changed <-> In Changed cs).
  Proof.
    unfold change_iter. rewrite calls_change_iter. split; intros (cs & C & E); exists cs; (split; [exact C|]);
      rewrite E; intuition congruence.
  Qed.

  Lemma change_iter_panics (f : I -> St -> outcome (WasChanged * St)) l s m :
    change_iter f l s = Panic m <->
    exists l1 x l2 cs s1, l = l1 ++ x :: l2 /\ calls_in_order f l1 s cs s1 /\ f x s1 = Panic m.
  Proof.
    unfold change_iter. generalize Unchanged. revert s.
    induction l as [|x l IH]; intros s c0; cbn [change_iter_from].
    - split; [discriminate|]. intros (l1 & x & l2 & cs & s1 & E & _). destruct l1; discriminate.
    - split.
      + destruct (f x s) as [[d s1]|m'|] eqn:F; cbn [obind]; try discriminate.
        * intro E. apply IH in E. destruct E as (l1 & y & l2 & cs & s2 & -> & C & P).
          exists (x :: l1), y, l2, (d :: cs), s2. split; [reflexivity|]. split; [|exact P].
          exact (cio_cons f x l1 s d s1 cs s2 F C).
        * intro E. injection E as ->. exists [], x, l, [], s. split; [reflexivity|]. split; [constructor|exact F].
      + intros (l1 & y & l2 & cs & s1 & E & C & P). destruct l1 as [|z l1].
        * injection E as -> ->. inversion C; subst. rewrite P. reflexivity.
        * injection E as -> ->. inversion C as [|x' l' s0 d s2 cs' s3 F C']; subst. rewrite F. cbn [obind].
          apply IH. exists l1, y, l2, cs', s1. auto.
  Qed.

  Lemma change_loop_iff (f : St -> outcome (WasChanged * St)) fuel s s' :
    change_loop f fuel s = Ret s' <-> exists n, n < fuel /\ until_unchanged f n s s'.
  Proof.
    revert s. induction fuel as [|fuel IH]; intro s; cbn [change_loop].
    - split; [discriminate|]. intros (n & L & _). lia.
    - split.
      + destruct (f s) as [[[] s1]| |] eqn:F; cbn [obind]; try discriminate.
        * intro E. apply IH in E. destruct E as (n & L & U). exists (S n). split; [lia|].
          exact (uu_more f n s s1 s' F U).
        * intro E. injection E as <-. exists 0. split; [lia|]. apply uu_last. exact F.
      + intros (n & L & U). inversion U as [s0 s0' F|n' s0 s1 s0' F U']; subst; rewrite F; cbn [obind].
        * reflexivity.
        * apply IH. exists n'. split; [lia|exact U'].
  Qed.

  Lemma change_loop_runs (f : St -> outcome (WasChanged * St)) s s' :
    runs_to (fun n => change_loop f n s) (Ret s') <-> exists n, until_unchanged f n s s'.
  Proof.
    split.
    - intros [_ [n E]]. specialize (E n (le_n n)). apply change_loop_iff in E.
      destruct E as (k & _ & U). exists k. exact U.
    - intros (n & U). split; [discriminate|]. exists (S n). intros fuel L. apply change_loop_iff.
      exists n. split; [lia|exact U].
  Qed.
End Loops.

Section CM.
  Context {K V : Type} `{OrdEq K} `{OrdEq V}.

  Definition cm_apply (m : CollectMap K V) (o : cm_op K V) : WasChanged * CollectMap K V :=
    match o with
    | CInsert k v => cm_insert m k v
    | CInsertIter k vs => cm_insert_iter m k vs
    | CInsertFromKeySet k src => cm_insert_from_key_set m k src
    end.

  (** [m] represents the abstract content [a]. *)
  Definition cm_repr (m : CollectMap K V) (a : mapset K V) : Prop :=
    msorted m /\
    (forall k, ms_has a k <-> exists s, cm_get m k = Some s) /\
    (forall k v, ms_rel a k v <-> exists s, cm_get m k = Some s /\ In v s) /\
    (forall k s, cm_get m k = Some s -> sorted s).

  Lemma cm_repr_rel m a k v : cm_repr m a -> (cm_rel m k v <-> ms_rel a k v).
  Proof. intros (S & N & G & D). rewrite G. reflexivity. Qed.
  Lemma cm_repr_wf m a : cm_repr m a -> cm_wf m.
  Proof. intros (S & N & G & D). split; [exact S | exact D]. Qed.

  Lemma cm_apply_spec m a o c m' :
    cm_repr m a -> cm_apply m o = (c, m') ->
    cm_repr m' (op_abs o a) /\ (c = Changed <-> op_grows o a).
  Proof.
    intros Rp E. pose proof (cm_repr_wf _ _ Rp) as W.
    assert (Rel : forall k v, cm_rel m k v <-> ms_rel a k v) by (intros; apply cm_repr_rel; exact Rp).
    destruct Rp as (Sm & Has & _ & _).
    (* common shape of the three operations *)
    assert (Main : forall k0 (P : V -> Prop),
      cm_wf m' ->
      (forall k', k' <> k0 -> bt_get k' m' = bt_get k' m) ->
      (forall k v, op_adds o a k v <-> k = k0 /\ P v) ->
      (forall v, cm_rel m' k0 v <-> cm_rel m k0 v \/ P v) ->
      ((exists s, bt_get k0 m' = Some s) <-> (exists s, bt_get k0 m = Some s) \/ op_touches o k0) ->
      (forall k, op_touches o k -> k = k0) ->
      (c = Changed <-> exists v, P v /\ ~ cm_rel m k0 v) ->
      cm_repr m' (op_abs o a) /\ (c = Changed <-> op_grows o a)).
    { intros k0 P W' Oth Adds R' H' Tch C. split.
      - split; [apply W'|]. split; [|split; [|apply W']].
        + intro k. cbn [op_abs ms_has]. rewrite Has. unfold cm_get. destruct (OrdEq_dec k k0) as [->|Nk].
          * rewrite H'. reflexivity.
          * rewrite (Oth k Nk). split; [|tauto]. intros [X|X]; [exact X|]. apply Tch in X. contradiction.
        + intros k v. cbn [op_abs ms_rel]. rewrite Adds, <- Rel. unfold cm_get.
          change (exists s, bt_get k m' = Some s /\ In v s) with (cm_rel m' k v).
          destruct (OrdEq_dec k k0) as [->|Nk].
          * rewrite R'. tauto.
          * unfold cm_rel. rewrite (Oth k Nk). split; [|tauto]. intros [X|[X _]]; [exact X|contradiction].
      - rewrite C. unfold op_grows. split.
        + intros (v & X & Y). exists k0, v. rewrite Adds, <- Rel. auto.
        + intros (k & v & X & Y). rewrite Adds in X. destruct X as [-> X]. rewrite <- Rel in Y.
          exists v. auto. }
    destruct o as [k v|k vs|k src]; cbn [cm_apply] in E.
    - destruct (cm_insert_spec _ _ _ _ _ E W) as (W' & Oth & (s & G & Rs) & C).
      apply (Main k (fun v' => v' = v)); auto.
      + intros k1 v1. cbn [op_adds]. tauto.
      + intro v'. rewrite <- Rs. unfold cm_rel. rewrite G. split.
        * intros (s' & X & Y). injection X as <-. exact Y.
        * intro Y. exists s. auto.
      + cbn [op_touches]. rewrite G. split; [tauto|]. intros _. exists s. reflexivity.
      + rewrite C. split; [intro X; exists v; auto|]. intros (v' & -> & X). exact X.
    - destruct (cm_insert_iter_spec _ _ _ _ _ E W) as (W' & Oth & Nn & Rs & C).
      apply (Main k (fun v' => In v' vs)); auto.
      + intros k1 v1. cbn [op_adds]. tauto.
      + cbn [op_touches]. destruct (bt_get k m') as [s'|] eqn:G', (bt_get k m) as [s|] eqn:G.
        * split; [|intros _; exists s'; reflexivity]. intros _. left. exists s. reflexivity.
        * split; [|intros _; exists s'; reflexivity]. intros _. right. split; [reflexivity|].
          intros ->. pose proof (proj2 Nn (conj eq_refl eq_refl)). discriminate.
        * destruct (proj1 Nn eq_refl) as [X _]. discriminate.
        * destruct (proj1 Nn eq_refl) as [_ ->]. split; [intros (x & X); discriminate|].
          intros [(x & X)|[_ X]]; [discriminate|congruence].
      + cbn [op_touches]. tauto.
    - destruct (cm_insert_from_key_set_spec _ _ _ _ _ E W) as (W' & Oth & Nn & Rs & C).
      apply (Main k (fun v' => cm_rel m src v')); auto.
      + intros k1 v1. cbn [op_adds]. rewrite <- Rel. tauto.
      + cbn [op_touches]. destruct (bt_get k m') as [s'|] eqn:G', (bt_get k m) as [s|] eqn:G.
        * split; [|intros _; exists s'; reflexivity]. intros _. left. exists s. reflexivity.
        * split; [|intros _; exists s'; reflexivity]. intros _. right. split; [reflexivity|].
          intros ->. pose proof (proj2 Nn (conj eq_refl eq_refl)). discriminate.
        * destruct (proj1 Nn eq_refl) as [X _]. discriminate.
        * destruct (proj1 Nn eq_refl) as [_ ->]. split; [intros (x & X); discriminate|].
          intros [(x & X)|[_ X]]; [discriminate|congruence].
      + cbn [op_touches]. tauto.
  Qed.

  (** Running a whole history; reports are collected in order. *)
  Fixpoint cm_run (m : CollectMap K V) (ops : list (cm_op K V)) : list WasChanged * CollectMap K V :=
    match ops with
    | [] => ([], m)
    | o :: ops' => let '(c, m1) := cm_apply m o in let '(cs, m2) := cm_run m1 ops' in (c :: cs, m2)
    end.

  Lemma cm_history ops m a :
    cm_repr m a ->
    cm_repr (snd (cm_run m ops)) (fold_left (fun a o => op_abs o a) ops a) /\
    (forall n o c, nth_error ops n = Some o -> nth_error (fst (cm_run m ops)) n = Some c ->
       (c = Changed <-> op_grows o (fold_left (fun a o => op_abs o a) (firstn n ops) a))) /\
    length (fst (cm_run m ops)) = length ops.
  Proof.
    revert m a. induction ops as [|o ops IH]; intros m a Rp; cbn [cm_run].
    - split; [exact Rp|]. split; [|reflexivity]. intros [|n] o c E; discriminate.
    - destruct (cm_apply m o) as [c1 m1] eqn:E1. destruct (cm_run m1 ops) as [cs m2] eqn:E2.
      destruct (cm_apply_spec _ _ _ _ _ Rp E1) as [Rp1 C1].
      destruct (IH m1 (op_abs o a) Rp1) as (A & B & L). rewrite E2 in *. cbn [fst snd] in *.
      split; [exact A|]. split; [|cbn [length]; rewrite L; reflexivity].
      intros [|n] o' c' X Y; cbn [nth_error firstn fold_left] in *.
      + injection X as <-. injection Y as <-. exact C1.
      + exact (B n o' c' X Y).
  Qed.

  Lemma cm_repr_new : cm_repr cm_new {| ms_has := fun _ => False; ms_rel := fun _ _ => False |}.
  Proof.
    split; [apply sorted_nil|]. split; [|split].
    - intro k. split; [intros []|]. intros (s & E). discriminate.
    - intros k v. split; [intros []|]. intros (s & E & _). discriminate.
    - intros k s E. discriminate.
  Qed.

  Lemma merge_value_pairs_full (l : list (K * V)) :
    msorted (merge_value_pairs l) /\
    forall k, (bt_get k (merge_value_pairs l) = None /\ forall v, ~ In (k, v) l) \/
      exists s, bt_get k (merge_value_pairs l) = Some s /\ sorted s /\ s <> [] /\ forall v, In v s <-> In (k, v) l.
  Proof.
    destruct (merge_value_pairs_spec l) as (W & N & R). split; [apply W|]. intro k.
    destruct (bt_get k (merge_value_pairs l)) as [s|] eqn:G.
    - right. exists s. split; [reflexivity|]. split; [exact (proj2 W k s G)|].
      assert (E : forall v, In v s <-> In (k, v) l).
      { intro v. rewrite <- R. unfold cm_rel. rewrite G. split; [intro I; exists s; auto|].
        intros (s' & X & I). injection X as <-. exact I. }
      split; [|exact E]. intros ->.
      assert (X : bt_get k (merge_value_pairs l) = None).
      { apply N. intros v I. apply E in I. destruct I. }
      congruence.
    - left. split; [reflexivity|]. apply N. exact G.
  Qed.
End CM.

Lemma collect_map_history {K V} `{OrdEq K} `{OrdEq V} (ops : list (cm_op K V)) :
  let empty := {| ms_has := fun _ : K => False; ms_rel := fun (_ : K) (_ : V) => False |} in
  let content n := fold_left (fun a o => op_abs o a) (firstn n ops) empty in
  let m := snd (cm_run cm_new ops) in
  let reports := fst (cm_run cm_new ops) in
  (forall k, ms_has (content (length ops)) k <-> exists s, cm_get m k = Some s) /\
  (forall k v, ms_rel (content (length ops)) k v <-> exists s, cm_get m k = Some s /\ In v s) /\
  length reports = length ops /\
  (forall n o c, nth_error ops n = Some o -> nth_error reports n = Some c ->
     (c = Changed <-> op_grows o (content n))).
Proof.
  intros empty content m reports. destruct (cm_history ops cm_new empty cm_repr_new) as (A & B & L).
  assert (E : content (length ops) = fold_left (fun a o => op_abs o a) ops empty).
  { unfold content. rewrite firstn_all. reflexivity. }
  rewrite E. destruct A as (_ & A1 & A2 & _). split; [exact A1|]. split; [exact A2|]. split; [exact L|exact B].
Qed.

Lemma bfs_terminates_iff {T} `{OrdEq T} (next : T -> list T) (initial : list T) :
  (exists s, runs_to (breadth_first_search initial (fun a => Ret (next a))) (Ret s)) <->
  (exists univ, forall x y, In x initial -> plus (fun a b => In b (next a)) x y -> In y univ).
Proof.
  split.
  - intros (s & _ & n & E). exact (bfs_returns_finite next initial n s (E n (le_n n))).
  - intros (univ & U). exact (bfs_returns next initial univ U).
Qed.
