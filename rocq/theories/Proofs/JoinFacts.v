From Coq Require Import List Arith Lia.
From Verif.Model Require Import Ord BTree Outcome Utils Mergeables.
From Verif.Spec Require Import MergeSpec JoinSpec.
From Verif.Proofs Require Import OrdFacts BTreeFacts LoopFacts MergeFacts.
Import ListNotations.

Section JF.
  Context {K V : Type} `{TotalPre K}.
  Variable le : V -> V -> Prop.
  Variable merge : V -> V -> WasChanged * V.
  Hypothesis J : joins le merge.
  Local Notation ins := (@inserted K V _).

  Lemma ins_snoc h op k v : ins (h ++ [op]) k v <-> ins h k v \/ (cmp k (v_key (op_value op)) = Eq /\ v_value (op_value op) = v).
  Proof.
    split.
    - intros (o & I & E). apply in_app_or in I. destruct I as [I|[<-|[]]]; [left; exists o; auto|right; auto].
    - intros [(o & I & E)|E]; [exists o; split; [apply in_or_app; auto|exact E]|exists op; split; [apply in_or_app; right; left; reflexivity|exact E]].
  Qed.

  Lemma entry_lub h k :
    (entry_of merge k h = None <-> forall v, ~ ins h k v) /\
    forall e, entry_of merge k h = Some e -> (forall v, ins h k v -> le v (v_value e)) /\ (forall u, (forall v, ins h k v -> le v u) -> le (v_value e) u).
  Proof.
    induction h as [|op h (N & L)] using rev_ind.
    - split; [split; [intros _ v (o & [] & _)|reflexivity]|discriminate].
    - rewrite entry_of_snoc. unfold entry_step. destruct (cmp k (v_key (op_value op))) eqn:C.
      + split.
        * split; [destruct (entry_of merge k h); discriminate|]. intro X. exfalso. apply (X (v_value (op_value op))). apply ins_snoc. auto.
        * intros e E. destruct (entry_of merge k h) as [o|] eqn:O; injection E as <-; cbn [v_value].
          -- destruct (L o eq_refl) as [U1 U2]. split.
             ++ intros v I. apply ins_snoc in I. destruct I as [I|[_ <-]]; [eapply le_trans; [exact J|apply U1, I|apply join_left; exact J]|apply join_right; exact J].
             ++ intros u B. apply (join_least _ _ J); [apply U2; intros v I; apply B, ins_snoc; auto|apply B, ins_snoc; auto].
          -- split.
             ++ intros v I. apply ins_snoc in I. destruct I as [I|[_ <-]]; [destruct (proj1 N eq_refl v I)|apply (le_refl _ _ J)].
             ++ intros u B. apply B, ins_snoc. auto.
      + split.
        * rewrite N. split; intros X v I; [apply ins_snoc in I; destruct I as [I|[C2 _]]; [exact (X v I)|congruence]|apply (X v), ins_snoc; auto].
        * intros e E. destruct (L e E) as [U1 U2]. split; [intros v I; apply ins_snoc in I; destruct I as [I|[C2 _]]; [auto|congruence]|].
          intros u B. apply U2. intros v I. apply B, ins_snoc. auto.
      + split.
        * rewrite N. split; intros X v I; [apply ins_snoc in I; destruct I as [I|[C2 _]]; [exact (X v I)|congruence]|apply (X v), ins_snoc; auto].
        * intros e E. destruct (L e E) as [U1 U2]. split; [intros v I; apply ins_snoc in I; destruct I as [I|[C2 _]]; [auto|congruence]|].
          intros u B. apply U2. intros v I. apply B, ins_snoc. auto.
  Qed.

  Lemma entry_same h h' k : (forall v, ins h k v <-> ins h' k v) ->
    option_map v_value (entry_of merge k h) = option_map v_value (entry_of merge k h').
  Proof.
    intro S. destruct (entry_lub h k) as [N L], (entry_lub h' k) as [N' L'].
    destruct (entry_of merge k h) as [e|] eqn:E, (entry_of merge k h') as [e'|] eqn:E'; cbn [option_map]; [f_equal| | |reflexivity].
    - destruct (L e eq_refl) as [A B], (L' e' eq_refl) as [A' B'].
      apply (le_antisym _ _ J); [apply B; intros v I; apply A', S, I|apply B'; intros v I; apply A, S, I].
    - exfalso. assert (X : Some e = None); [|discriminate]. apply N. intros v I. apply (proj1 N' eq_refl v), S, I.
    - exfalso. assert (X : Some e' = None); [|discriminate]. apply N'. intros v I. apply (proj1 N eq_refl v), S, I.
  Qed.

  (** An insertion that reports [Unchanged] does nothing. *)
  Lemma bt_insert_same k v (m : btmap K V) : msorted m -> bt_get k m = Some v -> bt_insert k v m = m.
  Proof.
    induction m as [|[k' v'] m IH]; intros S G; cbn [bt_get bt_insert] in *; [discriminate|].
    destruct (sorted_inv _ _ S) as [S' F]. destruct (cmp k k') eqn:C.
    - congruence.
    - exfalso. destruct (bt_get_Some_In _ _ _ G) as (k1 & I & E). rewrite Forall_forall in F. specialize (F k1 (in_map fst _ _ I)).
      pose proof (cmp_lt_trans _ _ _ C F). congruence.
    - rewrite (IH S' G). reflexivity.
  Qed.

  Lemma insert_unchanged m (v : Value K V) : msorted m ->
    (fst (mm_insert merge m v) = Unchanged <-> holds le m (v_key v) (v_value v)) /\
    (fst (mm_insert merge m v) = Unchanged -> snd (mm_insert merge m v) = m).
  Proof.
    intro S. destruct (mm_insert_ok merge m v S) as (_ & _ & R). split.
    - rewrite R. unfold holds. destruct (mm_get_entry m (v_key v)) as [e|].
      + rewrite (join_report _ _ J). split; [intro; exists e; auto|intros (e' & [= <-] & L); exact L].
      + split; [discriminate|intros (e' & [=] & _)].
    - unfold mm_insert. pose proof (get_entry_get m (v_key v)) as G. destruct (bt_get (v_key v) m) as [o|] eqn:Go; [|discriminate].
      destruct (merge o (v_value v)) as [c w] eqn:M. cbn [fst snd]. intros ->.
      assert (w = o) as ->.
      { apply (le_antisym _ _ J); [|pose proof (join_left _ _ J o (v_value v)) as X; rewrite M in X; exact X].
        pose proof (join_least _ _ J o (v_value v) o) as X. rewrite M in X. apply X; [apply (le_refl _ _ J)|].
        apply (join_report _ _ J). rewrite M. reflexivity. }
      apply bt_insert_same; assumption.
  Qed.

  (** Every sorted map comes from a history. *)
  Lemma insert_last k v (m : btmap K V) : (forall x, In x (bt_keys m) -> cmp x k = Lt) -> bt_get k m = None /\ bt_insert k v m = m ++ [(k, v)].
  Proof.
    induction m as [|[k' v'] m IH]; intro L; [split; reflexivity|]. cbn [bt_get bt_insert app].
    pose proof (L k' (or_introl eq_refl)) as C. rewrite (cmp_sym k' k), C. cbn [CompOpp].
    destruct IH as [I1 I2]; [intros x I; apply L; right; exact I|]. rewrite I2. auto.
  Qed.
  Lemma sorted_prefix (m1 m2 : btmap K V) : msorted (m1 ++ m2) -> msorted m1 /\ forall x y, In x (bt_keys m1) -> In y (bt_keys m2) -> cmp x y = Lt.
  Proof.
    induction m1 as [|[k v] m1 IH]; intro S; [split; [constructor|intros x y []]|].
    destruct (sorted_inv _ _ S) as [S' F]. destruct (IH S') as [S1 L]. rewrite Forall_forall in F. split.
    - unfold msorted in *. cbn [bt_keys map]. constructor; [exact S1|]. apply Forall_forall. intros x I. apply F. change (In x (map fst (m1 ++ m2))). rewrite map_app. apply in_or_app. left. exact I.
    - intros x y [<-|I] Iy; [|exact (L x y I Iy)]. apply F. change (In y (map fst (m1 ++ m2))). rewrite map_app. apply in_or_app. right. exact Iy.
  Qed.
  Lemma sorted_history (m : btmap K V) : msorted m -> exists ops, snd (mm_exec merge mm_new ops) = m.
  Proof.
    induction m as [|[k v] m IH] using rev_ind; intro S; [exists []; reflexivity|].
    destruct (sorted_prefix m [(k, v)] S) as [S1 L]. destruct (IH S1) as (ops & E).
    exists (ops ++ [MInsert (Build_Value k v)]). rewrite mm_exec_app. destruct (mm_exec merge mm_new ops) as [c m1]. cbn [snd] in E. subst m1.
    cbn [mm_exec mm_step]. unfold mm_insert. cbn [v_key v_value]. destruct (insert_last k v m) as [G I]; [intros x Ix; apply L; [exact Ix|left; reflexivity]|].
    rewrite G, I. reflexivity.
  Qed.

  (** *** The loop *)
  Variable f : MergableMap K V -> list (Value K V).
  Variable good : V -> Prop.
  Variable rank : V -> nat.
  Variable top : nat.
  Variable Ks : list K.
  Hypothesis good_merge : forall a b, good a -> good b -> good (snd (merge a b)).
  Hypothesis rank_lt : forall a b, good a -> good b -> le a b -> a <> b -> rank a < rank b.
  Hypothesis rank_top : forall a, good a -> rank a <= top.

  Definition all_good (m : MergableMap K V) : Prop := forall k e, mm_get_entry m k = Some e -> good (v_value e).
  Hypothesis f_good : forall m, msorted m -> all_good m -> forall v, In v (f m) -> good (v_value v) /\ exists k, In k Ks /\ cmp k (v_key v) = Eq.

  Definition score (m : MergableMap K V) (k : K) : nat := match mm_get_entry m k with None => 0 | Some e => S (rank (v_value e)) end.
  Definition total (m : MergableMap K V) : nat := list_sum (map (score m) Ks).

  Lemma sum_cons (g : K -> nat) k l : list_sum (map g (k :: l)) = g k + list_sum (map g l).
  Proof. reflexivity. Qed.
  Lemma score_top m k : all_good m -> score m k <= S top.
  Proof. intro G. unfold score. destruct (mm_get_entry m k) as [e|] eqn:E; [|lia]. specialize (rank_top _ (G k e E)). lia. Qed.
  Lemma total_top m : all_good m -> total m <= length Ks * S top.
  Proof. intro G. unfold total. clear f_good. induction Ks as [|k l IH]; [cbn; lia|]. rewrite ?sum_cons. cbn [length Nat.mul]. pose proof (score_top m k G). lia. Qed.

  Lemma below_refl m : map_below le m m.
  Proof. intros k e E. exists e. split; [exact E|apply (le_refl _ _ J)]. Qed.
  Lemma below_trans m1 m2 m3 : map_below le m1 m2 -> map_below le m2 m3 -> map_below le m1 m3.
  Proof.
    intros A B k e E. destruct (A k e E) as (e2 & E2 & L2). destruct (B k e2 E2) as (e3 & E3 & L3). exists e3. split; [exact E3|].
    exact (le_trans _ _ J _ _ _ L2 L3).
  Qed.
  Lemma holds_below m1 m2 k v : map_below le m1 m2 -> holds le m1 k v -> holds le m2 k v.
  Proof. intros B (e & E & L). destruct (B k e E) as (e2 & E2 & L2). exists e2. split; [exact E2|exact (le_trans _ _ J _ _ _ L L2)]. Qed.
  Lemma entry_compat (m : MergableMap K V) k k' : cmp k k' = Eq -> mm_get_entry m k = mm_get_entry m k'.
  Proof. intro E. unfold mm_get_entry. rewrite (bt_get_kv_compat _ _ m E). reflexivity. Qed.

  Lemma insert_facts m (v : Value K V) : msorted m -> all_good m -> good (v_value v) ->
    let m' := snd (mm_insert merge m v) in
    msorted m' /\ all_good m' /\ map_below le m m' /\ holds le m' (v_key v) (v_value v) /\
    (forall m2, map_below le m m2 -> holds le m2 (v_key v) (v_value v) -> map_below le m' m2) /\
    (forall k, score m k <= score m' k) /\
    (fst (mm_insert merge m v) = Changed -> forall k, cmp k (v_key v) = Eq -> score m k < score m' k).
  Proof.
    intros S G Gv m'. destruct (mm_insert_ok merge m v S) as (S' & En & R). fold m' in S', En.
    assert (Eq_k : forall k, cmp k (v_key v) = Eq -> mm_get_entry m' k = match mm_get_entry m k with None => Some v
      | Some o => Some (Build_Value (v_key o) (snd (merge (v_value o) (v_value v)))) end).
    { intros k E. rewrite En. unfold entry_step. rewrite E. reflexivity. }
    assert (Ne_k : forall k, cmp k (v_key v) <> Eq -> mm_get_entry m' k = mm_get_entry m k).
    { intros k E. rewrite En. unfold entry_step. destruct (cmp k (v_key v)); [congruence|reflexivity|reflexivity]. }
    assert (Dec : forall k, cmp k (v_key v) = Eq \/ cmp k (v_key v) <> Eq) by (intro k; destruct (cmp k (v_key v)); auto; right; discriminate).
    split; [exact S'|]. split; [|split; [|split; [|split; [|split]]]].
    - intros k e E. destruct (Dec k) as [C|C]; [|rewrite (Ne_k k C) in E; exact (G k e E)].
      rewrite (Eq_k k C) in E. destruct (mm_get_entry m k) as [o|] eqn:O; injection E as <-; cbn [v_value]; [apply good_merge; [exact (G k o O)|exact Gv]|exact Gv].
    - intros k e E. destruct (Dec k) as [C|C].
      + unfold holds. rewrite (Eq_k k C), E. eexists. split; [reflexivity|]. apply (join_left _ _ J).
      + unfold holds. rewrite (Ne_k k C). exists e. split; [exact E|apply (le_refl _ _ J)].
    - unfold holds. rewrite (Eq_k _ (cmp_refl _)). destruct (mm_get_entry m (v_key v)) as [o|]; eexists; (split; [reflexivity|]); [apply (join_right _ _ J)|apply (le_refl _ _ J)].
    - intros m2 B Hv k e E. destruct (Dec k) as [C|C]; [|rewrite (Ne_k k C) in E; exact (B k e E)].
      rewrite (Eq_k k C) in E. unfold holds in *. rewrite <- (entry_compat m2 k (v_key v) C) in Hv. destruct Hv as (e2 & E2 & L2).
      exists e2. split; [exact E2|]. destruct (mm_get_entry m k) as [o|] eqn:O; injection E as <-; [|exact L2]. cbn [v_value].
      destruct (B k o O) as (e3 & E3 & L3). rewrite E2 in E3. injection E3 as <-. apply (join_least _ _ J); assumption.
    - intro k. unfold score. destruct (Dec k) as [C|C]; [|rewrite (Ne_k k C); lia]. rewrite (Eq_k k C).
      destruct (mm_get_entry m k) as [o|] eqn:O; [|lia]. cbn [v_value].
      pose proof (join_left _ _ J (v_value o) (v_value v)) as L. pose proof (G k o O) as Go. pose proof (good_merge _ _ Go Gv) as Gj.
      destruct (Nat.le_gt_cases (rank (v_value o)) (rank (snd (merge (v_value o) (v_value v))))) as [|X]; [lia|].
      exfalso. assert (v_value o <> snd (merge (v_value o) (v_value v))) as D by (intro Q; rewrite <- Q in X; lia).
      specialize (rank_lt _ _ Go Gj L D). lia.
    - intros Ch k C. unfold score. rewrite (Eq_k k C). rewrite R in Ch. rewrite <- (entry_compat m k (v_key v) C) in Ch.
      destruct (mm_get_entry m k) as [o|] eqn:O; [|lia]. cbn [v_value].
      assert (rank (v_value o) < rank (snd (merge (v_value o) (v_value v)))); [|lia].
      apply rank_lt; [exact (G k o O)|apply good_merge; [exact (G k o O)|exact Gv]|apply (join_left _ _ J)|].
      intro Q. assert (X : fst (merge (v_value o) (v_value v)) = Unchanged); [|congruence]. apply (join_report _ _ J). rewrite Q. apply (join_right _ _ J).
  Qed.

  Lemma total_le m m' : (forall k, score m k <= score m' k) -> total m <= total m'.
  Proof. intro L. unfold total. clear f_good. induction Ks as [|k l IH]; [cbn; lia|]. rewrite ?sum_cons. cbn [length Nat.mul]. specialize (L k). lia. Qed.
  Lemma total_lt m m' k : (forall k, score m k <= score m' k) -> In k Ks -> score m k < score m' k -> total m < total m'.
  Proof.
    intros L I X. unfold total. clear f_good.
    assert (W : forall l, list_sum (map (score m) l) <= list_sum (map (score m') l)).
    { induction l as [|y l IH]; [cbn; lia|]. rewrite !sum_cons. specialize (L y). lia. }
    induction Ks as [|y l IH]; [destruct I|]. rewrite !sum_cons. destruct I as [->|I]; [specialize (W l); lia|]. specialize (IH I). specialize (L y). lia.
  Qed.

  (** One round. *)
  Lemma round_facts vs : forall m c, msorted m -> all_good m ->
    (forall v, In v vs -> good (v_value v) /\ exists k, In k Ks /\ cmp k (v_key v) = Eq) ->
    exists c' m', change_iter_from (fun v m => Ret (mm_insert merge m v)) c vs m = Ret (c', m') /\
    msorted m' /\ all_good m' /\ map_below le m m' /\ (forall v, In v vs -> holds le m' (v_key v) (v_value v)) /\
    (forall m2, map_below le m m2 -> (forall v, In v vs -> holds le m2 (v_key v) (v_value v)) -> map_below le m' m2) /\
    total m <= total m' /\
    (c' = Unchanged -> m' = m /\ c = Unchanged) /\ (c = Unchanged -> c' = Changed -> total m < total m').
  Proof.
    induction vs as [|v vs IH]; intros m c S G P.
    - exists c, m. split; [reflexivity|]. split; [exact S|]. split; [exact G|]. split; [apply below_refl|]. split; [intros v []|]. split; [auto|].
      split; [lia|]. split; [auto|]. intros -> [=].
    - destruct (P v (or_introl eq_refl)) as (Gv & k & Ik & Ck).
      destruct (insert_facts m v S G Gv) as (S1 & G1 & B1 & H1 & L1 & T1 & C1). pose proof (proj2 (insert_unchanged m v S)) as U1.
      destruct (mm_insert merge m v) as [c1 m1] eqn:M. cbn [fst snd] in *.
      destruct (IH m1 (wc_join c c1) S1 G1 (fun w I => P w (or_intror I))) as (c' & m' & E & S2 & G2 & B2 & H2 & L2 & T2 & U2 & C2).
      exists c', m'. split; [cbn [change_iter_from]; rewrite M; exact E|]. split; [exact S2|]. split; [exact G2|].
      split; [exact (below_trans _ _ _ B1 B2)|]. split; [intros w [<-|I]; [exact (holds_below _ _ _ _ B2 H1)|exact (H2 w I)]|].
      split; [intros m2 B X; apply L2; [apply L1; [exact B|apply X; left; reflexivity]|intros w I; apply X; right; exact I]|].
      pose proof (total_le _ _ T1) as T. split; [lia|]. split.
      + intros ->. destruct (U2 eq_refl) as [-> J2]. destruct c, c1; try discriminate. rewrite (U1 eq_refl). auto.
      + intros -> ->. destruct c1; [pose proof (total_lt _ _ k T1 Ik (C1 eq_refl k Ck)); lia|]. rewrite (U1 eq_refl) in *. specialize (C2 eq_refl eq_refl). lia.
  Qed.

  Lemma saturate_facts m : msorted m -> all_good m ->
    exists m', runs_to (insert_until_stable merge f m) (Ret m') /\ msorted m' /\ all_good m' /\ map_below le m m' /\ all_held le f m' /\
    ((forall m1 m2, msorted m1 -> msorted m2 -> map_below le m1 m2 -> forall v, In v (f m1) -> exists w, In w (f m2) /\ cmp (v_key v) (v_key w) = Eq /\ le (v_value v) (v_value w)) ->
     forall m2, msorted m2 -> map_below le m m2 -> all_held le f m2 -> map_below le m' m2).
  Proof.
    intros S G. remember (length Ks * Datatypes.S top - total m) as n eqn:En. revert m S G En.
    induction n as [n IH] using (well_founded_induction lt_wf). intros m S G En.
    destruct (round_facts (f m) m Unchanged S G (f_good m S G)) as (c & m1 & E & S1 & G1 & B1 & H1 & L1 & T1 & U1 & C1).
    destruct c.
    - specialize (C1 eq_refl eq_refl). pose proof (total_top m1 G1) as Tp.
      destruct (IH (length Ks * Datatypes.S top - total m1) ltac:(lia) m1 S1 G1 eq_refl) as (m' & R & S2 & G2 & B2 & Sat & Least).
      exists m'. split; [|split; [exact S2|split; [exact G2|split; [exact (below_trans _ _ _ B1 B2)|split; [exact Sat|]]]]].
      + destruct R as [Rn (N & R)]. split; [discriminate|]. exists (Datatypes.S N). intros [|fuel] L; [lia|]. unfold insert_until_stable, change_iter in *. cbn [change_loop]. rewrite E. cbn [obind]. apply R. lia.
      + intros Mono m2 Sm B Sa. apply Least; [exact Mono|exact Sm| |exact Sa]. apply L1; [exact B|]. intros v I.
        destruct (Mono m m2 S Sm B v I) as (w & Iw & C & L). destruct (Sa w Iw) as (e & Ee & Le). exists e. split; [rewrite (entry_compat m2 _ _ C); exact Ee|exact (le_trans _ _ J _ _ _ L Le)].
    - destruct (U1 eq_refl) as [-> _]. exists m. split; [|split; [exact S|split; [exact G|split; [apply below_refl|split; [exact H1|]]]]].
      + split; [discriminate|]. exists 1. intros [|fuel] L; [lia|]. unfold insert_until_stable, change_iter. cbn [change_loop]. rewrite E. reflexivity.
      + intros _ m2 _ B _. exact B.
  Qed.
End JF.
