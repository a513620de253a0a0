(** The dot export of a tree other threads are changing. *)
From Coq Require Import String List Arith Bool Lia.
From Verif.Model Require Import Ord BTree Outcome Utils Tree DotText EarleyShared DotShared.
From Verif.Spec Require Import Reach TreeSpec DotShareSpec.
From Verif.Proofs Require Import OrdFacts BTreeFacts LoopFacts GrammarFacts TreeFacts TreeHist DotFacts DotTextFacts EarleyShare.
Import ListNotations.

Section Grow.
  Context {T AK V : Type} `{OrdEq T} `{OrdEq AK} `{OrdEq V}.
  Local Notation tree := (Inner T AK V).
  Local Notation st := (shared T AK V).
  Implicit Types (t : tree) (s : st).

  Record grow t t' : Prop := {
    gr_t : TInv t';
    gr_len : length (in_nodes t) <= length (in_nodes t');
    gr_keep : forall a c, acont t a = Some c -> acont t' a = Some c;
    gr_nalts : forall n, incl (nalts t n) (nalts t' n)
  }.
  Lemma grow_refl t : TInv t -> grow t t.
  Proof. constructor; auto. intro n. apply incl_refl. Qed.
  Lemma grow_trans t1 t2 t3 : grow t1 t2 -> grow t2 t3 -> grow t1 t3.
  Proof. intros A B. constructor; [apply B|pose proof (gr_len _ _ A); pose proof (gr_len _ _ B); lia|intros a c E; exact (gr_keep _ _ B _ _ (gr_keep _ _ A _ _ E))|]. intros n x I. exact (gr_nalts _ _ B _ _ (gr_nalts _ _ A _ _ I)). Qed.
  Lemma other_step_grow mine o t : TInv t -> grow t (other_step mine o t).
  Proof.
    intro I. pose proof (other_step_env mine o t I) as E. constructor; [apply E|apply E|apply E|]. intros n x.
    destruct (Nat.lt_ge_cases n (length (in_nodes t))) as [L|G].
    2:{ unfold nalts at 1. destruct (nth_error (in_nodes t) n) eqn:Q; [|intros []]. assert (nth_error (in_nodes t) n <> None) by congruence. apply nth_error_Some in H5. lia. }
    intro Ix. destruct o as [|c|n' a|n' m]; cbn [other_step].
    - pose proof (other_step_env [n] OMakeNode t I) as X. cbn [other_step] in X. rewrite (ev_mine _ _ _ X n (or_introl eq_refl) L). exact Ix.
    - pose proof (other_step_env [n] (OMakeAlt c) t I) as X. cbn [other_step] in X. rewrite (ev_mine _ _ _ X n (or_introl eq_refl) L). exact Ix.
    - destruct (theirs mine t n' && alt_valid t a); [|exact Ix]. unfold in_add_node_alt. destruct (get_node t n') as [ss|?|] eqn:G; [|exact Ix|exact Ix].
      cbn [obind]. unfold bs_insert. unfold nalts. cbn [in_nodes]. rewrite nth_list_set.
      destruct (Nat.eqb_spec n' n) as [->|]; [|exact Ix]. unfold get_node in G. unfold nalts in Ix. destruct (nth_error (in_nodes t) n); [|discriminate].
      cbn in G. injection G as ->. apply bs_add_In. auto.
    - destruct (theirs mine t n' && node_valid t m) eqn:V0; [|exact Ix]. apply andb_prop in V0. destruct V0 as [V1 V2].
      apply theirs_ok in V1. apply node_valid_ok in V2. destruct (add_all_spec t n' m I (proj1 V1) V2) as (c & u & R & _ & N3 & _). rewrite R.
      unfold nalts. rewrite N3, nth_list_set. destruct (Nat.eqb_spec n' n) as [->|]; [|exact Ix].
      unfold nalts in Ix. destruct (nth_error (in_nodes t) n) eqn:Q; [|destruct Ix]. apply bs_extend_In. right. unfold nalts. rewrite Q. exact Ix.
  Qed.
  Lemma others_grow mine os : forall t, TInv t -> grow t (fold_left (fun t o => other_step mine o t) os t).
  Proof.
    induction os as [|o os IH]; intros t I; simpl; [apply grow_refl; exact I|].
    pose proof (other_step_grow mine o t I) as E. exact (grow_trans _ _ _ E (IH _ (gr_t _ _ E))).
  Qed.

  Lemma tedge_grow t t' x y : TInv t -> grow t t' -> tedge t x y -> tedge t' x y.
  Proof.
    intros I G (l & E & J). destruct x as [i|i]; cbn [dot_succ] in E.
    - assert (O : node_ok t i) by (unfold get_node in E; destruct (nth_error (in_nodes t) i) eqn:Q; [|discriminate]; apply nth_error_Some; congruence).
      assert (O' : node_ok t' i) by (pose proof (gr_len _ _ G); unfold node_ok in *; lia).
      assert (X : forall u : tree, node_ok u i -> get_node u i = Ret (nalts u i)).
      { unfold node_ok, get_node, nalts. intros u L. destruct (nth_error (in_nodes u) i) eqn:Q; [reflexivity|]. apply nth_error_None in Q. lia. }
      rewrite (X t O) in E. cbn [obind] in E. injection E as <-. exists (map DAlt (nalts t' i)). cbn [dot_succ]. rewrite (X t' O'). split; [reflexivity|].
      apply in_map_iff in J. destruct J as (a & <- & J). apply in_map. exact (gr_nalts _ _ G i a J).
    - unfold get_alt in E. destruct (nth_error (id_to_value (in_alts t)) i) as [c|] eqn:Q; [|discriminate]. pose proof (gr_keep _ _ G i c Q) as Q'.
      exists l. cbn [dot_succ]. unfold get_alt, acont in *. rewrite Q'. auto.
  Qed.
  Lemma plus_grow t t' x y : TInv t -> grow t t' -> plus (tedge t) x y -> plus (tedge t') x y.
  Proof.
    intros I G (z & S & E). exists z. split; [|exact (tedge_grow _ _ _ _ I G E)].
    clear E. induction S as [|u v S IH E]; [constructor|]. eapply star_step; [exact IH|exact (tedge_grow _ _ _ _ I G E)].
  Qed.
  Lemma dok_grow t t' x : grow t t' -> dok t x -> dok t' x.
  Proof.
    intros G. destruct x as [i|i]; cbn [dok]; intro L; [pose proof (gr_len _ _ G); lia|].
    destruct (nth_error (id_to_value (in_alts t)) i) as [c|] eqn:Q; [|apply nth_error_None in Q; lia].
    pose proof (gr_keep _ _ G i c Q) as Q'. unfold acont in Q'. apply nth_error_Some. congruence.
  Qed.

  (** Where the others are: the tree after some rounds, and the rounds left. *)
  Variables (t0 : tree) (others : list (list (other_op T AK V))).
  Hypothesis I0 : TInv t0.
  Definition At k s : Prop := sh_mine s = [] /\ sh_tree s = after others k t0 /\ sh_others s = skipn k others.
  Lemma after_grow k : grow t0 (after others k t0).
  Proof. apply others_grow. exact I0. Qed.
  Lemma after_S k os r : skipn k others = os :: r -> after others (S k) t0 = fold_left (fun t o => other_step [] o t) os (after others k t0).
  Proof.
    intro E. unfold after. rewrite <- fold_left_app. f_equal.
    assert (firstn (S k) others = firstn k others ++ [os]) as ->.
    { clear -E. revert k E. induction others as [|a l IH]; intros [|k] E; try discriminate.
      - simpl in E. injection E as -> ->. reflexivity.
      - cbn [skipn] in E. change (firstn (S (S k)) (a :: l)) with (a :: firstn (S k) l). rewrite (IH k E). reflexivity. }
    rewrite concat_app. simpl. rewrite app_nil_r. reflexivity.
  Qed.
  Lemma wait_At k s : At k s -> exists k', k <= k' /\ At k' (wait s) /\ grow (sh_tree s) (sh_tree (wait s)).
  Proof.
    intros (M & E & O). pose proof (gr_t _ _ (after_grow k)) as I. unfold wait. destruct (sh_others s) as [|os r] eqn:Eo.
    - exists k. split; [lia|]. split; [split; [exact M|]; split; [exact E|congruence]|]. apply grow_refl. rewrite E. exact I.
    - exists (S k). split; [lia|]. split.
      + split; [exact M|]. split; [|cbn [sh_others]].
        * cbn [sh_tree]. rewrite M, E. symmetry. apply (after_S k os r). congruence.
        * clear -O. revert k O. induction others as [|a l IH]; intros [|k] O; try discriminate; simpl in *; [congruence|]. apply IH. exact O.
      + cbn [sh_tree]. rewrite M, E. apply others_grow. exact I.
  Qed.
  Lemma after_mono k k' : k <= k' -> grow (after others k t0) (after others k' t0).
  Proof.
    induction 1 as [|m L IH]; [apply grow_refl; apply (gr_t _ _ (after_grow k))|]. apply (grow_trans _ _ _ IH).
    destruct (skipn m others) as [|os r] eqn:E.
    - assert (after others (S m) t0 = after others m t0) as ->; [|apply grow_refl; apply (gr_t _ _ (after_grow m))].
      unfold after. assert (length others <= m) by (destruct (Nat.le_gt_cases (length others) m); [assumption|]; apply (f_equal (@length _)) in E; rewrite skipn_length in E; simpl in E; lia).
      rewrite !firstn_all2 by lia. reflexivity.
    - rewrite (after_S m os r E). apply others_grow. apply (gr_t _ _ (after_grow m)).
  Qed.
  Definition final : tree := after others (length others) t0.
  Lemma after_final k : grow (after others k t0) final.
  Proof.
    destruct (Nat.le_gt_cases k (length others)) as [L|L]; [exact (after_mono _ _ L)|].
    assert (after others k t0 = final) as ->; [|apply grow_refl; apply (gr_t _ _ (after_grow _))].
    unfold final, after. rewrite !firstn_all2 by lia. reflexivity.
  Qed.
  Lemma At_inv k s : At k s -> TInv (sh_tree s) /\ grow t0 (sh_tree s) /\ grow (sh_tree s) final.
  Proof. intros (_ & -> & _). split; [apply (gr_t _ _ (after_grow k))|]. split; [apply after_grow|apply after_final]. Qed.

  (** One look at a vertex. *)
  Lemma look k s x : At k s -> dok (sh_tree s) x -> exists l k' s', sh_with (fun t => dot_succ t x) s = Ret (l, s') /\ k <= k' /\ At k' s' /\
    grow (sh_tree s) (sh_tree s') /\ forall y, In y l <-> tedge (sh_tree s') x y.
  Proof.
    intros A O. destruct (wait_At k s A) as (k' & L & A' & G). unfold sh_with. destruct (dot_succ_total (sh_tree (wait s)) x (dok_grow _ _ _ G O)) as (l & E).
    rewrite E. exists l, k', (wait s). split; [reflexivity|]. split; [exact L|]. split; [exact A'|]. split; [exact G|].
    intro y. split; [intro J; exists l; auto|]. intros (l' & E' & J). congruence.
  Qed.

  Variable root : nat.
  Hypothesis Ok : node_ok t0 root.
  Local Notation rt := (DNode root).

  (** What is seen is below the root, now. *)
  Definition below t (seen : list DotNode) : Prop := forall x, In x seen -> plus (tedge t) rt x.
  Definition item_ok (seen : list DotNode) (x : DotNode) : Prop := x = rt \/ In x seen.
  Definition closed_at (seen : list DotNode) (x : DotNode) : Prop := forall y, tedge t0 x y -> In y seen.
  Lemma below_grow t t' seen : TInv t -> grow t t' -> below t seen -> below t' seen.
  Proof. intros I G B x J. exact (plus_grow _ _ _ _ I G (B x J)). Qed.
  Lemma item_dok t seen x : TInv t -> node_ok t root -> below t seen -> item_ok seen x -> dok t x.
  Proof. intros I O B [->|J]; [exact O|]. exact (plus_ok t _ _ I (B x J)). Qed.
  Lemma At_root k s : At k s -> node_ok (sh_tree s) root.
  Proof. intro A. destruct (At_inv k s A) as (_ & G & _). pose proof (gr_len _ _ G). unfold node_ok in *. lia. Qed.

  Lemma add_le (x : DotNode) l : length (bs_add x l) <= S (length l).
  Proof. induction l as [|y l IH]; simpl; [lia|]. destruct (cmp x y); simpl; lia. Qed.
  Lemma visit_spec items : forall next seen : btset DotNode, sorted seen ->
    let '(next', seen') := dot_visit items (next, seen) in sorted seen' /\
      (forall x, In x seen' <-> In x seen \/ In x items) /\
      (forall x, In x next' <-> In x next \/ In x items /\ ~ In x seen) /\ length next' + length seen <= length next + length seen'.
  Proof.
    induction items as [|x items IH]; intros next seen So; [cbn; split; [exact So|]; split; [intro; tauto|]; split; [intro; tauto|lia]|].
    unfold dot_visit in *. cbn [fold_left]. change (bs_insert x seen) with (negb (bs_mem x seen), bs_add x seen). cbv iota beta. destruct (bs_mem x seen) eqn:M; cbn [negb].
    - rewrite (bs_add_mem_id x seen So M). specialize (IH next seen So). destruct (fold_left _ items (next, seen)) as [n' s'].
      destruct IH as (A & B & C & D). apply bs_mem_In_iff in M. split; [exact A|]. split; [|split; [|exact D]].
      + intro y. rewrite B. simpl. intuition (subst; auto).
      + intro y. rewrite C. simpl. intuition (subst; auto); contradiction.
    - specialize (IH (bs_add x next) (bs_add x seen) (bs_add_sorted x seen So)). destruct (fold_left _ items (bs_add x next, bs_add x seen)) as [n' s'].
      destruct IH as (A & B & C & D). pose proof (bs_add_length_new x seen M) as Ln. pose proof (add_le x next). apply bs_mem_false_iff in M.
      split; [exact A|]. split; [|split; [|lia]].
      + intro y. rewrite B, bs_add_In. simpl. intuition (subst; auto).
      + intro y. rewrite C, !bs_add_In. simpl. intuition (subst; auto).
        destruct ((@OrdEq_dec DotNode _ _) x y); [subst; auto|]. right. split; [auto|]. intros [->|]; auto.
  Qed.

  Lemma round_spec : forall (curr next seen : btset DotNode) k s, At k s -> sorted seen -> below (sh_tree s) seen -> Forall (item_ok seen) curr ->
    exists next' seen' k' s', sh_dot_round curr (next, seen) s = Ret (next', seen', s') /\ k <= k' /\ At k' s' /\ grow (sh_tree s) (sh_tree s') /\
      sorted seen' /\ below (sh_tree s') seen' /\ incl seen seen' /\ (forall x, In x curr -> closed_at seen' x) /\
      (forall x, In x next' <-> In x next \/ In x seen' /\ ~ In x seen) /\ length next' + length seen <= length next + length seen'.
  Proof.
    induction curr as [|x curr IH]; intros next seen k s A So B F; cbn [sh_dot_round].
    - exists next, seen, k, s. destruct (At_inv k s A) as (I & _). split; [reflexivity|]. split; [lia|]. split; [exact A|]. split; [apply grow_refl; exact I|].
      split; [exact So|]. split; [exact B|]. split; [apply incl_refl|]. split; [intros x []|]. split; [intro; tauto|lia].
    - inversion F as [|? ? Ix F']; subst. destruct (At_inv k s A) as (I & G0 & _).
      destruct (look k s x A (item_dok _ seen x I (At_root k s A) B Ix)) as (l & k1 & s1 & E & L1 & A1 & G1 & Y). rewrite E. cbn [obind].
      destruct (At_inv k1 s1 A1) as (I1 & G01 & _).
      pose proof (visit_spec l next seen So) as Vs. destruct (dot_visit l (next, seen)) as [n1 seen1]. destruct Vs as (So1 & Q1 & Q2 & Q3).
      assert (B1 : below (sh_tree s1) seen1).
      { intros y J. apply Q1 in J. destruct J as [J|J]; [exact (below_grow _ _ _ I G1 B y J)|]. apply Y in J.
        destruct Ix as [->|Jx]; [exists rt; split; [constructor|exact J]|].
        destruct (below_grow _ _ _ I G1 B x Jx) as (z & S1 & E1). exists x. split; [eapply star_step; eassumption|exact J]. }
      assert (F1 : Forall (item_ok seen1) curr).
      { eapply Forall_impl; [|exact F']. intros y [->|J]; [left; reflexivity|right; apply Q1; auto]. }
      destruct (IH n1 seen1 k1 s1 A1 So1 B1 F1) as (n2 & seen2 & k2 & s2 & R2 & L2 & A2 & G2 & So2 & B2 & In2 & C2 & N2 & Ln).
      exists n2, seen2, k2, s2. split; [exact R2|]. split; [lia|]. split; [exact A2|]. split; [exact (grow_trans _ _ _ G1 G2)|].
      split; [exact So2|]. split; [exact B2|]. split; [intros y J; apply In2, Q1; auto|]. split; [|split].
      + intros y [<-|J]; [|exact (C2 y J)]. intros z Ez. apply In2, Q1. right. apply Y. exact (tedge_grow _ _ _ _ I0 G01 Ez).
      + intro y. rewrite N2, Q2. split.
        * intros [[J|[J1 J2]]|[J1 J2]]; [auto|right; split; [apply In2, Q1; auto|exact J2]|right; split; [exact J1|]]. intro J. apply J2, Q1. auto.
        * intros [J|[J1 J2]]; [auto|]. destruct (in_dec (@OrdEq_dec DotNode _ _) y seen1) as [D|D]; [|auto]. apply Q1 in D. left. tauto.
      + lia.
  Qed.

  Lemma loop_spec : forall fuel (curr seen : btset DotNode) k s, At k s -> sorted seen -> below (sh_tree s) seen -> Forall (item_ok seen) curr ->
    (forall x, item_ok seen x -> In x curr \/ closed_at seen x) ->
    S (length (universe final)) < fuel + length seen \/ curr = [] /\ 0 < fuel ->
    exists seen' k' s', sh_dot_loop fuel curr seen s = Ret (seen', s') /\ k <= k' /\ At k' s' /\
      sorted seen' /\ below (sh_tree s') seen' /\ forall x, item_ok seen' x -> closed_at seen' x.
  Proof.
    assert (Bd : forall k s (seen : btset DotNode), At k s -> sorted seen -> below (sh_tree s) seen -> length seen <= length (universe final)).
    { intros k s seen A So B. apply NoDup_incl_length; [apply sorted_NoDup; exact So|]. intros x J. apply universe_ok.
      destruct (At_inv k s A) as (I & _ & G). exact (dok_grow _ _ _ G (plus_ok _ _ _ I (B x J))). }
    induction fuel as [|fuel IH]; intros curr seen k s A So B F C Fu.
    - pose proof (Bd k s seen A So B). lia.
    - cbn [sh_dot_loop]. destruct curr as [|c curr].
      + exists seen, k, s. split; [reflexivity|]. split; [lia|]. split; [exact A|]. split; [exact So|]. split; [exact B|].
        intros x J. destruct (C x J) as [[]|X]; exact X.
      + destruct (round_spec (c :: curr) [] seen k s A So B F) as (n1 & seen1 & k1 & s1 & R & L & A1 & G1 & So1 & B1 & In1 & C1 & N1 & Ln).
        unfold btset in *. rewrite R. cbn [obind].
        destruct (IH n1 seen1 k1 s1 A1 So1 B1) as (seen2 & k2 & s2 & R2 & L2 & X).
        * apply Forall_forall. intros x J. apply N1 in J. right. destruct J as [[]|J]; tauto.
        * intros x [->|J].
          -- destruct (C rt (or_introl eq_refl)) as [D|D]; [right; exact (C1 rt D)|]. right. intros y Ey. apply In1, D. exact Ey.
          -- destruct (in_dec (@OrdEq_dec DotNode _ _) x seen) as [D|D].
             ++ right. destruct (C x (or_intror D)) as [D'|D']; [exact (C1 x D')|]. intros y Ey. apply In1, D'. exact Ey.
             ++ left. apply N1. auto.
        * destruct Fu as [Fu|[Fu _]]; [|discriminate]. destruct n1 as [|z n1].
          -- pose proof (Bd k s seen A So B). right. split; [reflexivity|lia].
          -- cbn [length] in Ln. left. lia.
        * exists seen2, k2, s2. split; [exact R2|]. split; [lia|exact X].
  Qed.

  Variables (debug_t : T -> string) (debug_ak : AK -> string) (debug_v : V -> string).

  (** A pass over the vertices. *)
  Lemma map_spec {B} (f : DotNode -> st -> outcome (list B * st)) (P : tree -> DotNode -> list B -> Prop) :
    (forall t t' x l, TInv t -> grow t t' -> P t x l -> P t' x l) ->
    (forall k s x, At k s -> dok (sh_tree s) x -> exists l k' s', f x s = Ret (l, s') /\ k <= k' /\ At k' s' /\ P (sh_tree s') x l) ->
    forall xs k s, At k s -> Forall (dok (sh_tree s)) xs ->
      exists ls k' s', sh_flat_map f xs s = Ret (concat ls, s') /\ k <= k' /\ At k' s' /\ Forall2 (P (sh_tree s')) xs ls.
  Proof.
    intros Mo Step. induction xs as [|x xs IH]; intros k s A F; cbn [sh_flat_map].
    - exists [], k, s. split; [reflexivity|]. split; [lia|]. split; [exact A|constructor].
    - inversion F as [|? ? Fx F']; subst. destruct (Step k s x A Fx) as (l & k1 & s1 & E & L1 & A1 & P1). rewrite E. cbn [obind].
      assert (G : forall k k' s s', k <= k' -> At k s -> At k' s' -> grow (sh_tree s) (sh_tree s')).
      { intros a b u v L (_ & -> & _) (_ & -> & _). exact (after_mono _ _ L). }
      destruct (IH k1 s1 A1) as (ls & k2 & s2 & E2 & L2 & A2 & P2).
      { eapply Forall_impl; [|exact F']. intros y. apply dok_grow. exact (G _ _ _ _ L1 A A1). }
      rewrite E2. cbn [obind]. exists (l :: ls), k2, s2. split; [reflexivity|]. split; [lia|]. split; [exact A2|]. constructor; [|exact P2].
      apply (Mo (sh_tree s1)); [apply (At_inv k1 s1 A1)|exact (G _ _ _ _ L2 A1 A2)|exact P1].
  Qed.
  Lemma acont_get t a c : get_alt t a = Ret c <-> acont t a = Some c.
  Proof. unfold get_alt, acont. destruct (nth_error (id_to_value (in_alts t)) a); simpl; split; congruence. Qed.
  Lemma link_tedge t x y : link t x y <-> tedge t x y.
  Proof.
    split.
    - intros [n ss a E J|a z ns n E J].
      + exists (map DAlt ss). cbn [dot_succ]. rewrite E. split; [reflexivity|apply in_map; exact J].
      + exists (map DNode ns). cbn [dot_succ]. rewrite E. split; [reflexivity|apply in_map; exact J].
    - intros (l & E & J). destruct x as [i|i]; cbn [dot_succ] in E.
      + destruct (get_node t i) as [ss|?|] eqn:G; try discriminate. cbn [obind] in E. injection E as <-. apply in_map_iff in J. destruct J as (a & <- & J).
        exact (link_alt t i ss a G J).
      + destruct (get_alt t i) as [c|?|] eqn:G; try discriminate. cbn [obind] in E. injection E as <-. destruct c as [k v|z ns]; [destruct J|].
        apply in_map_iff in J. destruct J as (a & <- & J). exact (link_node t i z ns a G J).
  Qed.
  Definition vstmt t x (l : list dot_stmt) : Prop := exists a b, l = [NodeStmt (vertex_id x) a b] /\ drawn debug_t debug_ak debug_v t x a b.
  Lemma vstmt_mono t t' x l : TInv t -> grow t t' -> vstmt t x l -> vstmt t' x l.
  Proof.
    intros I G (a & b & -> & D). exists a, b. split; [reflexivity|]. destruct D as [n|i z ns E|i k v E]; [constructor|econstructor|econstructor];
      apply acont_get; apply (gr_keep _ _ G); apply acont_get; exact E.
  Qed.
  Lemma vstmt_step k s x : At k s -> dok (sh_tree s) x ->
    exists l k' s', sh_node_stmt debug_t debug_ak debug_v x s = Ret (l, s') /\ k <= k' /\ At k' s' /\ vstmt (sh_tree s') x l.
  Proof.
    intros A O. unfold sh_node_stmt. rewrite node_id_vertex. cbn [obind]. destruct x as [i|i].
    - cbn. eexists. exists k, s. split; [reflexivity|]. split; [lia|]. split; [exact A|]. eexists. eexists. split; [reflexivity|constructor].
    - destruct (wait_At k s A) as (k' & L & A' & G). cbn [sh_node_label]. unfold sh_with. cbn [node_label].
      pose proof (dok_grow _ _ _ G O) as O'. cbn [dok] in O'.
      destruct (nth_error (id_to_value (in_alts (sh_tree (wait s)))) i) as [c|] eqn:E; [|apply nth_error_None in E; lia].
      assert (Ec : get_alt (sh_tree (wait s)) i = Ret c) by (apply acont_get; exact E). rewrite Ec. cbn [obind].
      eexists. exists k', (wait s). split; [reflexivity|]. split; [exact L|]. split; [exact A'|].
      eexists. eexists. split; [reflexivity|]. destruct c as [kk v|z ns]; [exact (drawn_leaf _ _ _ _ i kk v Ec)|exact (drawn_branch _ _ _ _ i z ns Ec)].
  Qed.
  Definition estmt t x (l : list (DotNode * DotNode)) : Prop :=
    (forall y, tedge t0 x y -> In (x, y) l) /\ forall z y, In (z, y) l -> z = x /\ tedge t x y.
  Lemma estmt_mono t t' x l : TInv t -> grow t t' -> estmt t x l -> estmt t' x l.
  Proof. intros I G [A B]. split; [exact A|]. intros z y J. destruct (B z y J) as [-> E]. split; [reflexivity|exact (tedge_grow _ _ _ _ I G E)]. Qed.
  Lemma estmt_step k s x : At k s -> dok (sh_tree s) x ->
    exists l k' s', sh_edges_of x s = Ret (l, s') /\ k <= k' /\ At k' s' /\ estmt (sh_tree s') x l.
  Proof.
    intros A O. destruct (look k s x A O) as (l & k' & s' & E & L & A' & G & Y). unfold sh_edges_of. rewrite E. cbn [obind].
    exists (map (fun y => (x, y)) l), k', s'. split; [reflexivity|]. split; [exact L|]. split; [exact A'|]. split.
    - intros y Ey. apply in_map_iff. exists y. split; [reflexivity|]. apply Y. destruct (At_inv k' s' A') as (_ & G0 & _). exact (tedge_grow _ _ _ _ I0 G0 Ey).
    - intros z y J. apply in_map_iff in J. destruct J as (y' & [= <- <-] & J). split; [reflexivity|]. apply Y. exact J.
  Qed.

  Lemma loop_more fuel : forall fuel' (curr seen : btset DotNode) (s : st) r, fuel <= fuel' -> sh_dot_loop fuel curr seen s = Ret r -> sh_dot_loop fuel' curr seen s = Ret r.
  Proof.
    induction fuel as [|fuel IH]; intros fuel' curr seen s r L E; [discriminate|]. destruct fuel' as [|fuel']; [lia|]. cbn [sh_dot_loop] in *.
    destruct curr as [|c curr]; [exact E|]. unfold btset in *. destruct (sh_dot_round (c :: curr) ([], seen) s) as [[[n1 seen1] s1]|?|]; cbn [obind] in *; try discriminate.
    apply (IH fuel'); [lia|exact E].
  Qed.
  Lemma to_dot_shared : exists xs vs es k,
    runs_to (fun fuel => shared_to_dot debug_t debug_ak debug_v others t0 root fuel) (Ret (vs ++ es, after others k t0)) /\
    NoDup xs /\
    Forall2 (fun x st => exists a b, st = NodeStmt (vertex_id x) a b /\ drawn debug_t debug_ak debug_v (after others k t0) x a b) xs vs /\
    (forall x, plus (link t0) rt x -> In x xs) /\ (forall x, In x xs -> plus (link (after others k t0)) rt x) /\
    (forall st, In st es -> exists x y, st = EdgeStmt (vertex_id x) (vertex_id y) /\ In x xs /\ link (after others k t0) x y) /\
    (forall x y, In x xs -> link t0 x y -> In (EdgeStmt (vertex_id x) (vertex_id y)) es).
  Proof.
    assert (A0 : At 0 {| sh_tree := t0; sh_mine := []; sh_others := others |}) by (split; [reflexivity|]; split; reflexivity).
    assert (Lp : forall fuel, length (universe final) + 2 <= fuel -> exists seen' k' s', sh_dot_loop fuel [rt] [] {| sh_tree := t0; sh_mine := []; sh_others := others |} = Ret (seen', s') /\ 0 <= k' /\ At k' s' /\
      sorted seen' /\ below (sh_tree s') seen' /\ forall x, item_ok seen' x -> closed_at seen' x).
    { intros fuel Lf. apply loop_spec; [exact A0|constructor|intros x []| | |].
      - constructor; [left; reflexivity|constructor].
      - intros x [->|[]]. left. left. reflexivity.
      - left. cbn [length]. lia. }
    destruct (Lp (length (universe final) + 2) (le_n _)) as (seen & k1 & s1 & E1 & _ & A1 & So & B & Cl).
    set (nodes := flat_map (fun x => match x with DNode i => [i] | DAlt _ => [] end) seen).
    set (alts := flat_map (fun x => match x with DAlt i => [i] | DNode _ => [] end) seen).
    set (xs := dot_nodes nodes alts).
    assert (Ix : forall x, In x xs <-> In x seen) by (intro x; apply dot_nodes_In).
    destruct (At_inv k1 s1 A1) as (I1 & _).
    assert (F1 : Forall (dok (sh_tree s1)) xs) by (apply Forall_forall; intros x J; apply Ix in J; exact (plus_ok _ _ _ I1 (B x J))).
    destruct (map_spec _ _ vstmt_mono vstmt_step xs k1 s1 A1 F1) as (vls & k2 & s2 & E2 & L2 & A2 & P2).
    assert (G : forall k k' s s', k <= k' -> At k s -> At k' s' -> grow (sh_tree s) (sh_tree s')).
    { intros a b u v L (_ & -> & _) (_ & -> & _). exact (after_mono _ _ L). }
    assert (F2 : Forall (dok (sh_tree s2)) xs) by (eapply Forall_impl; [|exact F1]; intro x; apply dok_grow; exact (G _ _ _ _ L2 A1 A2)).
    destruct (map_spec _ _ estmt_mono estmt_step xs k2 s2 A2 F2) as (els & k3 & s3 & E3 & L3 & A3 & P3).
    destruct (At_inv k2 s2 A2) as (I2 & _). destruct (At_inv k3 s3 A3) as (I3 & _).
    pose proof (G _ _ _ _ L3 A2 A3) as G23. pose proof (G _ _ _ _ (Nat.le_trans _ _ _ L2 L3) A1 A3) as G13.
    set (es := map (fun e => EdgeStmt (vertex_id (fst e)) (vertex_id (snd e))) (concat els)).
    assert (Es : flat_map_o (fun e => x <- edge_stmt e ;; Ret [x]) (concat els) = Ret es).
    { apply flat_map_o_pure. intros e. unfold edge_stmt. rewrite !node_id_vertex. reflexivity. }
    assert (T3 : sh_tree s3 = after others k3 t0) by apply A3.
    assert (Cx : forall x y, In (x, y) (concat els) <-> In x xs /\ exists l, In l els /\ estmt (sh_tree s3) x l /\ In (x, y) l).
    { intros x y. rewrite in_concat. clear -P3. split.
      - intros (l & Il & J). induction P3 as [|z l' xs' els' Z P3 IH]; [destruct Il|]. destruct Il as [->|Il].
        + destruct (proj2 Z x y J) as [-> _]. split; [left; reflexivity|]. exists l. split; [left; reflexivity|auto].
        + destruct (IH Il) as (X1 & l1 & X2 & X3). split; [right; exact X1|]. exists l1. split; [right; exact X2|exact X3].
      - intros (_ & l & Il & _ & J). eauto. }
    exists xs, (concat vls), es, k3. split; [|split; [|split; [|split; [|split; [|split]]]]].
    - split; [discriminate|]. exists (length (universe final) + 2). intros fuel Lf.
      assert (X : sh_dot_loop fuel [rt] [] {| sh_tree := t0; sh_mine := []; sh_others := others |} = Ret (seen, s1)) by exact (loop_more _ _ _ _ _ _ Lf E1).
      unfold shared_to_dot, sh_collect. cbn [bs_add]. unfold btset in *. rewrite X. cbn [obind]. fold nodes. fold alts. fold xs.
      rewrite E2. cbn [obind]. rewrite E3. cbn [obind]. rewrite Es. cbn [obind]. rewrite T3. reflexivity.
    - apply dot_nodes_NoDup. apply sorted_NoDup. exact So.
    - rewrite <- T3. clear -P2 I2 G23. induction P2 as [|x l xs' vls' X P2 IH]; [constructor|].
      destruct (vstmt_mono _ _ _ _ I2 G23 X) as (a & b & -> & D). cbn [concat app]. constructor; [eauto|exact IH].
    - intros x (y & S & E). apply link_tedge in E. apply Ix. apply (Cl y); [|exact E]. clear E. induction S as [|u v S IH E]; [left; reflexivity|].
      right. apply (Cl u IH). apply link_tedge. exact E.
    - intros x J. apply Ix in J. rewrite <- T3. pose proof (plus_grow _ _ _ _ I1 G13 (B x J)) as X.
      apply (plus_ext (tedge (sh_tree s3))); [|exact X]. intros a b. symmetry. apply link_tedge.
    - intros e J. apply in_map_iff in J. destruct J as ([x y] & <- & J). exists x, y. split; [reflexivity|]. apply Cx in J.
      destruct J as (Jx & l & _ & Z & Jl). split; [exact Jx|]. rewrite <- T3. apply link_tedge. exact (proj2 (proj2 Z x y Jl)).
    - intros x y Jx L. apply in_map_iff. exists (x, y). split; [reflexivity|]. apply in_concat.
      apply link_tedge in L. clear -P3 Jx L. induction P3 as [|z l' xs' els' Z P3 IH]; [destruct Jx|]. destruct Jx as [->|Jx].
      + exists l'. split; [left; reflexivity|exact (proj1 Z y L)].
      + destruct (IH Jx) as (l & X1 & X2). exists l. split; [right; exact X1|exact X2].
  Qed.
End Grow.
