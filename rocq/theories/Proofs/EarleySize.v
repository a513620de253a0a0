(** How much the Earley parser uses: states, rounds, nodes, alternatives. *)
From Coq Require Import String List Arith NArith Lia.
From Verif.Model Require Import Ord BTree Outcome Utils Grammar StartGrammar Tokens Tree State Earley.
From Verif.Spec Require Import Reach Cfg BuildSpec NullSpec TreeSpec EarleySpec SizeSpec.
From Verif.Proofs Require Import OrdFacts BTreeFacts LoopFacts GrammarFacts StartFacts BuildMore CfgFacts NullableFacts TreeFacts TreeHist
  EarleyItems EarleyRun EarleyParse.
Import ListNotations.

Lemma bt_insert_split {K V} `{Ord K} (k : K) (v : V) s : bt_get k s = None ->
  exists l1 l2, s = l1 ++ l2 /\ bt_insert k v s = l1 ++ (k, v) :: l2.
Proof.
  induction s as [|[k0 v0] s IH]; simpl; intro G; [exists [], []; auto|].
  destruct (cmp k k0) eqn:E; [discriminate| |].
  - exists [], ((k0, v0) :: s). auto.
  - destruct (IH G) as (l1 & l2 & -> & ->). exists ((k0, v0) :: l1), l2. auto.
Qed.
Lemma list_sum_le {A} (f f' : A -> nat) l : (forall x, In x l -> f x <= f' x) -> list_sum (map f l) <= list_sum (map f' l).
Proof.
  induction l as [|x l IH]; simpl; intro L; [lia|]. specialize (L x (or_introl eq_refl)) as Lx.
  assert (list_sum (map f l) <= list_sum (map f' l)) by (apply IH; auto). lia.
Qed.
Lemma list_sum_const {A} (f : A -> nat) c l : (forall x, In x l -> f x <= c) -> list_sum (map f l) <= length l * c.
Proof.
  induction l as [|x l IH]; simpl; intro L; [lia|]. specialize (L x (or_introl eq_refl)) as Lx.
  assert (list_sum (map f l) <= length l * c) by (apply IH; auto). lia.
Qed.
Lemma NoDup_incl_sum {A} (f : A -> nat) l : NoDup l -> forall l', incl l l' -> list_sum (map f l) <= list_sum (map f l').
Proof.
  induction 1 as [|x l N ND IH]; intros l' I; simpl; [lia|].
  destruct (in_split x l' (I x (or_introl eq_refl))) as (l1 & l2 & ->).
  rewrite map_app, list_sum_app. simpl.
  assert (list_sum (map f l) <= list_sum (map f (l1 ++ l2))) as L.
  { apply IH. intros y Iy. specialize (I y (or_intror Iy)). apply in_app_or in I. apply in_or_app.
    destruct I as [I|[->|I]]; auto. contradiction. }
  rewrite map_app, list_sum_app in L. lia.
Qed.
Lemma flat_map_length_sum {A B} (f : A -> list B) l : length (flat_map f l) = list_sum (map (fun x => length (f x)) l).
Proof. induction l as [|x l IH]; simpl; [reflexivity|]. rewrite app_length, IH. reflexivity. Qed.
Lemma list_prod_sum {A B} (f : A -> nat) (l : list A) (l' : list B) :
  list_sum (map (fun ab => f (fst ab)) (list_prod l l')) = list_sum (map f l) * length l'.
Proof.
  induction l as [|x l IH]; simpl; [reflexivity|]. rewrite map_app, list_sum_app, IH, map_map. simpl.
  assert (list_sum (map (fun _ : B => f x) l') = f x * length l') as ->; [|lia].
  clear. induction l' as [|y l' IH]; simpl; [lia|]. rewrite IH. lia.
Qed.

(** A loop whose measure grows with every change. *)
Lemma change_loop_measure {S} (f : S -> outcome (WasChanged * S)) (Inv : S -> Prop) (phi cnt : S -> nat) B q :
  (forall s, Inv s -> phi s <= B) ->
  (forall s, Inv s -> match f s with
     | Ret (c, s') => Inv s' /\ cnt s' <= cnt s + q /\ (c = Changed -> phi s < phi s')
     | Panic _ => True
     | NoFuel => False
     end) ->
  forall fuel s, Inv s -> match change_loop f fuel s with
    | Ret s' => Inv s' /\ cnt s' <= cnt s + (1 + B - phi s) * q
    | Panic _ => True
    | NoFuel => fuel <= B - phi s
    end.
Proof.
  intros Bd St. induction fuel as [|fuel IH]; intros s I; cbn [change_loop obind]; [lia|].
  specialize (St s I). destruct (f s) as [[c s']|m|] eqn:E; cbn [obind]; [|exact Logic.I|destruct St].
  destruct St as (I' & L & Ch). pose proof (Bd s I) as B1. pose proof (Bd s' I') as B2. destruct c.
  - specialize (Ch eq_refl). specialize (IH s' I'). destruct (change_loop f fuel s') as [s2|m|]; [|exact Logic.I|lia].
    destruct IH as [I2 L2]. split; [exact I2|].
    assert ((1 + (1 + B - phi s')) * q <= (1 + B - phi s) * q) as M by (apply Nat.mul_le_mono_r; lia).
    rewrite Nat.mul_add_distr_r in M. lia.
  - split; [exact I'|]. assert (1 * q <= (1 + B - phi s) * q) as M by (apply Nat.mul_le_mono_r; lia). lia.
Qed.

Section Size.
  Context {T NT AK AV V : Type} `{OrdEq T} `{OrdEq NT} `{OrdEq AK} `{OrdEq V}.
  Variable g : Grammar T NT AK AV.
  Hypothesis Bg : accepted g.
  Local Notation SP := (Prod (StreamTerminal T) (StartNonTerminal NT) (StartActionKey AK) (StartActionValue AV)).
  Local Notation sg := (wrapg g).
  Local Notation tree := (Inner T AK V).
  Local Notation C := (ContentInner T AK V).
  Local Notation Key := (EarleyStateKey T NT AK AV).
  Local Notation ESet := (EarleyStateSet T NT AK AV).
  Local Notation EState := (EarleyState T NT AK AV).
  Variable lay : layout (StartNonTerminal NT).
  Hypothesis Inj : lay_inj sg lay.
  Variable w : list (Token T V).
  Variable t0 : tree.
  Hypothesis T0 : TInv t0.
  Implicit Types (t : tree) (n m a : nat) (W : C -> Prop).
  Local Instance OKl : Ord Key := Ord_Key lay.
  Local Instance TPl : TotalPre Key := TP lay.

  Definition fresh n : Prop := length (in_nodes t0) <= n.
  Record JT W t : Prop := {
    jt_t : TInv t;
    jt_len : length (in_nodes t0) <= length (in_nodes t);
    jt_alts : forall n a, fresh n -> In a (nalts t n) -> exists c, acont t a = Some c /\ W c;
    jt_new : forall a c, acont t a = Some c -> acont t0 a = Some c \/ W c;
    jt_keep : forall a c, acont t0 a = Some c -> acont t a = Some c;
    jt_ne : forall n, fresh n -> node_ok t n -> exists a, In a (nalts t n);
    jt_rank : forall a c n, acont t a = Some c -> In n (c_nodes c) -> fresh n -> exists b, In b (nalts t n) /\ b < a
  }.
  Lemma JT_mono W W' t : (forall c, W c -> W' c) -> JT W t -> JT W' t.
  Proof.
    intros L [A B D E F Ne Rk]. constructor; auto.
    - intros n a Fr I. destruct (D n a Fr I) as (c & Ec & Wc). eauto.
    - intros a c Ec. destruct (E a c Ec); auto.
  Qed.
  Definition vok t (v : list nat) : Prop := Forall (fun n => fresh n /\ node_ok t n) v.
  Definition tgrow t t' : Prop := length (in_nodes t) <= length (in_nodes t') /\ forall n, length (nalts t n) <= length (nalts t' n).
  Definition told t t' : Prop := forall n, node_ok t n -> nalts t' n = nalts t n.
  Lemma tgrow_refl t : tgrow t t.
  Proof. split; auto. Qed.
  Lemma tgrow_trans t1 t2 t3 : tgrow t1 t2 -> tgrow t2 t3 -> tgrow t1 t3.
  Proof. intros [A B] [A' B']. split; [lia|]. intro n. specialize (B n). specialize (B' n). lia. Qed.
  Lemma told_trans t1 t2 t3 : tgrow t1 t2 -> told t1 t2 -> told t2 t3 -> told t1 t3.
  Proof. intros [A _] O1 O2 n Ok. rewrite O2; [apply O1; exact Ok|]. unfold node_ok in *. lia. Qed.
  Lemma vok_grow t t' v : tgrow t t' -> vok t v -> vok t' v.
  Proof. intros [A _] F. eapply Forall_impl; [|exact F]. intros n [Fr Ok]. split; [exact Fr|]. unfold node_ok in *. lia. Qed.

  Lemma make_size W c a t t' : JT W t -> W c -> Forall (node_ok t) (c_nodes c) -> in_nodes t' = in_nodes t ++ [[a]] -> acont t' a = Some c -> TInv t' ->
    (forall b d, acont t b = Some d -> acont t' b = Some d) ->
    (forall b d, acont t' b = Some d -> acont t b = Some d \/ (b = a /\ d = c)) ->
    JT W t' /\ tgrow t t' /\ told t t' /\ vok t' [length (in_nodes t)] /\ length (in_nodes t') = S (length (in_nodes t)).
  Proof.
    intros J Wc Cn En Ea I' Keep New.
    assert (NL : forall m, nalts t' m = if Nat.eqb m (length (in_nodes t)) then [a] else nalts t m).
    { intro m. unfold nalts. rewrite En, nth_error_snoc. destruct (Nat.eqb m (length (in_nodes t))); reflexivity. }
    assert (Len : length (in_nodes t') = S (length (in_nodes t))) by (rewrite En, app_length; simpl; lia).
    assert (Z : nalts t (length (in_nodes t)) = []).
    { unfold nalts. destruct (nth_error (in_nodes t) (length (in_nodes t))) eqn:E; [|reflexivity]. apply nth_lt in E. lia. }
    split; [|split; [|split; [|split]]].
    - destruct J as [A B D E F Ne Rk]. constructor; auto.
      + lia.
      + intros n b Fr Ib. rewrite NL in Ib. destruct (Nat.eqb_spec n (length (in_nodes t))) as [->|N].
        * destruct Ib as [<-|[]]. eauto.
        * destruct (D n b Fr Ib) as (d & Ed & Wd). eauto.
      + intros b d Ed. destruct (New b d Ed) as [Eb|[-> ->]]; [apply E in Eb; exact Eb|auto].
      + intros n Fr Ok. rewrite NL. destruct (Nat.eqb_spec n (length (in_nodes t))) as [->|N]; [exists a; left; reflexivity|].
        apply (Ne n Fr). unfold node_ok in *. lia.
      + assert (Old : forall b d n, acont t b = Some d -> In n (c_nodes d) -> fresh n -> exists b', In b' (nalts t' n) /\ b' < b).
        { intros b d n Eb In_ Fr. destruct (Rk b d n Eb In_ Fr) as (b' & Ib & Lb). exists b'. split; [|exact Lb]. rewrite NL.
          destruct (Nat.eqb_spec n (length (in_nodes t))) as [->|N]; [rewrite Z in Ib; destruct Ib|exact Ib]. }
        intros b d n Eb In_ Fr. destruct (New b d Eb) as [Eb'|[-> ->]]; [exact (Old b d n Eb' In_ Fr)|].
        destruct (acont t a) as [d|] eqn:Ed; [pose proof (Keep _ _ Ed) as X; rewrite Ea in X; injection X as <-; exact (Old a c n Ed In_ Fr)|].
        pose proof (proj1 (Forall_forall _ _) Cn n In_) as Ok. destruct (Ne n Fr Ok) as (b & Ib). exists b. split.
        * rewrite NL. destruct (Nat.eqb_spec n (length (in_nodes t))) as [->|N]; [rewrite Z in Ib; destruct Ib|exact Ib].
        * destruct (ti_alts _ A _ _ Ib) as (c' & Ec). unfold acont in Ec, Ed. apply nth_lt in Ec. apply nth_error_None in Ed. lia.
    - split; [lia|]. intro n. rewrite NL. destruct (Nat.eqb_spec n (length (in_nodes t))) as [->|N]; [rewrite Z; simpl; lia|lia].
    - intros n Ok. rewrite NL. destruct (Nat.eqb_spec n (length (in_nodes t))) as [->|N]; [unfold node_ok in Ok; lia|reflexivity].
    - constructor; [|constructor]. split; [exact (jt_len _ _ J)|]. unfold node_ok. lia.
    - exact Len.
  Qed.

  Lemma add_all_size W n m t : JT W t -> vok t [n] -> vok t [m] ->
    match in_add_all n m t with
    | Ret (c, t') => JT W t' /\ tgrow t t' /\ length (in_nodes t') = length (in_nodes t) /\
        (c = Changed -> length (nalts t n) < length (nalts t' n))
    | _ => False
    end.
  Proof.
    intros J Vn Vm. inversion Vn as [|? ? [Fn On] _]; subst. inversion Vm as [|? ? [Fm Om] _]; subst.
    destruct (add_all_spec t n m (jt_t _ _ J) On Om) as (c & t' & R & Ea & En & I' & Ch). rewrite R.
    assert (AC : forall b, acont t' b = acont t b) by (intro b; unfold acont; rewrite Ea; reflexivity).
    assert (NL : forall x, nalts t' x = if Nat.eqb n x then bs_extend (nalts t n) (nalts t m) else nalts t x).
    { intro x. rewrite <- (nalts_set t n (bs_extend (nalts t n) (nalts t m)) (in_alts t) x On). unfold nalts. rewrite En. reflexivity. }
    assert (Len : length (in_nodes t') = length (in_nodes t)) by (rewrite En, list_set_length; reflexivity).
    assert (Le : length (nalts t n) <= length (bs_extend (nalts t n) (nalts t m))).
    { apply sorted_incl_length; [apply (ti_sorted _ (jt_t _ _ J))|]. intros x Ix. apply bs_extend_In. auto. }
    split; [|split; [|split; [exact Len|]]].
    - destruct J as [A B D E F Ne Rk]. constructor; auto.
      + lia.
      + intros x b Fr Ib. rewrite NL in Ib. rewrite AC. destruct (Nat.eqb_spec n x) as [<-|N]; [|exact (D x b Fr Ib)].
        apply bs_extend_In in Ib as [Ib|Ib]; [exact (D m b Fm Ib)|exact (D n b Fn Ib)].
      + intros b d Eb. rewrite AC in Eb. auto.
      + intros b d Eb. rewrite AC. auto.
      + intros x Fr Ok. unfold node_ok in Ok. rewrite Len in Ok. destruct (Ne x Fr Ok) as (b & Ib). exists b. rewrite NL.
        destruct (Nat.eqb_spec n x) as [<-|N]; [apply bs_extend_In; auto|exact Ib].
      + intros b d x Eb In_ Fr. rewrite AC in Eb. destruct (Rk b d x Eb In_ Fr) as (b' & Ib & Lb). exists b'. split; [|exact Lb]. rewrite NL.
        destruct (Nat.eqb_spec n x) as [<-|N]; [apply bs_extend_In; auto|exact Ib].
    - split; [lia|]. intro x. rewrite NL. destruct (Nat.eqb_spec n x) as [<-|N]; [exact Le|lia].
    - intros ->. destruct (proj1 Ch eq_refl) as (a & I1 & I2). rewrite NL, Nat.eqb_refl. apply sorted_nat_lt.
      + apply (ti_sorted _ (jt_t _ _ J)).
      + apply bs_extend_sorted. apply (ti_sorted _ (jt_t _ _ J)).
      + intros x Ix. apply bs_extend_In. auto.
      + exists a. split; [apply bs_extend_In; auto|exact I2].
  Qed.

  Lemma merge_size W : forall v v' c t, JT W t -> vok t v -> vok t v' ->
    match change_iter_from (fun '(existing_node, new_node) t => in_add_all existing_node new_node t) c (combine v v') t with
    | Ret (c', t') => JT W t' /\ tgrow t t' /\ length (in_nodes t') = length (in_nodes t) /\
        (c' = Changed -> c = Changed \/ exists n, In n v /\ length (nalts t n) < length (nalts t' n))
    | _ => False
    end.
  Proof.
    induction v as [|n v IH]; intros v' c t J F F'; simpl.
    { split; [exact J|]. split; [apply tgrow_refl|]. split; auto. }
    destruct v' as [|n' v']; simpl.
    { split; [exact J|]. split; [apply tgrow_refl|]. split; auto. }
    inversion F as [|? ? Fn Fv]; subst. inversion F' as [|? ? Fn' Fv']; subst.
    pose proof (add_all_size W n n' t J ltac:(repeat constructor; apply Fn) ltac:(repeat constructor; apply Fn')) as St.
    destruct (in_add_all n n' t) as [[c1 t1]|m|]; [|exact St|exact St]. destruct St as (J1 & G1 & N1 & Ch1). cbn [obind].
    specialize (IH v' (wc_join c c1) t1 J1 (vok_grow _ _ _ G1 Fv) (vok_grow _ _ _ G1 Fv')).
    destruct (change_iter_from _ _ _ _) as [[c' t']|m|]; [|exact IH|exact IH]. destruct IH as (J2 & G2 & N2 & Ch2).
    split; [exact J2|]. split; [exact (tgrow_trans _ _ _ G1 G2)|]. split; [lia|]. intros ->.
    destruct (Ch2 eq_refl) as [E|(x & Ix & Lx)].
    - apply wc_join_Changed in E. destruct E as [-> | ->]; [auto|]. right. exists n. split; [left; reflexivity|].
      specialize (Ch1 eq_refl). destruct G2 as [_ G2]. specialize (G2 n). lia.
    - right. exists x. split; [right; exact Ix|]. destruct G1 as [_ G1]. specialize (G1 x). lia.
  Qed.

  (** ** States *)
  Definition stateok (K : nat) t (st : EState) : Prop :=
    In (ps_prod (ek_prod_state (es_key st))) (prods sg) /\ ek_origin (es_key st) <= K /\
    length (es_value st) = ps_index (ek_prod_state (es_key st)) /\
    ps_index (ek_prod_state (es_key st)) <= length (elements (ps_prod (ek_prod_state (es_key st)))) /\ vok t (es_value st).
  Definition SS (K : nat) t (s : ESet) : Prop :=
    msorted s /\ forall k v, In (k, v) s -> stateok K t {| es_key := k; es_value := v |}.
  Lemma stateok_grow K K' t t' st : K <= K' -> tgrow t t' -> stateok K t st -> stateok K' t' st.
  Proof. intros L G (A & B & D & E & F). repeat (split; [auto; lia|]). exact (vok_grow _ _ _ G F). Qed.
  Lemma SS_grow K t t' s : tgrow t t' -> SS K t s -> SS K t' s.
  Proof. intros G [A B]. split; [exact A|]. intros k v I. exact (stateok_grow _ _ _ _ _ (le_n _) G (B k v I)). Qed.

  Definition phi (s : ESet) t : nat := length s + list_sum (map (fun n => length (nalts t n)) (refs s)).
  Lemma phi_grow s t t' : tgrow t t' -> phi s t <= phi s t'.
  Proof. intros [_ G]. unfold phi. apply Nat.add_le_mono_l. apply list_sum_le. intros n _. apply G. Qed.

  Lemma insert_size W K st s t : JT W t -> SS K t s -> stateok K t st ->
    match insert lay st (s, t) with
    | Ret (c, (s', t')) => JT W t' /\ SS K t' s' /\ tgrow t t' /\ length (in_nodes t') = length (in_nodes t) /\ incl s s' /\
        phi s t <= phi s' t' /\ (c = Changed -> phi s t < phi s' t')
    | Panic _ => True
    | NoFuel => False
    end.
  Proof.
    intros J S O. unfold insert. destruct (bt_get (es_key st) s) as [v0|] eqn:G.
    - destruct (bt_get_Some_In _ _ _ G) as (k0 & I0 & _).
      destruct (Nat.eqb (length v0) (length (es_value st))); simpl; [|exact I].
      assert (V0 : vok t v0) by apply (proj2 S k0 v0 I0). assert (V1 : vok t (es_value st)) by apply O.
      pose proof (merge_size W v0 (es_value st) Unchanged t J V0 V1) as St. unfold merge_values, change_iter.
      destruct (change_iter_from _ _ _ _) as [[c t']|m|]; simpl; [|destruct St|destruct St].
      destruct St as (J' & G' & N' & Ch). split; [exact J'|]. split; [exact (SS_grow _ _ _ _ G' S)|]. split; [exact G'|].
      split; [exact N'|]. split; [apply incl_refl|]. split; [exact (phi_grow _ _ _ G')|]. intro E.
      destruct (Ch E) as [X|(n & In_ & Ln)]; [discriminate|]. unfold phi. apply Nat.add_lt_mono_l.
      apply (sum_lt (fun n => length (nalts t' n)) (fun n => length (nalts t n)) (refs s) n); [|unfold refs; apply in_flat_map; exists (k0, v0); auto|exact Ln].
      intros y _. apply G'.
    - change (@Ord_Key T NT AK AV lay) with OKl in G |- *.
      destruct (bt_insert_split (es_key st) (es_value st) s G) as (l1 & l2 & Es & Ei).
      assert (Lt : phi s t < phi (bt_insert (es_key st) (es_value st) s) t).
      { rewrite Ei, Es. unfold phi, refs. rewrite !app_length, !flat_map_app, !map_app, !list_sum_app. simpl.
        rewrite map_app, list_sum_app. lia. }
      split; [exact J|]. split.
      { split; [apply bt_insert_sorted; apply S|]. intros k v I. rewrite Ei in I. apply in_app_or in I.
        destruct I as [I|[[= <- <-]|I]].
        - apply (proj2 S). rewrite Es. apply in_or_app. auto.
        - destruct st as [k v]. exact O.
        - apply (proj2 S). rewrite Es. apply in_or_app. auto. }
      split; [apply tgrow_refl|]. split; [reflexivity|]. split.
      { intros x Ix. rewrite Ei. rewrite Es in Ix. apply in_app_or in Ix. apply in_or_app. destruct Ix as [Ix|Ix]; [auto|right; right; exact Ix]. }
      split; [lia|auto].
  Qed.
  Lemma inserts_size W K : forall l c s t, JT W t -> SS K t s -> (forall st, In st l -> stateok K t st) ->
    match change_iter_from (insert lay) c l (s, t) with
    | Ret (c', (s', t')) => JT W t' /\ SS K t' s' /\ tgrow t t' /\ length (in_nodes t') = length (in_nodes t) /\ incl s s' /\
        phi s t <= phi s' t' /\ (c' = Changed -> c = Changed \/ phi s t < phi s' t')
    | Panic _ => True
    | NoFuel => False
    end.
  Proof.
    induction l as [|st l IH]; intros c s t J S Ok; cbn [change_iter_from].
    - split; [exact J|]. split; [exact S|]. split; [apply tgrow_refl|]. split; [reflexivity|]. split; [apply incl_refl|]. auto.
    - pose proof (insert_size W K st s t J S (Ok _ (or_introl eq_refl))) as St.
      destruct (insert lay st (s, t)) as [[c1 [s1 t1]]|m|]; cbn [obind]; [|exact I|exact St].
      destruct St as (J1 & S1 & G1 & N1 & I1 & P1 & Ch1).
      specialize (IH (wc_join c c1) s1 t1 J1 S1 (fun st I => stateok_grow _ _ _ _ _ (le_n _) G1 (Ok st (or_intror I)))).
      destruct (change_iter_from _ _ _ _) as [[c' [s' t']]|m|]; [|exact I|exact IH].
      destruct IH as (J2 & S2 & G2 & N2 & I2 & P2 & Ch2).
      split; [exact J2|]. split; [exact S2|]. split; [exact (tgrow_trans _ _ _ G1 G2)|]. split; [lia|].
      split; [intros x Ix; apply I2, I1; exact Ix|]. split; [lia|]. intro E. destruct (Ch2 E) as [X|X]; [|right; lia].
      apply wc_join_Changed in X. destruct X as [X|X]; [auto|]. specialize (Ch1 X). right. lia.
  Qed.

  (** ** Completing, predicting *)
  Lemma complete_size W K j p v' : (forall ak, action_key p = ActionKey ak -> W (CBranch ak v')) -> j <= K ->
    forall sts t, JT W t -> vok t v' -> (forall st, In st sts -> stateok j t st) ->
    match complete_from (mkst p (length (elements p)) j v') sts t with
    | Ret (cl, t') => JT W t' /\ tgrow t t' /\ told t t' /\ (forall st, In st cl -> stateok K t' st) /\
        length (in_nodes t') <= length (in_nodes t) + length sts
    | Panic _ => True
    | NoFuel => False
    end.
  Proof.
    intros HW Lj. induction sts as [|st sts IH]; intros t J Vv Ok.
    - simpl. split; [exact J|]. split; [apply tgrow_refl|]. split; [intros n _; reflexivity|]. split; [intros st []|lia].
    - destruct (st_eta st) as (q & d & i & v & ->).
      assert (Skip : match complete_from (mkst p (length (elements p)) j v') sts t with
        | Ret (cl, t') => JT W t' /\ tgrow t t' /\ told t t' /\ (forall st, In st cl -> stateok K t' st) /\
            length (in_nodes t') <= length (in_nodes t) + length (mkst q d i v :: sts)
        | Panic _ => True
        | NoFuel => False
        end).
      { specialize (IH t J Vv (fun st I => Ok st (or_intror I))). destruct (complete_from _ _ _) as [[cl t']|m|]; [|exact I|exact IH].
        simpl. destruct IH as (A & B & D & E & F). repeat (split; [assumption|]). lia. }
      cbn [complete_from es_key ek_prod_state mkst mkk]. rewrite next_elem_state_mk.
      pose proof (elements_nth q d) as En. destruct (nth_error (prod_elements q) d) as [e|]; cbn [option_map] in *; [|exact Skip].
      destruct (pe_elem e) as [tm|nt] eqn:Ee; cbn [as_nonterm]; [exact Skip|].
      cbn [ps_prod]. destruct (eqb nt (p_head p)); [|exact Skip]. clear Skip.
      change (ps_action_key (Build_ProdState p (length (elements p)))) with (action_key p).
      destruct (action_key p) as [|ak] eqn:Ak; cbn [as_base expect obind]; [exact I|].
      cbn [es_value ek_origin]. change (es_value (mkst p (length (elements p)) j v')) with v'.
      assert (Fv : Forall (node_ok t) v') by (eapply Forall_impl; [|exact Vv]; intros n [_ X]; exact X).
      destruct (make_branch_node_spec ak v' t (jt_t _ _ J) Fv) as (a & t1 & R & En1 & Ea & I1 & Keep & New). rewrite R. cbn [obind].
      destruct (make_size W _ a t t1 J (HW ak eq_refl) Fv En1 Ea I1 Keep New) as (J1 & G1 & O1 & V1 & N1).
      specialize (IH t1 J1 (vok_grow _ _ _ G1 Vv) (fun st I => stateok_grow _ _ _ _ _ (le_n _) G1 (Ok st (or_intror I)))).
      destruct (complete_from _ _ _) as [[cl t']|m|]; cbn [obind]; [|exact I|exact IH]. destruct IH as (J2 & G2 & O2 & Ok2 & N2).
      split; [exact J2|]. split; [exact (tgrow_trans _ _ _ G1 G2)|]. split; [exact (told_trans _ _ _ G1 O1 O2)|]. split; [|simpl; lia].
      intros st [<-|I']; [|exact (Ok2 st I')]. destruct (Ok _ (or_introl eq_refl)) as (Ip & Li & Ll & Le & Vs). cbn in *.
      unfold create_next_value. cbn.
      split; [exact Ip|]. split; [cbn; lia|]. split; [cbn; rewrite app_length; simpl; lia|]. split; [|].
      + cbn. apply nth_lt in En. exact En.
      + cbn. apply Forall_app. split; [exact (vok_grow _ _ _ (tgrow_trans _ _ _ G1 G2) Vs)|exact (vok_grow _ _ _ G2 V1)].
  Qed.

  Lemma closure_size W K (prev : list ESet) (cur : ESet) mx : length prev = K -> (forall c, wanted cur c -> W c) ->
    length cur <= mx -> (forall s, In s prev -> length s <= mx) ->
    forall sts t, JT W t -> (forall j s, nth_error prev j = Some s -> SS j t s) -> SS K t cur ->
    (forall st, In st sts -> In st (states cur)) ->
    match closure_of sg sts prev cur t with
    | Ret (cl, t') => JT W t' /\ tgrow t t' /\ told t t' /\ (forall st, In st cl -> stateok K t' st) /\
        length (in_nodes t') <= length (in_nodes t) + length sts * mx
    | Panic _ => True
    | NoFuel => False
    end.
  Proof.
    intros LK HW Mc Mp. induction sts as [|st sts IH]; intros t J Sp Sc Sub.
    - simpl. split; [exact J|]. split; [apply tgrow_refl|]. split; [intros n _; reflexivity|]. split; [intros st []|lia].
    - destruct (st_eta st) as (p & d & i & v & ->).
      pose proof (Sub _ (or_introl eq_refl)) as Ic. apply states_In in Ic. cbn in Ic.
      destruct (proj2 Sc _ _ Ic) as (Ip & Li & Ll & Le & Vv). cbn in Ip, Li, Ll, Le, Vv. cbn [closure_of].
      assert (St : match complete (mkst p d i v) prev cur t with
        | Ret (cl, t') => JT W t' /\ tgrow t t' /\ told t t' /\ (forall st, In st cl -> stateok K t' st) /\
            length (in_nodes t') <= length (in_nodes t) + mx
        | Panic _ => True
        | NoFuel => False
        end).
      { unfold complete. cbn [es_key ek_prod_state mkst mkk ek_origin]. rewrite is_complete_mk.
        destruct (Nat.eqb_spec (length (elements p)) d) as [Ed|Nd].
        - clear Ll. subst d.
          assert (Og : exists sj, (if Nat.eqb i (length prev) then Ret cur else expect (nth_error prev i) "index out of bounds") = Ret sj /\
                     SS i t sj /\ length sj <= mx).
          { destruct (Nat.eqb_spec i (length prev)) as [E|N].
            - exists cur. split; [reflexivity|]. rewrite E, LK. auto.
            - destruct (nth_error prev i) as [sj|] eqn:E; [|apply nth_error_None in E; lia].
              exists sj. split; [reflexivity|]. split; [exact (Sp i sj E)|]. apply Mp. exact (nth_error_In _ _ E). }
          destruct Og as (sj & R0 & Sj & Mj). rewrite R0. cbn [obind].
          assert (HW' : forall ak, action_key p = ActionKey ak -> W (CBranch ak v)).
          { intros ak Ak. apply HW. exists p, i, v, ak. split; [exact Ic|]. auto. }
          assert (Oks : forall st, In st (states sj) -> stateok i t st).
          { intros st I. apply states_In in I. destruct st as [k x]. exact (proj2 Sj _ _ I). }
          pose proof (complete_size W K i p v HW' Li (states sj) t J Vv Oks) as St.
          change {| es_key := mkk p (length (elements p)) i; es_value := v |} with (mkst p (length (elements p)) i v).
          destruct (complete_from _ _ _) as [[cl t']|m|]; [|exact I|exact St]. destruct St as (A & B & D & E & F).
          repeat (split; [assumption|]). unfold states in F. rewrite map_length in F. lia.
        - split; [exact J|]. split; [apply tgrow_refl|]. split; [intros n _; reflexivity|]. split; [intros st []|lia]. }
      destruct (complete (mkst p d i v) prev cur t) as [[cl1 t1]|m|]; cbn [obind]; [|exact I|exact St].
      destruct St as (J1 & G1 & O1 & Ok1 & N1).
      specialize (IH t1 J1 (fun j s E => SS_grow _ _ _ _ G1 (Sp j s E)) (SS_grow _ _ _ _ G1 Sc) (fun st I => Sub st (or_intror I))).
      destruct (closure_of _ _ _ _ _) as [[cl2 t2]|m|]; cbn [obind]; [|exact I|exact IH]. destruct IH as (J2 & G2 & O2 & Ok2 & N2).
      split; [exact J2|]. split; [exact (tgrow_trans _ _ _ G1 G2)|]. split; [exact (told_trans _ _ _ G1 O1 O2)|]. split; [|simpl; lia].
      intros st I'. rewrite !in_app_iff in I'. destruct I' as [[I'|I']|I'].
      + apply (predict_In g) in I'. destruct I' as (p' & -> & Ip' & _). rewrite LK. repeat (split; [cbn; auto; lia|]). constructor.
      + exact (stateok_grow _ _ _ _ _ (le_n _) G2 (Ok1 st I')).
      + exact (Ok2 st I').
  Qed.

  (** ** Counting *)
  Definition bprods : list SP := map (fun p => wP (p_head p) (p_ix p) (p_inner p)) (prods g).
  Lemma inner_prods : map p_inner (prods g) = all_prods g.
  Proof.
    unfold prods, all_prods, rules. induction (rule_set g) as [|[A r] l IH]; [reflexivity|]. simpl. rewrite map_app, IH. f_equal.
    unfold rule_prods. generalize 0. induction (r_prods r) as [|q qs IHq]; intro n; [reflexivity|]. simpl. f_equal. apply IHq.
  Qed.
  Lemma bprods_length : length bprods = nprods g.
  Proof. unfold bprods, nprods. rewrite map_length, <- inner_prods, map_length. reflexivity. Qed.
  Lemma bprods_sum : list_sum (map (fun p => length (elements p)) bprods) = nsyms g.
  Proof.
    unfold bprods, nsyms. rewrite <- inner_prods, !map_map. f_equal. apply map_ext. intro p. rewrite wP_elements.
    unfold elements_iter. rewrite !map_length. reflexivity.
  Qed.
  Lemma sprods_In (p : SP) : In p (prods sg) -> In p (p0 g :: bprods).
  Proof.
    intro Ip. destruct (sprod_inv g Bg p Ip) as [->|(A & ix & q & -> & N)]; [left; reflexivity|]. right. unfold bprods. apply in_map_iff.
    exists (Build_Prod A ix q). split; [reflexivity|]. apply (prods_In g (acc_wf _ Bg)). exact N.
  Qed.
  Lemma base_In (p : SP) ak : In p (prods sg) -> action_key p = ActionKey ak -> In p bprods.
  Proof. intros Ip Ak. destruct (sprods_In p Ip) as [<-|I]; [discriminate Ak|exact I]. Qed.

  Definition po (kv : Key * list nat) : SP * nat := (ps_prod (ek_prod_state (fst kv)), ek_origin (fst kv)).
  Lemma SS_NoDup K t s : SS K t s -> NoDup (map po s).
  Proof.
    intros [S _]. unfold msorted in S. induction s as [|[k v] s IH]; simpl; [constructor|]. simpl in S.
    destruct (sorted_inv _ _ S) as [S' F]. constructor; [|exact (IH S')].
    intro Im. apply in_map_iff in Im. destruct Im as ([k' v'] & E & Iv). unfold po in E. simpl in E. injection E as E1 E2.
    rewrite Forall_forall in F. assert (L : cmp k k' = Lt) by (apply F; apply (in_map fst) in Iv; exact Iv).
    change (@cmp _ OKl k k' = Lt) in L. unfold OKl in L. rewrite (key_cmp lay), E1, E2, cmp_refl in L. discriminate.
  Qed.
  Lemma SS_po K t s : SS K t s -> incl (map po s) (list_prod (p0 g :: bprods) (seq 0 (S K))).
  Proof.
    intros [_ I] x Ix. apply in_map_iff in Ix. destruct Ix as ([k v] & <- & Iv). destruct (I k v Iv) as (Ip & Lo & _).
    unfold po. cbn [fst]. cbn in Ip, Lo. apply in_prod; [apply sprods_In; exact Ip|]. apply in_seq. lia.
  Qed.
  Lemma SS_bound K t s : SS K t s -> length s <= (nprods g + 1) * (K + 1).
  Proof.
    intro Sk. pose proof (NoDup_incl_length (SS_NoDup _ _ _ Sk) (SS_po _ _ _ Sk)) as L.
    rewrite map_length, prod_length, seq_length in L. simpl in L. rewrite bprods_length in L. nia.
  Qed.
  Lemma SS_refs K t s : SS K t s -> length (refs s) <= (nsyms g + 2) * (K + 1).
  Proof.
    intro Sk. unfold refs. rewrite flat_map_length_sum.
    assert (A : list_sum (map (fun kv => length (snd kv)) s) <= list_sum (map (fun pi : SP * nat => length (elements (fst pi))) (map po s))).
    { rewrite map_map. apply list_sum_le. intros [k v] Iv. destruct (proj2 Sk k v Iv) as (_ & _ & Ll & Le & _). cbn in *. lia. }
    pose proof (NoDup_incl_sum (fun pi : SP * nat => length (elements (fst pi))) _ (SS_NoDup _ _ _ Sk) _ (SS_po _ _ _ Sk)) as B.
    rewrite (list_prod_sum (fun p : SP => length (elements p))), seq_length in B. cbn [map list_sum fold_right] in B.
    change (fold_right Init.Nat.add 0 (map (fun p : SP => length (elements p)) bprods)) with (list_sum (map (fun p : SP => length (elements p)) bprods)) in B.
    rewrite bprods_sum, p0_elements in B. cbn [length] in B. nia.
  Qed.

  (** The entries that stand for an alternative. *)
  Definition isw (kv : Key * list nat) : bool :=
    Nat.eqb (length (elements (ps_prod (ek_prod_state (fst kv))))) (ps_index (ek_prod_state (fst kv))) &&
    match as_base (action_key (ps_prod (ek_prod_state (fst kv)))) with Some _ => true | None => false end.
  Definition cnt_of (kv : Key * list nat) : list C :=
    match as_base (action_key (ps_prod (ek_prod_state (fst kv)))) with Some ak => [CBranch ak (snd kv)] | None => [] end.
  Definition wlist (s : ESet) : list C := flat_map cnt_of (filter isw s).
  Lemma wlist_In s c : wanted s c -> In c (wlist s).
  Proof.
    intros (p & i & v & ak & I & Ak & ->). apply in_flat_map. exists (mkk p (length (elements p)) i, v). split.
    - apply filter_In. split; [exact I|]. unfold isw. cbn. rewrite Nat.eqb_refl, Ak. reflexivity.
    - unfold cnt_of. cbn. rewrite Ak. left. reflexivity.
  Qed.
  Lemma SS_isw K t s : SS K t s -> NoDup (map po (filter isw s)) /\ incl (map po (filter isw s)) (list_prod bprods (seq 0 (S K))).
  Proof.
    intro Sk. split.
    - pose proof (SS_NoDup _ _ _ Sk) as N. clear Sk. induction s as [|x s IH]; simpl; [constructor|]. simpl in N. inversion N as [|? ? N1 N2]; subst.
      destruct (isw x); [|exact (IH N2)]. simpl. constructor; [|exact (IH N2)]. intro I. apply N1. apply in_map_iff in I.
      destruct I as (y & E & Iy). apply filter_In in Iy. apply in_map_iff. exists y. tauto.
    - intros x Ix. apply in_map_iff in Ix. destruct Ix as ([k v] & <- & Iv). apply filter_In in Iv. destruct Iv as [Iv Is].
      destruct (proj2 Sk k v Iv) as (Ip & Lo & _). unfold isw in Is. cbn [fst] in Is. apply andb_prop in Is. destruct Is as [_ Is].
      unfold po. cbn [fst]. cbn in Ip, Lo. apply in_prod; [|apply in_seq; lia].
      destruct (action_key (ps_prod (ek_prod_state k))) as [|ak] eqn:Ak; [discriminate Is|exact (base_In _ ak Ip Ak)].
  Qed.
  Lemma wlist_length K t s : SS K t s -> length (wlist s) <= nprods g * (K + 1).
  Proof.
    intro Sk. destruct (SS_isw _ _ _ Sk) as [N I]. pose proof (NoDup_incl_length N I) as L.
    rewrite map_length, prod_length, seq_length, bprods_length in L.
    unfold wlist. rewrite flat_map_length_sum.
    assert (list_sum (map (fun x => length (cnt_of x)) (filter isw s)) <= length (filter isw s) * 1); [|nia].
    apply list_sum_const. intros x _. unfold cnt_of. destruct (as_base _); simpl; lia.
  Qed.
  Definition wnodes (s : ESet) : list nat := flat_map snd (filter isw s).
  Lemma wnodes_length K t s : SS K t s -> length (wnodes s) <= nsyms g * (K + 1).
  Proof.
    intro Sk. destruct (SS_isw _ _ _ Sk) as [N I]. unfold wnodes. rewrite flat_map_length_sum.
    assert (A : list_sum (map (fun kv => length (snd kv)) (filter isw s)) <=
      list_sum (map (fun pi : SP * nat => length (elements (fst pi))) (map po (filter isw s)))).
    { rewrite map_map. apply list_sum_le. intros [k v] Iv. apply filter_In in Iv. destruct (proj2 Sk k v (proj1 Iv)) as (_ & _ & Ll & Le & _). cbn in *. lia. }
    pose proof (NoDup_incl_sum (fun pi : SP * nat => length (elements (fst pi))) _ N _ I) as B.
    rewrite (list_prod_sum (fun p : SP => length (elements p))), seq_length, bprods_sum in B. nia.
  Qed.

  (** ** The pool of contents *)
  Definition leaf_of (tok : Token T V) : C := CLeaf (tk_kind tok) (tk_value tok).
  Definition pool (sets : list ESet) (c : C) : Prop :=
    (exists tok, In tok w /\ c = leaf_of tok) \/ exists s, In s sets /\ wanted s c.
  Definition plist (sets : list ESet) : list C := map leaf_of w ++ flat_map wlist sets.
  Lemma plist_In sets c : pool sets c -> In c (plist sets).
  Proof.
    unfold plist. rewrite in_app_iff. intros [(tok & I & ->)|(s & I & Wc)]; [left; apply in_map; exact I|right].
    apply in_flat_map. exists s. split; [exact I|exact (wlist_In s c Wc)].
  Qed.
  Definition SSs t (sets : list ESet) : Prop := forall j s, nth_error sets j = Some s -> SS j t s.
  Lemma SSs_snoc t sets s : SSs t sets -> SS (length sets) t s -> SSs t (sets ++ [s]).
  Proof.
    intros A B j s' E. rewrite nth_error_snoc in E. destruct (Nat.eqb_spec j (length sets)) as [->|N]; [injection E as <-; exact B|exact (A j s' E)].
  Qed.
  Lemma SSs_grow t t' sets : tgrow t t' -> SSs t sets -> SSs t' sets.
  Proof. intros G A j s E. exact (SS_grow _ _ _ _ G (A j s E)). Qed.
  Fixpoint tri (k : nat) : nat := match k with 0 => 0 | S k' => k + tri k' end.
  Lemma tri_pieces n : tri (n + 1) = pieces n.
  Proof.
    unfold pieces. assert (E : forall k, 2 * tri k = k * (k + 1)) by (induction k as [|k IH]; [reflexivity|]; cbn [tri]; nia).
    specialize (E (n + 1)). replace ((n + 1) * (n + 2)) with (tri (n + 1) * 2) by nia. symmetry. apply Nat.div_mul. lia.
  Qed.
  Lemma tri_mono k k' : k <= k' -> tri k <= tri k'.
  Proof. induction 1; cbn [tri]; lia. Qed.
  Lemma sum_tri {X} (f : ESet -> list X) b t sets : (forall K s, SS K t s -> length (f s) <= b * (K + 1)) -> SSs t sets ->
    length (flat_map f sets) <= b * tri (length sets).
  Proof.
    intros F. induction sets as [|s sets IH] using rev_ind; intro A; [simpl; lia|].
    rewrite flat_map_app, !app_length. cbn [flat_map app length]. rewrite app_nil_r.
    assert (length (flat_map f sets) <= b * tri (length sets)).
    { apply IH. intros j s' E. apply A. rewrite nth_error_snoc. destruct (Nat.eqb_spec j (length sets)) as [->|N]; [|exact E].
      apply nth_lt in E. lia. }
    assert (length (f s) <= b * (length sets + 1)).
    { apply F. apply A. rewrite nth_error_snoc, Nat.eqb_refl. reflexivity. }
    replace (length sets + 1) with (S (length sets)) in * by lia. cbn [tri]. nia.
  Qed.
  Lemma plist_length t sets : SSs t sets -> length sets <= length w + 1 -> length (plist sets) <= alts_bound g (length w).
  Proof.
    intros A L. unfold plist, alts_bound. rewrite app_length, map_length.
    pose proof (sum_tri wlist (nprods g) t sets (fun K s Sk => wlist_length K t s Sk) A) as B.
    pose proof (tri_mono _ _ L) as M. rewrite tri_pieces in M. nia.
  Qed.
  Lemma contents_bound t (l : list nat) (P : list C) : TInv t -> NoDup l ->
    (forall a, In a l -> exists c, acont t a = Some c /\ In c P) -> length l <= length P.
  Proof.
    intros It N F.
    assert (X : exists cs, Forall2 (fun a c => acont t a = Some c) l cs /\ incl cs P).
    { clear N. induction l as [|a l IH]; [exists []; split; [constructor|intros x []]|].
      destruct (F a (or_introl eq_refl)) as (c & Ec & Ic). destruct IH as (cs & Fc & Ics); [intros b Ib; apply F; right; exact Ib|].
      exists (c :: cs). split; [constructor; assumption|]. intros x [<-|Ix]; [exact Ic|exact (Ics x Ix)]. }
    destruct X as (cs & Fc & Ics). assert (length l = length cs) as -> by (clear - Fc; induction Fc; simpl; congruence).
    apply NoDup_incl_length; [|exact Ics]. clear - It N Fc. induction Fc as [|a c l cs Ec Fc IH]; [constructor|].
    inversion N as [|? ? N1 N2]; subst. constructor; [|exact (IH N2)]. intro Ic. apply N1.
    assert (exists b, In b l /\ acont t b = Some c) as (b & Ib & Eb).
    { clear - Fc Ic. induction Fc as [|b d l cs Eb Fc IH]; [destruct Ic|]. destruct Ic as [->|Ic]; [exists b; split; [left; reflexivity|exact Eb]|].
      destruct (IH Ic) as (x & Ix & Ex). exists x. split; [right; exact Ix|exact Ex]. }
    assert (a = b) as -> by exact (acont_inj _ _ _ _ It Ec Eb). exact Ib.
  Qed.
  Lemma nalts_length t sets n : JT (pool sets) t -> SSs t sets -> length sets <= length w + 1 -> fresh n ->
    length (nalts t n) <= alts_bound g (length w).
  Proof.
    intros J A L Fr. pose proof (plist_length _ _ A L) as B.
    assert (length (nalts t n) <= length (plist sets)); [|lia].
    apply (contents_bound t); [exact (jt_t _ _ J)|apply sorted_NoDup; apply (ti_sorted _ (jt_t _ _ J))|].
    intros a Ia. destruct (jt_alts _ _ J n a Fr Ia) as (c & Ec & Wc). exists c. split; [exact Ec|exact (plist_In _ _ Wc)].
  Qed.
  Lemma phi_bound t sets s : JT (pool (sets ++ [s])) t -> SSs t (sets ++ [s]) -> length sets <= length w ->
    phi s t <= states_bound g (length w) + (nsyms g + 2) * (length w + 1) * alts_bound g (length w).
  Proof.
    intros J A L. assert (Sk : SS (length sets) t s) by (apply A; rewrite nth_error_snoc, Nat.eqb_refl; reflexivity).
    pose proof (SS_bound _ _ _ Sk) as B1. pose proof (SS_refs _ _ _ Sk) as B2. unfold phi, states_bound.
    assert (list_sum (map (fun n => length (nalts t n)) (refs s)) <= length (refs s) * alts_bound g (length w)) as B3.
    { apply list_sum_const. intros n In_. apply (nalts_length t (sets ++ [s])); [exact J|exact A|rewrite app_length; simpl; lia|].
      apply in_flat_map in In_. destruct In_ as ([k v] & Iv & In_). destruct (proj2 Sk k v Iv) as (_ & _ & _ & _ & Vv).
      unfold vok in Vv. rewrite Forall_forall in Vv. exact (proj1 (Vv n In_)). }
    assert ((nprods g + 1) * (length sets + 1) <= (nprods g + 1) * (length w + 1)) by (apply Nat.mul_le_mono_l; lia).
    assert (length (refs s) * alts_bound g (length w) <= (nsyms g + 2) * (length w + 1) * alts_bound g (length w)).
    { apply Nat.mul_le_mono_r. assert ((nsyms g + 2) * (length sets + 1) <= (nsyms g + 2) * (length w + 1)) by (apply Nat.mul_le_mono_l; lia). lia. }
    lia.
  Qed.
  Lemma states_le t sets s : SSs t sets -> length sets <= length w + 1 -> In s sets -> length s <= states_bound g (length w).
  Proof.
    intros A L Is. apply In_nth_error in Is. destruct Is as (j & E). pose proof (SS_bound _ _ _ (A j s E)) as B.
    apply nth_lt in E. unfold states_bound. assert ((nprods g + 1) * (j + 1) <= (nprods g + 1) * (length w + 1)) by (apply Nat.mul_le_mono_l; lia). lia.
  Qed.
  Lemma wanted_mono (s s' : ESet) (c : C) : incl s s' -> wanted s c -> wanted s' c.
  Proof. intros I (p & i & v & ak & X & Y). exists p, i, v, ak. split; [apply I; exact X|exact Y]. Qed.
  Lemma pool_snoc_mono sets s s' c : incl s s' -> pool (sets ++ [s]) c -> pool (sets ++ [s']) c.
  Proof.
    intros I [X|(x & Ix & Wx)]; [left; exact X|right]. apply in_app_iff in Ix. destruct Ix as [Ix|[<-|[]]].
    - exists x. split; [apply in_app_iff; left; exact Ix|exact Wx].
    - exists s'. split; [apply in_app_iff; right; left; reflexivity|exact (wanted_mono _ _ _ I Wx)].
  Qed.
  Lemma pool_app sets s c : pool sets c -> pool (sets ++ [s]) c.
  Proof. intros [X|(x & Ix & Wx)]; [left; exact X|right]. exists x. split; [apply in_app_iff; left; exact Ix|exact Wx]. Qed.

  (** ** One round, one position *)
  Definition sq : nat := states_bound g (length w) * states_bound g (length w).
  Definition RI (prev : list ESet) (x : ESet * tree) : Prop :=
    JT (pool (prev ++ [fst x])) (snd x) /\ SSs (snd x) (prev ++ [fst x]).
  Lemma round_size prev x : length prev <= length w -> RI prev x ->
    match close_round lay sg prev x with
    | Ret (c, x') => RI prev x' /\ length (in_nodes (snd x')) <= length (in_nodes (snd x)) + sq /\ (c = Changed -> phi (fst x) (snd x) < phi (fst x') (snd x'))
    | Panic _ => True
    | NoFuel => False
    end.
  Proof.
    destruct x as [s t]. intros L [J A]. cbn [fst snd] in *. unfold close_round.
    assert (Sp : SSs t prev).
    { intros j s' E. apply A. rewrite nth_error_snoc. destruct (Nat.eqb_spec j (length prev)) as [->|N]; [apply nth_lt in E; lia|exact E]. }
    assert (Sc : SS (length prev) t s) by (apply A; rewrite nth_error_snoc, Nat.eqb_refl; reflexivity).
    assert (Mx : forall s', In s' (prev ++ [s]) -> length s' <= states_bound g (length w)).
    { intros s' I. apply (states_le t (prev ++ [s])); [exact A|rewrite app_length; simpl; lia|exact I]. }
    pose proof (closure_size (pool (prev ++ [s])) (length prev) prev s (states_bound g (length w)) eq_refl) as St.
    assert (Is : In s (prev ++ [s])) by (apply in_or_app; right; left; reflexivity).
    specialize (St (fun c Wc => or_intror (ex_intro _ s (conj Is Wc)))).
    specialize (St (Mx s Is) (fun s' I => Mx s' (in_or_app _ _ _ (or_introl I)))).
    specialize (St (states s) t J Sp Sc (fun st I => I)).
    destruct (closure_of sg (states s) prev s t) as [[cl t1]|m|]; cbn [obind]; [|exact I|exact St].
    destruct St as (J1 & G1 & O1 & Ok1 & N1). unfold change_iter.
    pose proof (inserts_size _ (length prev) cl Unchanged s t1 J1 (SS_grow _ _ _ _ G1 Sc) Ok1) as St.
    destruct (change_iter_from _ _ _ _) as [[c [s' t']]|m|]; [|exact I|exact St].
    destruct St as (J2 & S2 & G2 & N2 & I2 & P2 & Ch2). cbn [fst snd]. split; [|split].
    - split; cbn [fst snd].
      + apply (JT_mono (pool (prev ++ [s]))); [|exact J2]. intros d. exact (pool_snoc_mono _ _ _ _ I2).
      + apply SSs_snoc; [|exact S2]. exact (SSs_grow _ _ _ (tgrow_trans _ _ _ G1 G2) Sp).
    - unfold states in N1. rewrite map_length in N1. pose proof (Mx s Is) as Ms.
      unfold sq. assert (length s * states_bound g (length w) <= states_bound g (length w) * states_bound g (length w)) by (apply Nat.mul_le_mono_r; exact Ms). lia.
    - intro E. destruct (Ch2 E) as [X|X]; [discriminate|]. pose proof (phi_grow s _ _ G1). lia.
  Qed.

  Lemma close_size prev x fuel : length prev <= length w -> RI prev x ->
    match close_state lay sg prev x fuel with
    | Ret x' => RI prev x' /\ length (in_nodes (snd x')) <= length (in_nodes (snd x)) + rounds_bound g (length w) * sq
    | Panic _ => True
    | NoFuel => fuel < rounds_bound g (length w)
    end.
  Proof.
    intros L R. unfold close_state. destruct (fst x) eqn:Ex; cbn [assert_ obind]; [exact I|]. clear Ex.
    set (B := states_bound g (length w) + (nsyms g + 2) * (length w + 1) * alts_bound g (length w)).
    pose proof (change_loop_measure (close_round lay sg prev) (RI prev) (fun x => phi (fst x) (snd x)) (fun x => length (in_nodes (snd x))) B sq) as X.
    specialize (X (fun x R => phi_bound _ _ _ (proj1 R) (proj2 R) L)).
    assert (St : forall x, RI prev x -> match close_round lay sg prev x with
      | Ret (c, x') => RI prev x' /\ length (in_nodes (snd x')) <= length (in_nodes (snd x)) + sq /\ (c = Changed -> phi (fst x) (snd x) < phi (fst x') (snd x'))
      | Panic _ => True
      | NoFuel => False
      end) by (intros y Ry; exact (round_size prev y L Ry)).
    specialize (X St fuel x R). assert (Eb : rounds_bound g (length w) = 1 + B) by (unfold rounds_bound, B; lia). rewrite Eb.
    destruct (change_loop _ _ _) as [x'|m|]; [|exact I|lia]. destruct X as [R' L']. split; [exact R'|].
    assert ((1 + B - phi (fst x) (snd x)) * sq <= (1 + B) * sq) by (apply Nat.mul_le_mono_r; lia). lia.
  Qed.

  (** ** Shifting *)
  Lemma scans_size K W tok : In tok w -> (W (leaf_of tok)) -> forall sts s t, JT W t -> SS (S K) t s -> (forall st, In st sts -> stateok K t st) ->
    match from_scans lay sts tok (s, t) with
    | Ret (s', t') => JT W t' /\ SS (S K) t' s' /\ tgrow t t' /\ length (in_nodes t') <= length (in_nodes t) + length sts
    | Panic _ => True
    | NoFuel => False
    end.
  Proof.
    intros Itok Wl. induction sts as [|st sts IH]; intros s t J Sk Ok; cbn [from_scans].
    - split; [exact J|]. split; [exact Sk|]. split; [apply tgrow_refl|simpl; lia].
    - assert (Skip : match from_scans lay sts tok (s, t) with
        | Ret (s', t') => JT W t' /\ SS (S K) t' s' /\ tgrow t t' /\ length (in_nodes t') <= length (in_nodes t) + length (st :: sts)
        | Panic _ => True
        | NoFuel => False
        end).
      { specialize (IH s t J Sk (fun st I => Ok st (or_intror I))). destruct (from_scans _ _ _ _) as [[s' t']|m|]; [|exact I|exact IH].
        simpl. destruct IH as (A & B & D & E). repeat (split; [assumption|]). lia. }
      destruct (st_eta st) as (q & d & i & v & ->). rewrite scan_mk.
      destruct (nth_error (elements q) d) as [[tm|nt]|] eqn:En; cbn [obind]; [|exact Skip|exact Skip].
      destruct (has_kind tm (tk_kind tok)); cbn [obind]; [|exact Skip]. clear Skip.
      destruct (make_leaf_node_spec (tk_kind tok) (tk_value tok) t (jt_t _ _ J)) as (a & t1 & R & En1 & Ea & I1 & Keep & New). rewrite R. cbn [obind].
      destruct (make_size W _ a t t1 J Wl (Forall_nil _) En1 Ea I1 Keep New) as (J1 & G1 & O1 & V1 & N1).
      assert (Ok1 : stateok (S K) t1 (mkst q (S d) i (v ++ [length (in_nodes t)]))).
      { destruct (Ok _ (or_introl eq_refl)) as (Ip & Li & Ll & Le & Vs). cbn in *.
        split; [exact Ip|]. split; [cbn; lia|]. split; [cbn; rewrite app_length; simpl; lia|]. split.
        - cbn. apply nth_lt in En. exact En.
        - cbn. apply Forall_app. split; [exact (vok_grow _ _ _ G1 Vs)|exact V1]. }
      pose proof (insert_size W (S K) _ s t1 J1 (SS_grow _ _ _ _ G1 Sk) Ok1) as St.
      destruct (insert lay _ (s, t1)) as [[c [s2 t2]]|m|]; cbn [obind]; [|exact I|exact St].
      destruct St as (J2 & S2 & G2 & N2 & I2 & _).
      specialize (IH s2 t2 J2 S2 (fun st I => stateok_grow _ _ _ _ _ (le_n _) (tgrow_trans _ _ _ G1 G2) (Ok st (or_intror I)))).
      destruct (from_scans _ _ _ _) as [[s' t']|m|]; [|exact I|exact IH]. destruct IH as (J3 & S3 & G3 & N3).
      split; [exact J3|]. split; [exact S3|]. split; [exact (tgrow_trans _ _ _ G1 (tgrow_trans _ _ _ G2 G3))|]. simpl. lia.
  Qed.

  (** ** The whole parse *)
  Definition per : nat := rounds_bound g (length w) * sq.
  Lemma tokens_size fuel : forall tokens sets t, (forall tok, In tok tokens -> In tok w) -> length sets + length tokens = length w + 1 -> sets <> [] ->
    JT (pool sets) t -> SSs t sets ->
    match parse_tokens lay sg tokens sets t fuel with
    | Ret (sets', t') => length sets' = length w + 1 /\ JT (pool sets') t' /\ SSs t' sets' /\
        length (in_nodes t') <= length (in_nodes t) + length tokens * (per + states_bound g (length w))
    | Panic _ => True
    | NoFuel => fuel < rounds_bound g (length w)
    end.
  Proof.
    induction tokens as [|tok tokens IH]; intros sets t It L Ne J A; cbn [parse_tokens].
    - simpl in L. split; [lia|]. split; [exact J|]. split; [exact A|]. simpl. lia.
    - simpl in L. destruct (length sets) as [|n] eqn:El; [destruct sets; [contradiction|discriminate]|].
      rewrite (last_nth sets n El). destruct (nth_error sets n) as [s|] eqn:Es; [|exact I]. cbn [expect obind].
      pose proof (A n s Es) as Sn. unfold shift.
      assert (Oks : forall st, In st (states s) -> stateok n t st).
      { intros st I. apply states_In in I. destruct st as [k x]. exact (proj2 Sn _ _ I). }
      assert (S0 : SS (S n) t []) by (split; [constructor|intros k v []]).
      pose proof (scans_size n (pool sets) tok (It tok (or_introl eq_refl)) (or_introl (ex_intro _ tok (conj (It tok (or_introl eq_refl)) eq_refl)))
        (states s) [] t J S0 Oks) as St.
      match type of St with match ?e with _ => _ end => match goal with |- context [from_scans ?a ?b ?c ?d] => change e with (from_scans a b c d) in St end end.
      destruct (from_scans lay (states s) tok ([], t)) as [[s1 t1]|m|]; cbn [obind]; [|exact I|destruct St].
      destruct St as (J1 & S1 & G1 & N1). unfold states in N1. rewrite map_length in N1.
      assert (Ms : length s <= states_bound g (length w)).
      { apply (states_le t sets); [exact A|lia|exact (nth_error_In _ _ Es)]. }
      assert (R1 : RI sets (s1, t1)).
      { split; cbn [fst snd]; [apply (JT_mono (pool sets)); [intro c; apply pool_app|exact J1]|].
        apply SSs_snoc; [exact (SSs_grow _ _ _ G1 A)|rewrite El; exact S1]. }
      pose proof (close_size sets (s1, t1) fuel ltac:(lia) R1) as St.
      destruct (close_state lay sg sets (s1, t1) fuel) as [[s2 t2]|m|]; cbn [obind]; [|exact I|exact St].
      destruct St as ([J2 A2] & N2). cbn [fst snd] in *.
      specialize (IH (sets ++ [s2]) t2 (fun tok I => It tok (or_intror I))). rewrite app_length in IH. cbn [length] in IH.
      specialize (IH ltac:(lia) ltac:(destruct sets; discriminate) J2 A2).
      destruct (parse_tokens _ _ _ _ _) as [[sets' t']|m|]; [|exact I|exact IH]. destruct IH as (L3 & J3 & A3 & N3).
      split; [exact L3|]. split; [exact J3|]. split; [exact A3|]. cbn [length]. rewrite Nat.mul_succ_l. fold per in N2. lia.
  Qed.

  Lemma new_start_eq : new_start lay sg t0 = Ret ([(mkk (p0 g) 0 0, [])], t0).
  Proof.
    unfold new_start. change (start_nt sg) with (@Start NT).
    pose proof (wrap_start_rule g Bg) as R. unfold start_rule in R. change (calls_grammar Start (wrap_start_call g :: map wrap_rule_call (rules g))) with sg in R.
    rewrite R. reflexivity.
  Qed.

  Lemma parse_size fuel : match parse lay sg w t0 fuel with
    | Ret (r, t) => exists sets s, length sets = length w + 1 /\ JT (pool sets) t /\ SSs t sets /\
        nth_error sets (length w) = Some s /\ get_final s = Ret r /\
        length (in_nodes t) <= length (in_nodes t0) + made_bound g (length w)
    | Panic _ => True
    | NoFuel => fuel < rounds_bound g (length w)
    end.
  Proof.
    unfold parse. rewrite new_start_eq. cbn [obind].
    assert (J0 : JT (pool [[(mkk (p0 g) 0 0, [])]]) t0).
    { constructor; [exact T0|lia| |auto|auto| |].
      - intros n a Fr Ia. exfalso. unfold nalts in Ia.
        destruct (nth_error (in_nodes t0) n) eqn:E; [|destruct Ia]. apply nth_lt in E. unfold fresh in Fr. lia.
      - intros n Fr Ok. unfold fresh, node_ok in *. lia.
      - intros a c n Ea In_ Fr. pose proof (proj1 (Forall_forall _ _) (ti_nodes _ T0 a c Ea) n In_) as Ok. unfold fresh, node_ok in *. lia. }
    assert (A0 : SSs t0 [[(mkk (p0 g) 0 0, [])]]).
    { intros [|[|j]] s E; simpl in E; try discriminate. injection E as <-. split; [repeat constructor|].
      intros k v [[= <- <-]|[]]. split; [exact (p0_prod g Bg)|]. split; [cbn; lia|]. split; [reflexivity|]. split; [cbn; lia|constructor]. }
    pose proof (close_size [] ([(mkk (p0 g) 0 0, [])], t0) fuel ltac:(simpl; lia) (conj J0 A0)) as St.
    destruct (close_state lay sg [] _ fuel) as [[s1 t1]|m|]; cbn [obind]; [|exact I|exact St].
    destruct St as ([J1 A1] & N1). cbn [fst snd app] in *.
    pose proof (tokens_size fuel w [s1] t1 (fun tok I => I) ltac:(simpl; lia) ltac:(discriminate) J1 A1) as St.
    destruct (parse_tokens _ _ _ _ _ _) as [[sets t]|m|]; cbn [obind]; [|exact I|exact St].
    destruct St as (L2 & J2 & A2 & N2). rewrite (last_nth sets (length w)) by lia.
    destruct (nth_error sets (length w)) as [s|] eqn:Es; cbn [expect obind]; [|exact I].
    destruct (get_final s) as [r|m|] eqn:Eg; cbn [obind]; [|exact I|].
    - exists sets, s. split; [exact L2|]. split; [exact J2|]. split; [exact A2|]. split; [exact Es|]. split; [exact Eg|].
      unfold made_bound. fold sq. fold per in N1 |- *. rewrite Nat.mul_add_distr_l in N2. rewrite Nat.mul_add_distr_r. lia.
    - exfalso. revert Eg. clear. induction s as [|[k v] s IH]; simpl; [discriminate|]. destruct (is_final_key k); [|exact IH].
      destruct (Nat.eqb (length v) 1); simpl; [|discriminate]. destruct v; simpl; discriminate.
  Qed.

  (** ** The forest below the returned node *)
  Lemma get_final_In (s : ESet) m : get_final s = Ret (Some m) -> exists k, In (k, [m]) s.
  Proof.
    induction s as [|[k v] s IH]; simpl; [discriminate|]. destruct (is_final_key k).
    - destruct v as [|x [|y v]]; simpl; try discriminate. intros [= ->]. exists k. left. reflexivity.
    - intro E. destruct (IH E) as (k' & I). exists k'. right. exact I.
  Qed.
  Lemma get_node_nalts t n s : get_node t n = Ret s -> nalts t n = s.
  Proof. unfold get_node, nalts. destruct (nth_error (in_nodes t) n); simpl; congruence. Qed.
  Lemma get_alt_acont t a c : get_alt t a = Ret c <-> acont t a = Some c.
  Proof. unfold get_alt, acont. destruct (nth_error (id_to_value (in_alts t)) a); simpl; split; congruence. Qed.
  Lemma wanted_nodes (s : ESet) ak (v : list nat) n : wanted s (CBranch ak v : C) -> In n v -> In n (wnodes s) /\ exists k, In (k, v) s.
  Proof.
    intros (p & i & v' & ak' & I & Ak & E) In_. injection E as <- <-. split; [|eauto].
    apply in_flat_map. exists (mkk p (length (elements p)) i, v). split; [|exact In_].
    apply filter_In. split; [exact I|]. unfold isw. cbn. rewrite Nat.eqb_refl, Ak. reflexivity.
  Qed.
  Lemma forest_nodes t sets m n : JT (pool sets) t -> SSs t sets -> fresh m -> forest_node t m n ->
    fresh n /\ In n (m :: flat_map wnodes sets).
  Proof.
    intros J A Fm Fn. induction Fn as [|y z Fy [Fr _] (s & a & x & ns & Es & Ia & Ea & In_)]; [split; [exact Fm|left; reflexivity]|].
    apply get_node_nalts in Es. subst s. destruct (jt_alts _ _ J y a Fr Ia) as (c & Ec & Wc).
    apply get_alt_acont in Ea. assert (c = CBranch x ns) as -> by congruence.
    destruct Wc as [(tok & _ & E)|(s & Is & Wc)]; [discriminate|].
    destruct (wanted_nodes _ _ _ _ Wc In_) as (Iw & k & Ik). split.
    - apply In_nth_error in Is. destruct Is as (j & Ej). destruct (proj2 (A j s Ej) k ns Ik) as (_ & _ & _ & _ & Vv).
      unfold vok in Vv. rewrite Forall_forall in Vv. exact (proj1 (Vv z In_)).
    - right. apply in_flat_map. exists s. auto.
  Qed.
  Lemma forest_size t sets m : JT (pool sets) t -> SSs t sets -> length sets <= length w + 1 -> fresh m ->
    (forall l, NoDup l -> (forall n, In n l -> forest_node t m n) -> length l <= nodes_bound g (length w)) /\
    (forall l, NoDup l -> (forall a, In a l -> forest_alt t m a) -> length l <= alts_bound g (length w)).
  Proof.
    intros J A L Fm. split; intros l N F.
    - assert (I : incl l (m :: flat_map wnodes sets)) by (intros n In_; exact (proj2 (forest_nodes _ _ _ _ J A Fm (F n In_)))).
      pose proof (NoDup_incl_length N I) as B. cbn [length] in B.
      pose proof (sum_tri wnodes (nsyms g) t sets (fun K s Sk => wnodes_length K t s Sk) A) as B2.
      pose proof (tri_mono _ _ L) as M. rewrite tri_pieces in M. unfold nodes_bound.
      assert (nsyms g * tri (length sets) <= nsyms g * pieces (length w)) by (apply Nat.mul_le_mono_l; exact M). lia.
    - pose proof (plist_length _ _ A L) as B. assert (length l <= length (plist sets)); [|lia].
      apply (contents_bound t); [exact (jt_t _ _ J)|exact N|]. intros a Ia. destruct (F a Ia) as (n & s & Fn & Es & Is).
      apply get_node_nalts in Es. subst s. destruct (forest_nodes _ _ _ _ J A Fm Fn) as [Fr _].
      destruct (jt_alts _ _ J n a Fr Is) as (c & Ec & Wc). exists c. split; [exact Ec|exact (plist_In _ _ Wc)].
  Qed.
  Lemma parse_result fuel r t : parse lay sg w t0 fuel = Ret (r, t) ->
    length (in_nodes t) <= length (in_nodes t0) + made_bound g (length w) /\
    (forall l, NoDup l -> (forall a, In a l -> (exists c, get_alt t a = Ret c) /\ forall c, get_alt t0 a <> Ret c) -> length l <= alts_bound g (length w)) /\
    forall m, r = Some m ->
      (forall l, NoDup l -> (forall n, In n l -> forest_node t m n) -> length l <= nodes_bound g (length w)) /\
      (forall l, NoDup l -> (forall a, In a l -> forest_alt t m a) -> length l <= alts_bound g (length w)).
  Proof.
    intro R. pose proof (parse_size fuel) as Sz. rewrite R in Sz. destruct Sz as (sets & s & L & J & A & Es & Eg & Nn).
    split; [exact Nn|]. split.
    - intros l N F. pose proof (plist_length _ _ A ltac:(lia)) as B. assert (length l <= length (plist sets)); [|lia].
      apply (contents_bound t); [exact (jt_t _ _ J)|exact N|]. intros a Ia. destruct (F a Ia) as ((c & Ec) & Nc).
      apply get_alt_acont in Ec. exists c. split; [exact Ec|]. apply plist_In. destruct (jt_new _ _ J a c Ec) as [X|X]; [|exact X].
      apply get_alt_acont in X. destruct (Nc c X).
    - intros m ->. destruct (get_final_In s m Eg) as (k & Ik). destruct (proj2 (A _ s Es) k [m] Ik) as (_ & _ & _ & _ & Vm).
      inversion Vm as [|? ? [Fm _] _]; subst. apply (forest_size t sets m J A); [lia|exact Fm].
  Qed.
  (** Each alternative is newer than some alternative of each of its children. *)
  Lemma parse_rank fuel m t : parse lay sg w t0 fuel = Ret (Some m, t) ->
    (exists a, In a (nalts t m)) /\
    forall n a x ns n', forest_node t m n -> In a (nalts t n) -> get_alt t a = Ret (CBranch x ns) -> In n' ns ->
      exists b, In b (nalts t n') /\ b < a.
  Proof.
    intro R. pose proof (parse_size fuel) as Sz. rewrite R in Sz. destruct Sz as (sets & s & L & J & A & Es & Eg & Nn).
    destruct (get_final_In s m Eg) as (k & Ik). destruct (proj2 (A _ s Es) k [m] Ik) as (_ & _ & _ & _ & Vm).
    inversion Vm as [|? ? [Fm Om] _]; subst. split; [exact (jt_ne _ _ J m Fm Om)|].
    intros n a x ns n' Fn Ia Ea In_. pose proof (ti_sorted _ (jt_t _ _ J) n) as So.
    destruct (get_node t n) as [sn|e|] eqn:En.
    - assert (Fn' : forest_node t m n').
      { apply (star_step _ _ n); [exact Fn|]. exists sn, a, x, ns. rewrite (get_node_nalts _ _ _ En) in Ia. auto. }
      destruct (forest_nodes t sets m n' J A Fm Fn') as [Fr' _]. apply get_alt_acont in Ea.
      exact (jt_rank _ _ J a _ n' Ea In_ Fr').
    - exfalso. unfold nalts in Ia. unfold get_node in En. destruct (nth_error (in_nodes t) n); [discriminate|destruct Ia].
    - exfalso. unfold nalts in Ia. unfold get_node in En. destruct (nth_error (in_nodes t) n); [discriminate|destruct Ia].
  Qed.
End Size.
