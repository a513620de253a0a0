(** Pass contexts and caught panics. *)
From Coq Require Import String List Arith Lia Bool.
From Verif.Model Require Import Ord BTree Outcome Utils Passes PassesCatch.
From Verif.Spec Require Import Reach PassSpec PassCatchSpec.
From Verif.Proofs Require Import OrdFacts BTreeFacts LoopFacts PassesFacts.
Import ListNotations.

Section C.
  Context {P Val E : Type} `{OrdEq P}.
  Variable run : P -> cbody P Val E.
  Local Notation ctx := (PassContext P Val E).

  Record CInv (st : ctx) : Prop := {
    cv_start : forall p, In p (started st) <-> bt_get p (passes st) <> None;
    cv_once : NoDup (started st);
    cv_comp : forall p c v, bt_get p (passes st) = Some (Computed c v) -> c < next_cell st;
    cv_ret : forall p c v, In (EvReturn p (Ok (c, v))) (trace st) -> bt_get p (passes st) = Some (Computed c v);
    cv_cell : forall p q c v w, bt_get p (passes st) = Some (Computed c v) ->
                bt_get q (passes st) = Some (Computed c w) -> p = q
  }.
  Definition cext (st st' : ctx) : Prop := forall p en, bt_get p (passes st) = Some en -> bt_get p (passes st') = Some en.

  Lemma CInv_new : CInv pc_new.
  Proof.
    constructor; unfold pc_new, started; simpl; try discriminate.
    - intro p. split; [intros []|congruence].
    - constructor.
    - intros p c v [].
  Qed.

  Definition cget_ok (get : P -> ctx -> outcome (result (nat * Val) E) * ctx) : Prop :=
    forall p st, CInv st ->
    let '(o, st') := get p st in
    CInv st' /\ cext st st' /\
    match o with
    | Ret (Ok (c, v)) => bt_get p (passes st') = Some (Computed c v)
    | Ret (Err _) | Panic _ => bt_get p (passes st') = Some NoCurrentValue
    | NoFuel => True
    end.
  Lemma run_cbody_ok get b : cget_ok get -> forall st, CInv st ->
    let '(o, st') := run_cbody get b st in CInv st' /\ cext st st'.
  Proof.
    intro G. induction b as [v|e|m| |q k IH]; intros st I; simpl; try (split; [exact I|intros ? ? X; exact X]).
    pose proof (G q st I) as Q. destruct (get q st) as [[[[c v]|e]|m|] st']; destruct Q as (I' & X & _);
      try (split; [exact I'|exact X]).
    - specialize (IH (AOk v) st' I'). destruct (run_cbody get (k (AOk v)) st') as [o st2].
      destruct IH as [I2 X2]. split; [exact I2|]. intros p en Q. apply X2, X, Q.
    - specialize (IH (AErr e) st' I'). destruct (run_cbody get (k (AErr e)) st') as [o st2].
      destruct IH as [I2 X2]. split; [exact I2|]. intros p en Q. apply X2, X, Q.
    - specialize (IH (APanicked m) st' I'). destruct (run_cbody get (k (APanicked m)) st') as [o st2].
      destruct IH as [I2 X2]. split; [exact I2|]. intros p en Q. apply X2, X, Q.
  Qed.

  Lemma clookup_ok p c v st : CInv st -> bt_get p (passes st) = Some (Computed c v) ->
    exists st', pc_lookup p st = (Ret (Ok (c, v)), st') /\ CInv st' /\ passes st' = passes st.
  Proof.
    intros I G. unfold pc_lookup. rewrite G. eexists. split; [reflexivity|]. split; [|reflexivity].
    destruct I as [I1 I2 I3 I4 I5]. constructor; simpl; auto.
    intros p' c' v' [Q|Q]; [injection Q as <- <- <-; exact G|auto].
  Qed.

  Lemma get_pass_c_ok fuel : cget_ok (get_pass_c run fuel).
  Proof.
    induction fuel as [|fuel IH]; intros p st I; simpl.
    - split; [exact I|]. split; [intros ? ? X; exact X|exact Logic.I].
    - destruct (bt_get p (passes st)) as [[|c v]|] eqn:G.
      + split; [exact I|]. split; [intros ? ? X; exact X|exact G].
      + destruct (clookup_ok p c v st I G) as (st' & -> & I' & E'). split; [exact I'|]. unfold cext. rewrite E'. auto.
      + set (st1 := Build_PassContext _ _ _).
        assert (I1 : CInv st1).
        { destruct I as [I1 I2 I3 I4 I5]. constructor; unfold started; simpl.
          - intro q. rewrite bt_get_insert. destruct (eqb_spec q p) as [->|N]; [intuition congruence|].
            rewrite <- (I1 q). unfold started. intuition congruence.
          - constructor; [|exact I2]. intro Q. apply I1 in Q. congruence.
          - intros q c v. rewrite bt_get_insert. destruct (eqb_spec q p) as [->|N]; [discriminate|]. apply I3.
          - intros q c v [Q|Q]; [discriminate|]. apply I4 in Q. rewrite bt_get_insert.
            destruct (eqb_spec q p) as [->|N]; [congruence|exact Q].
          - intros q q' c v w. rewrite !bt_get_insert.
            destruct (eqb_spec q p) as [->|N]; [discriminate|]. destruct (eqb_spec q' p) as [->|N']; [discriminate|]. apply I5. }
        assert (X1 : cext st st1).
        { intros q en Q. unfold st1. simpl. rewrite bt_get_insert_ne; [exact Q|congruence]. }
        assert (G1 : bt_get p (passes st1) = Some NoCurrentValue) by (unfold st1; simpl; apply bt_get_insert_eq).
        pose proof (run_cbody_ok (get_pass_c run fuel) (run p) IH st1 I1) as R.
        destruct (run_cbody (get_pass_c run fuel) (run p) st1) as [[[v|e]|m|] st2]; destruct R as [I2 X2];
          assert (G2 : bt_get p (passes st2) = Some NoCurrentValue) by (apply X2; exact G1).
        * set (st3 := Build_PassContext (bt_insert p (Computed (next_cell st2) v) (passes st2)) (S (next_cell st2)) (trace st2)).
          assert (G3 : bt_get p (passes st3) = Some (Computed (next_cell st2) v)) by (unfold st3; simpl; apply bt_get_insert_eq).
          assert (I3 : CInv st3).
          { destruct I2 as [J1 J2 J3 J4 J5]. constructor; simpl; auto.
            - intro q. rewrite bt_get_insert. destruct (eqb_spec q p) as [->|N]; [|apply J1].
              split; [discriminate|]. intros _. apply J1. congruence.
            - intros q c w. rewrite bt_get_insert. destruct (eqb_spec q p) as [->|N].
              + intro Q. injection Q as <- <-. lia.
              + intro Q. apply J3 in Q. lia.
            - intros q c w Q. rewrite bt_get_insert. destruct (eqb_spec q p) as [->|N]; [|apply J4; exact Q].
              apply J4 in Q. congruence.
            - intros q q' c w w'. rewrite !bt_get_insert.
              destruct (eqb_spec q p) as [->|N]; destruct (eqb_spec q' p) as [->|N']; auto.
              + intros Q Q'. injection Q as <- <-. apply J3 in Q'. lia.
              + intros Q' Q. injection Q as <- <-. apply J3 in Q'. lia.
              + apply J5. }
          destruct (clookup_ok p _ v st3 I3 G3) as (st4 & -> & I4 & E4).
          split; [exact I4|]. unfold cext. rewrite E4. split; [|exact G3]. intros q en Q. unfold st3. simpl.
          rewrite bt_get_insert_ne; [apply X2, X1, Q|congruence].
        * split; [|split; [|exact G2]].
          -- destruct I2 as [J1 J2 J3 J4 J5]. constructor; simpl; auto.
             intros q c w [Q|Q]; [discriminate|]. auto.
          -- intros q en Q. apply X2, X1, Q.
        * split; [exact I2|]. split; [|exact G2]. intros q en Q. apply X2, X1, Q.
        * split; [exact I2|]. split; [|exact Logic.I]. intros q en Q. apply X2, X1, Q.
  Qed.

  Lemma goes_on_ok fuel st st' : CInv st -> goes_on run fuel st st' -> CInv st' /\ cext st st'.
  Proof.
    intros I (client & _ & ->). pose proof (run_cbody_ok _ client (get_pass_c_ok fuel) st I) as Q.
    destruct (run_cbody (get_pass_c run fuel) client st). exact Q.
  Qed.
  Lemma reached_inv fuel st : reached run fuel st -> CInv st.
  Proof. intro R. exact (proj1 (goes_on_ok fuel pc_new st CInv_new R)). Qed.
End C.

(** ** Passes that do not catch *)
Section Plain.
  Context {P Val E : Type} `{OrdEq P}.
  Variable run : P -> body P Val E.
  Local Notation ctx := (PassContext P Val E).

  Lemma run_embed get1 get2 b : (forall p (st : ctx), get1 p st = get2 p st) -> forall st, run_cbody get1 (embed b) st = run_body get2 b st.
  Proof.
    intro G. induction b as [v|e|m| |q k IH]; intro st; simpl; try reflexivity. rewrite G.
    destruct (get2 q st) as [[[[c v]|e]|m|] st']; simpl; auto.
  Qed.
  Lemma get_embed fuel : forall p st, get_pass_c (fun q => embed (run q)) fuel p st = get_pass run fuel p st.
  Proof.
    induction fuel as [|fuel IH]; intros p st; simpl; [reflexivity|]. rewrite (run_embed _ _ (run p) IH). reflexivity.
  Qed.

  Local Notation crun := (fun q => embed (run q)).
  Lemma plain_body_ok fuel client : forall st, Inv run st -> Inv run (snd (run_cbody (get_pass_c crun fuel) client st)).
  Proof.
    induction client as [v|e|m| |q k IH]; intros st I; cbn [run_cbody snd]; try exact I. rewrite get_embed.
    pose proof (get_pass_ok run fuel q st I) as Q. destruct (get_pass run fuel q st) as [[[[c v]|e]|m|] st']; destruct Q as (I' & _); auto.
  Qed.

  (** *** More fuel changes nothing *)
  Lemma body_mono (g1 g2 : P -> ctx -> outcome (result (nat * Val) E) * ctx) b :
    (forall p st, fst (g1 p st) <> NoFuel -> g2 p st = g1 p st) ->
    forall st, fst (run_body g1 b st) <> NoFuel -> run_body g2 b st = run_body g1 b st.
  Proof.
    intro G. induction b as [v|e|m| |q k IH]; intros st N; simpl in *; try reflexivity.
    specialize (G q st). destruct (g1 q st) as [[r|m|] st']; simpl in *; [|rewrite G by discriminate; reflexivity|congruence].
    rewrite G by discriminate. apply IH. exact N.
  Qed.
  Lemma get_pass_S fuel : forall p st, fst (get_pass run fuel p st) <> NoFuel -> get_pass run (S fuel) p st = get_pass run fuel p st.
  Proof.
    induction fuel as [|fuel IH]; intros p st N; [simpl in N; congruence|].
    remember (S fuel) as n. cbn [get_pass]. rewrite Heqn in *. cbn [get_pass] in N |- *. fold (@get_pass P Val E _ run) in *.
    destruct (bt_get p (passes st)) as [[|c v]|]; try reflexivity.
    match goal with |- context [run_body (get_pass run fuel) (run p) ?s] => set (st1 := s) in * end.
    assert (X : fst (run_body (get_pass run fuel) (run p) st1) <> NoFuel).
    { intro Z. destruct (run_body (get_pass run fuel) (run p) st1) as [[r|m|] st2]; simpl in *; congruence. }
    change (match run_body (get_pass run (S fuel)) (run p) st1 with
            | (Ret (Ok value), st2) => pc_lookup p (Build_PassContext (bt_insert p (Computed (next_cell st2) value) (passes st2)) (S (next_cell st2)) (trace st2))
            | (Ret (Err e), st2) => (Ret (Err e), Build_PassContext (passes st2) (next_cell st2) (EvReturn p (Err e) :: trace st2))
            | (Panic m, st2) => (Panic m, st2)
            | (NoFuel, st2) => (NoFuel, st2)
            end = match run_body (get_pass run fuel) (run p) st1 with
            | (Ret (Ok value), st2) => pc_lookup p (Build_PassContext (bt_insert p (Computed (next_cell st2) value) (passes st2)) (S (next_cell st2)) (trace st2))
            | (Ret (Err e), st2) => (Ret (Err e), Build_PassContext (passes st2) (next_cell st2) (EvReturn p (Err e) :: trace st2))
            | (Panic m, st2) => (Panic m, st2)
            | (NoFuel, st2) => (NoFuel, st2)
            end).
    rewrite (body_mono (get_pass run fuel) (get_pass run (S fuel)) (run p) IH st1 X). reflexivity.
  Qed.
  Lemma get_pass_mono fuel fuel' p st : fuel <= fuel' -> fst (get_pass run fuel p st) <> NoFuel ->
    get_pass run fuel' p st = get_pass run fuel p st.
  Proof.
    intros L N. induction L as [|k L IH]; [reflexivity|]. rewrite get_pass_S; [exact IH|]. rewrite IH. exact N.
  Qed.

  (** *** Good passes are never left unfinished *)
  Definition Top (st : ctx) : Prop := forall q, bt_get q (passes st) = Some NoCurrentValue -> forall h, evp run h q = None.

  Lemma good_answers h p v st fuel : Inv run st -> Top st -> evp run h p = Some v -> h <= fuel ->
    exists c st', get_pass run fuel p st = (Ret (Ok (c, v)), st') /\ Top st'.
  Proof.
    intros I T G L.
    destruct (simulate run h (BGet p (fun r => match r with Ok w => BRet w | Err e => BErr e end)) st (Ok v) fuel I L) as (st' & R & K).
    - simpl. rewrite G. reflexivity.
    - intros q Q. apply (T q Q).
    - cbn [run_body] in R. destruct (get_pass run fuel p st) as [[[[c w]|e]|m|] st2]; cbn in R; try discriminate.
      injection R as -> ->. exists c, st'. split; [reflexivity|]. intros q Q. apply T, K, Q.
  Qed.
  Lemma Top_body fuel : (forall p st, Inv run st -> Top st -> fst (get_pass run fuel p st) <> NoFuel -> Top (snd (get_pass run fuel p st))) ->
    forall b st, Inv run st -> Top st -> fst (run_body (get_pass run fuel) b st) <> NoFuel -> Top (snd (run_body (get_pass run fuel) b st)).
  Proof.
    intros IH b. induction b as [v|e|m| |q k IHb]; intros st I T N; simpl in *; try exact T.
    pose proof (get_pass_ok run fuel q st I) as Q. specialize (IH q st I T).
    destruct (get_pass run fuel q st) as [[r|m|] st']; simpl in *; [|apply IH; discriminate|congruence].
    destruct Q as (I' & _). apply IHb; [exact I'|apply IH; discriminate|exact N].
  Qed.
  Lemma Top_get fuel : forall p st, Inv run st -> Top st -> fst (get_pass run fuel p st) <> NoFuel -> Top (snd (get_pass run fuel p st)).
  Proof.
    induction fuel as [|fuel IH]; intros p st I T N; [simpl in N; congruence|].
    intros q Q h. destruct (evp run h q) as [v|] eqn:Ev; [exfalso|reflexivity].
    assert (D : ~ ~ ((exists h' v', evp run h' p = Some v') \/ forall h', evp run h' p = None)).
    { intro X. apply X. right. intro h'. destruct (evp run h' p) as [v'|] eqn:W; [|reflexivity]. exfalso. apply X. left. eauto. }
    apply D. intros [(h' & v' & G)|B].
    - destruct (good_answers h' p v' st (Nat.max h' (S fuel)) I T G ltac:(lia)) as (c & st' & R & T').
      rewrite (get_pass_mono (S fuel) (Nat.max h' (S fuel)) p st ltac:(lia) N) in R. rewrite R in Q. cbn in Q. rewrite (T' q Q h) in Ev. discriminate.
    - cbn [get_pass] in N, Q. destruct (bt_get p (passes st)) as [[|c v0]|] eqn:G.
      + cbn in Q. rewrite (T q Q h) in Ev. discriminate.
      + unfold pc_lookup in Q. rewrite G in Q. cbn in Q. rewrite (T q Q h) in Ev. discriminate.
      + set (st1 := Build_PassContext _ _ _) in *.
        assert (I1 : Inv run st1) by (apply Inv_start; assumption).
        assert (T1 : Top st1).
        { intros x. unfold st1. simpl. rewrite bt_get_insert. destruct (eqb_spec x p) as [->|Nx]; [intros _; exact B|apply T]. }
        pose proof (Top_body fuel IH (run p) st1 I1 T1) as T2.
        destruct (run_body (get_pass run fuel) (run p) st1) as [[[w|e]|m|] st2]; cbn [fst snd] in *.
        * specialize (T2 ltac:(discriminate)). unfold pc_lookup in Q. cbn in Q. rewrite bt_get_insert_eq in Q. cbn in Q.
          rewrite bt_get_insert in Q. destruct (eqb_spec q p) as [Eq|Nq]; [discriminate Q|]. rewrite (T2 q Q h) in Ev. discriminate.
        * specialize (T2 ltac:(discriminate)). cbn in Q. rewrite (T2 q Q h) in Ev. discriminate.
        * specialize (T2 ltac:(discriminate)). rewrite (T2 q Q h) in Ev. discriminate.
        * congruence.
  Qed.
  Lemma Top_client fuel client : forall st, Inv run st -> Top st -> fst (run_cbody (get_pass_c crun fuel) client st) <> NoFuel ->
    Top (snd (run_cbody (get_pass_c crun fuel) client st)).
  Proof.
    induction client as [v|e|m| |q k IH]; intros st I T N; cbn [run_cbody snd fst] in *; try exact T. rewrite get_embed in *.
    pose proof (get_pass_ok run fuel q st I) as Q. pose proof (Top_get fuel q st I T) as Tg.
    destruct (get_pass run fuel q st) as [[[[c v]|e]|m|] st']; cbn [fst snd] in *; destruct Q as (I' & _);
      try (apply IH; [exact I'|apply Tg; discriminate|exact N]). congruence.
  Qed.

  Lemma reached_plain fuel st : reached crun fuel st -> Inv run st /\ Top st.
  Proof.
    intros (client & N & ->). split; [apply plain_body_ok, Inv_new|]. apply Top_client; [apply Inv_new|intros q; discriminate|exact N].
  Qed.
End Plain.
