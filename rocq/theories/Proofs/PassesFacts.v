(** Facts about [Model/Passes.v]. *)
From Coq Require Import String List Arith Lia Bool.
From Verif.Model Require Import Ord BTree Outcome Utils Grammar Nullable Firsts Passes.
From Verif.Spec Require Import Reach PassSpec.
From Verif.Proofs Require Import OrdFacts BTreeFacts LoopFacts.
Import ListNotations.

Section P.
  Context {P Val E : Type} `{OrdEq P}.
  Variable run : P -> body P Val E.
  Local Notation ctx := (PassContext P Val E).

  Record Inv (st : ctx) : Prop := {
    iv_start : forall p, In p (started st) <-> bt_get p (passes st) <> None;
    iv_once : NoDup (started st);
    iv_comp : forall p c v, bt_get p (passes st) = Some (Computed c v) ->
                c < next_cell st /\ eval run (run p) (Ok v);
    iv_ret : forall p c v, In (EvReturn p (Ok (c, v))) (trace st) -> bt_get p (passes st) = Some (Computed c v);
    iv_cell : forall p q c v w, bt_get p (passes st) = Some (Computed c v) ->
                bt_get q (passes st) = Some (Computed c w) -> p = q;
    iv_err : forall p e, In (EvReturn p (Err e)) (trace st) ->
                bt_get p (passes st) = Some NoCurrentValue /\ eval run (run p) (Err e)
  }.

  Definition ext (st st' : ctx) : Prop :=
    (forall p en, bt_get p (passes st) = Some en -> bt_get p (passes st') = Some en) /\
    (forall p r, bt_get p (passes st) = Some NoCurrentValue ->
       In (EvReturn p r) (trace st') -> In (EvReturn p r) (trace st)) /\
    next_cell st <= next_cell st'.

  Lemma ext_refl st : ext st st.
  Proof. split; [auto|]. split; auto. Qed.
  Lemma ext_trans a b c : ext a b -> ext b c -> ext a c.
  Proof. intros (A1 & A2 & A3) (B1 & B2 & B3). split; [auto|]. split; [auto|lia]. Qed.

  Lemma Inv_new : Inv pc_new.
  Proof.
    constructor; unfold pc_new, started; simpl; try discriminate.
    - intro p. split; [intros []|congruence].
    - constructor.
    - intros p c v [].
    - intros p e [].
  Qed.

  Lemma eval_det b r r' : eval run b r -> eval run b r' -> r = r'.
  Proof.
    intro A. revert r'. induction A as [v|e|q k rq r A1 IH1 A2 IH2]; intros r' B; inversion B; subst; try reflexivity.
    match goal with X : eval run (run q) ?r0 |- _ => rewrite (IH1 _ X) in * end. auto.
  Qed.

  (** What one [get_pass] call guarantees. *)
  Definition get_ok (get : P -> ctx -> outcome (result (nat * Val) E) * ctx) : Prop :=
    forall p st, Inv st ->
    let '(o, st') := get p st in
    Inv st' /\ ext st st' /\
    match o with
    | Ret (Ok (c, v)) => bt_get p (passes st') = Some (Computed c v)
    | Ret (Err e) => eval run (run p) (Err e)
    | _ => True
    end.

  Lemma run_body_ok get b : get_ok get -> forall st, Inv st ->
    let '(o, st') := run_body get b st in
    Inv st' /\ ext st st' /\ match o with Ret r => eval run b r | _ => True end.
  Proof.
    intro G. induction b as [v|e|m| |q k IH]; intros st I; simpl.
    - split; [exact I|]. split; [apply ext_refl|constructor].
    - split; [exact I|]. split; [apply ext_refl|constructor].
    - split; [exact I|]. split; [apply ext_refl|exact Logic.I].
    - split; [exact I|]. split; [apply ext_refl|exact Logic.I].
    - pose proof (G q st I) as Q. destruct (get q st) as [[r|m|] st']; destruct Q as (I' & X & Y).
      + specialize (IH (forget r) st' I'). destruct (run_body get (k (forget r)) st') as [o st2].
        destruct IH as (I2 & X2 & Y2). split; [exact I2|]. split; [exact (ext_trans _ _ _ X X2)|].
        destruct o as [r2| |]; auto. apply ev_get with (forget r); [|exact Y2].
        destruct r as [[c v]|e]; simpl; [apply (iv_comp st' I' q c v Y)|exact Y].
      + split; [exact I'|]. split; [exact X|exact Logic.I].
      + split; [exact I'|]. split; [exact X|exact Logic.I].
  Qed.

  Lemma lookup_ok p c v st : Inv st -> bt_get p (passes st) = Some (Computed c v) ->
    exists st', pc_lookup p st = (Ret (Ok (c, v)), st') /\ Inv st' /\ ext st st' /\
      passes st' = passes st /\ bt_get p (passes st') = Some (Computed c v).
  Proof.
    intros I G. unfold pc_lookup. rewrite G. eexists. split; [reflexivity|]. split; [|split; [|split]]; simpl.
    - destruct I as [I1 I2 I3 I4 I5 I6]. constructor; simpl; auto.
      + intros p' c' v' [Q|Q]; [injection Q as <- <- <-; exact G|auto].
      + intros p' e' [Q|Q]; [discriminate|auto].
    - split; [auto|]. split; [|simpl; lia]. intros p' r N [Q|Q]; [|exact Q]. injection Q as -> _.
      simpl in *. congruence.
    - reflexivity.
    - exact G.
  Qed.

  Lemma Inv_start p st : Inv st -> bt_get p (passes st) = None ->
    Inv (Build_PassContext (bt_insert p NoCurrentValue (passes st)) (next_cell st) (EvStart p :: trace st)).
  Proof.
    intros I G. destruct I as [I1 I2 I3 I4 I5 I6]. constructor; unfold started; simpl.
    - intro q. rewrite bt_get_insert. destruct (eqb_spec q p) as [->|N]; [intuition congruence|].
      rewrite <- (I1 q). unfold started. intuition congruence.
    - constructor; [|exact I2]. intro Q. apply I1 in Q. congruence.
    - intros q c v. rewrite bt_get_insert. destruct (eqb_spec q p) as [->|N]; [discriminate|]. apply I3.
    - intros q c v [Q|Q]; [discriminate|]. apply I4 in Q. rewrite bt_get_insert.
      destruct (eqb_spec q p) as [->|N]; [congruence|exact Q].
    - intros q q' c v w. rewrite !bt_get_insert.
      destruct (eqb_spec q p) as [->|N]; [discriminate|]. destruct (eqb_spec q' p) as [->|N']; [discriminate|]. apply I5.
    - intros q e [Q|Q]; [discriminate|]. apply I6 in Q. rewrite bt_get_insert.
      destruct (eqb_spec q p) as [->|N]; [destruct Q; congruence|exact Q].
  Qed.

  Lemma get_pass_ok fuel : get_ok (get_pass run fuel).
  Proof.
    induction fuel as [|fuel IH]; intros p st I; simpl.
    - split; [exact I|]. split; [apply ext_refl|exact Logic.I].
    - destruct (bt_get p (passes st)) as [[|c v]|] eqn:G.
      + split; [exact I|]. split; [apply ext_refl|exact Logic.I].
      + destruct (lookup_ok p c v st I G) as (st' & -> & I' & X & _ & G'). auto.
      + set (st1 := Build_PassContext _ _ _). assert (I1 : Inv st1) by (apply Inv_start; assumption).
        assert (X1 : forall q en, bt_get q (passes st) = Some en -> bt_get q (passes st1) = Some en).
        { intros q en Q. unfold st1. simpl. rewrite bt_get_insert_ne; [exact Q|congruence]. }
        assert (G1 : bt_get p (passes st1) = Some NoCurrentValue) by (unfold st1; simpl; apply bt_get_insert_eq).
        assert (Nr : forall r, ~ In (EvReturn p r) (trace st1)).
        { intros r [Q|Q]; [discriminate|]. destruct r as [[c v]|e].
          - apply (iv_ret st I) in Q. congruence.
          - apply (iv_err st I) in Q. destruct Q; congruence. }
        assert (X01 : forall st2, ext st1 st2 -> ext st st2).
        { intros st2 (A1 & A2 & A3). split; [auto|]. split; [|exact A3]. intros q r Q J.
          destruct (A2 q r (X1 q _ Q) J) as [J'|J']; [discriminate|exact J']. }
        pose proof (run_body_ok (get_pass run fuel) (run p) IH st1 I1) as R.
        destruct (run_body (get_pass run fuel) (run p) st1) as [[[v|e]|m|] st2]; destruct R as (I2 & X2 & Y).
        * assert (G2 : bt_get p (passes st2) = Some NoCurrentValue) by (apply X2; exact G1).
          set (st3 := Build_PassContext (bt_insert p (Computed (next_cell st2) v) (passes st2)) (S (next_cell st2)) (trace st2)).
          assert (G3 : bt_get p (passes st3) = Some (Computed (next_cell st2) v)) by (unfold st3; simpl; apply bt_get_insert_eq).
          assert (I3 : Inv st3).
          { destruct I2 as [J1 J2 J3 J4 J5 J6]. constructor; simpl; auto.
            - intro q. rewrite bt_get_insert. destruct (eqb_spec q p) as [->|N]; [|apply J1].
              split; [discriminate|]. intros _. apply J1. congruence.
            - intros q c w. rewrite bt_get_insert. destruct (eqb_spec q p) as [->|N].
              + intro Q. injection Q as <- <-. split; [lia|exact Y].
              + intro Q. apply J3 in Q. split; [lia|apply Q].
            - intros q c w Q. rewrite bt_get_insert. destruct (eqb_spec q p) as [->|N]; [|apply J4; exact Q].
              apply J4 in Q. congruence.
            - intros q q' c w w'. rewrite !bt_get_insert.
              destruct (eqb_spec q p) as [->|N]; destruct (eqb_spec q' p) as [->|N']; auto.
              + intros Q Q'. injection Q as <- <-. apply J3 in Q'. lia.
              + intros Q' Q. injection Q as <- <-. apply J3 in Q'. lia.
              + apply J5.
            - intros q e Q. rewrite bt_get_insert. destruct (eqb_spec q p) as [->|N]; [|apply J6; exact Q].
              exfalso. destruct X2 as (_ & X2 & _). exact (Nr _ (X2 p _ G1 Q)). }
          destruct (lookup_ok p _ v st3 I3 G3) as (st4 & -> & I4 & X4 & E4 & G4).
          split; [exact I4|]. split; [|exact G4].
          destruct (X01 st2 X2) as (A1 & A2 & A3). destruct X4 as (B1 & B2 & B3). split; [|split].
          -- intros q en Q. apply B1. unfold st3. simpl. rewrite bt_get_insert_ne; [apply A1; exact Q|congruence].
          -- intros q r Q J. apply A2; [exact Q|]. apply (B2 q r); [|exact J].
             unfold st3. simpl. rewrite bt_get_insert_ne; [apply A1; exact Q|congruence].
          -- simpl in *. lia.
        * assert (G2 : bt_get p (passes st2) = Some NoCurrentValue) by (apply X2; exact G1).
          split; [|split; [|exact Y]].
          -- destruct I2 as [J1 J2 J3 J4 J5 J6]. constructor; simpl; auto.
             ++ intros q c w [Q|Q]; [discriminate|]. auto.
             ++ intros q e' [Q|Q]; [injection Q as <- <-; auto|auto].
          -- destruct (X01 st2 X2) as (A1 & A2 & A3). split; [exact A1|]. split; [|exact A3].
             intros q r Q [J|J]; [|apply A2; assumption]. injection J as -> _. congruence.
        * split; [exact I2|]. split; [exact (X01 st2 X2)|exact Logic.I].
        * split; [exact I2|]. split; [exact (X01 st2 X2)|exact Logic.I].
  Qed.

  (** *** Termination *)
  Variable all : list P.
  Definition missing (st : ctx) : nat := length (filter (fun p => negb (bt_mem p (passes st))) all).

  Lemma filter_le {A} (f g : A -> bool) l : (forall x, f x = true -> g x = true) -> length (filter f l) <= length (filter g l).
  Proof.
    intro I. induction l as [|a l IH]; simpl; [lia|]. pose proof (I a). destruct (f a), (g a); simpl; try lia; exfalso; discriminate (H1 eq_refl).
  Qed.
  Lemma filter_lt {A} (f g : A -> bool) l x : (forall x, f x = true -> g x = true) ->
    In x l -> f x = false -> g x = true -> length (filter f l) < length (filter g l).
  Proof.
    intros I J Fx Gx. induction l as [|a l IH]; simpl; [destruct J|]. destruct J as [->|J].
    - rewrite Fx, Gx. simpl. pose proof (filter_le f g l I). lia.
    - specialize (IH J). pose proof (I a). destruct (f a), (g a); simpl; try lia; exfalso; discriminate (H1 eq_refl).
  Qed.

  Lemma missing_ext st st' : ext st st' -> missing st' <= missing st.
  Proof.
    intros (X & _). apply filter_le. intros p Q. apply negb_true_iff in Q. apply negb_true_iff.
    destruct (bt_mem p (passes st)) eqn:M; [|reflexivity]. apply bt_mem_get in M. destruct M as (en & M).
    apply X in M. assert (bt_mem p (passes st') = true) by (apply bt_mem_get; exists en; exact M). congruence.
  Qed.

  Hypothesis All : forall p, In p all.
  Hypothesis NH : forall p, no_hang (run p).

  Lemma get_pass_terminates fuel : forall p st, Inv st -> missing st < fuel -> fst (get_pass run fuel p st) <> NoFuel.
  Proof.
    induction fuel as [|fuel IH]; intros p st I L; [lia|]. simpl.
    destruct (bt_get p (passes st)) as [[|c v]|] eqn:G; [discriminate|unfold pc_lookup; rewrite G; discriminate|].
    set (st1 := Build_PassContext _ _ _).
    assert (I1 : Inv st1) by (apply Inv_start; assumption).
    assert (M1 : missing st1 < fuel).
    { assert (missing st1 < missing st); [|lia]. apply filter_lt with p; [|apply All| |].
      - intros q Q. apply negb_true_iff in Q. apply negb_true_iff. unfold st1 in Q. simpl in Q.
        unfold bt_mem in *. rewrite bt_get_insert in Q. destruct (eqb q p); [discriminate|exact Q].
      - unfold st1. simpl. unfold bt_mem. rewrite bt_get_insert_eq. reflexivity.
      - unfold bt_mem. rewrite G. reflexivity. }
    assert (B : forall b st, no_hang b -> Inv st -> missing st < fuel -> fst (run_body (get_pass run fuel) b st) <> NoFuel).
    { clear -IH H0. intros b. induction b as [v|e|m| |q k IHb]; intros st N I L; simpl; try discriminate.
      - inversion N.
      - pose proof (IH q st I L) as T. pose proof (get_pass_ok fuel q st I) as Q.
        destruct (get_pass run fuel q st) as [[r|m|] st']; simpl in *; try discriminate; [|congruence].
        destruct Q as (I' & X & _). apply IHb; [inversion N; subst; auto|exact I'|].
        pose proof (missing_ext _ _ X). lia. }
    specialize (B (run p) st1 (NH p) I1 M1). pose proof (run_body_ok (get_pass run fuel) (run p) (get_pass_ok fuel) st1 I1) as Q.
    destruct (run_body (get_pass run fuel) (run p) st1) as [[[v|e]|m|] st2]; simpl in *; try discriminate; [|congruence].
    unfold pc_lookup. simpl. rewrite bt_get_insert_eq. discriminate.
  Qed.

  Lemma use_terminates client fuel : no_hang client -> length all < fuel -> fst (use_context run client fuel) <> NoFuel.
  Proof.
    intros N L. unfold use_context.
    assert (B : forall b st, no_hang b -> Inv st -> missing st < fuel -> fst (run_body (get_pass run fuel) b st) <> NoFuel).
    { clear -All NH H0. intros b. induction b as [v|e|m| |q k IHb]; intros st N I L; simpl; try discriminate.
      - inversion N.
      - pose proof (get_pass_terminates fuel q st I L) as T. pose proof (get_pass_ok fuel q st I) as Q.
        destruct (get_pass run fuel q st) as [[r|m|] st']; simpl in *; try discriminate; [|congruence].
        destruct Q as (I' & X & _). apply IHb; [inversion N; subst; auto|exact I'|].
        pose proof (missing_ext _ _ X). lia. }
    apply B; [exact N|apply Inv_new|]. unfold missing.
    assert (forall l : list P, filter (fun _ => true) l = l) as Fl.
    { induction l as [|a l IH]; simpl; [reflexivity|]. rewrite IH. reflexivity. }
    rewrite (Fl all : filter (fun p => negb (bt_mem p (passes (@pc_new P Val E)))) all = all). exact L.
  Qed.
End P.

Section Panics.
  Context {P Val E : Type} `{OrdEq P}.
  Variable run : P -> body P Val E.
  Hypothesis Qu : forall p, quiet (run p).

  (** With quiet bodies every panic is the recursion message. *)
  Lemma get_pass_panics fuel : forall p st m st', Inv run st -> get_pass run fuel p st = (Panic m, st') -> m = rec_msg.
  Proof.
    induction fuel as [|fuel IH]; intros p st m st' I; simpl; [discriminate|].
    destruct (bt_get p (passes st)) as [[|c v]|] eqn:G.
    - intro X. injection X as <- _. reflexivity.
    - unfold pc_lookup. rewrite G. discriminate.
    - set (st1 := Build_PassContext _ _ _).
      assert (I1 : Inv run st1) by (apply Inv_start; assumption).
      assert (B : forall b st m st', quiet b -> Inv run st -> run_body (get_pass run fuel) b st = (Panic m, st') -> m = rec_msg).
      { clear -IH H0. intros b. induction b as [v|e|m0| |q k IHb]; intros st m st' N I; simpl; try discriminate.
        - inversion N.
        - pose proof (get_pass_ok run fuel q st I) as Q.
          destruct (get_pass run fuel q st) as [[r|m1|] st1] eqn:Eg; try discriminate.
          + destruct Q as (I' & _). apply IHb; [inversion N; subst; auto|exact I'].
          + intro X. injection X as <- <-. exact (IH _ _ _ _ I Eg). }
      pose proof (run_body_ok run (get_pass run fuel) (run p) (get_pass_ok run fuel) st1 I1) as Q.
      destruct (run_body (get_pass run fuel) (run p) st1) as [[[v|e]|m1|] st2] eqn:Er; try discriminate.
      + unfold pc_lookup. simpl. rewrite bt_get_insert_eq. discriminate.
      + intro X. injection X as <- <-. exact (B _ _ _ _ (Qu p) I1 Er).
  Qed.
End Panics.

Section Transparent.
  Context {P Val E : Type} `{OrdEq P}.
  Variable run : P -> body P Val E.
  Local Notation ctx := (PassContext P Val E).

  Fixpoint evb (ev : P -> option Val) (b : body P Val E) : option (result Val E) :=
    match b with
    | BRet v => Some (Ok v)
    | BErr e => Some (Err e)
    | BPanic _ => None
    | BHang => None
    | BGet q k => match ev q with Some v => evb ev (k (Ok v)) | None => None end
    end.
  Fixpoint evp (h : nat) (p : P) : option Val :=
    match h with
    | 0 => None
    | S h' => match evb (evp h') (run p) with Some (Ok v) => Some v | _ => None end
    end.

  Lemma evb_mono (e1 e2 : P -> option Val) b r :
    (forall p v, e1 p = Some v -> e2 p = Some v) -> evb e1 b = Some r -> evb e2 b = Some r.
  Proof.
    intro M. induction b as [v|e|m| |q k IH]; simpl; auto. destruct (e1 q) as [v|] eqn:Q; [|discriminate].
    rewrite (M q v Q). apply IH.
  Qed.
  Lemma evp_S h p v : evp h p = Some v -> evp (S h) p = Some v.
  Proof.
    revert p v. induction h as [|h IH]; intros p v; [discriminate|]. intro Q. cbn [evp] in Q.
    change (match evb (evp (S h)) (run p) with Some (Ok v) => Some v | _ => None end = Some v).
    destruct (evb (evp h) (run p)) as [r|] eqn:R; [|discriminate].
    rewrite (evb_mono (evp h) (evp (S h)) (run p) r); auto.
  Qed.
  Lemma evp_mono h h' p v : h <= h' -> evp h p = Some v -> evp h' p = Some v.
  Proof. intro L. induction L as [|h' L IH]; [auto|]. intro Q. apply evp_S. auto. Qed.

  Lemma evb_complete b r : eval_ok run b r -> exists h, evb (evp h) b = Some r.
  Proof.
    intro X. induction X as [v|e|q k v r X1 (h1 & IH1) X2 (h2 & IH2)].
    - exists 0. reflexivity.
    - exists 0. reflexivity.
    - exists (S h1 + h2). cbn [evb]. rewrite (evp_mono (S h1) (S h1 + h2) q v); [|lia|cbn [evp]; rewrite IH1; reflexivity].
      apply (evb_mono (evp h2)); [|exact IH2]. intros p w. apply evp_mono. lia.
  Qed.

  Lemma evb_eval ev b r : (forall p v, ev p = Some v -> eval run (run p) (Ok v)) ->
    evb ev b = Some r -> eval run b r.
  Proof.
    intro F. revert r. induction b as [v|e|m| |q k IH]; intros r; simpl; try discriminate.
    - intro Q. injection Q as <-. constructor.
    - intro Q. injection Q as <-. constructor.
    - destruct (ev q) as [v|] eqn:Ev; [|discriminate]. intro Q. apply ev_get with (Ok v); [apply F; exact Ev|apply IH; exact Q].
  Qed.
  Lemma evp_eval h p v : evp h p = Some v -> eval run (run p) (Ok v).
  Proof.
    revert p v. induction h as [|h IH]; intros p v; [discriminate|]. cbn [evp].
    destruct (evb (evp h) (run p)) as [[w|e]|] eqn:Q; try discriminate. intro X. injection X as <-.
    exact (evb_eval _ _ _ IH Q).
  Qed.

  Lemma evp_min h p v : evp h p = Some v -> exists h1, S h1 <= h /\ evp h1 p = None /\ evb (evp h1) (run p) = Some (Ok v).
  Proof.
    revert v. induction h as [|h IH]; intros v; [discriminate|]. intro Q. destruct (evp h p) as [w|] eqn:W.
    - pose proof (evp_S h p w W) as W'. rewrite Q in W'. injection W' as ->.
      destruct (IH w eq_refl) as (h1 & L & N & R). exists h1. auto.
    - exists h. split; [lia|]. split; [exact W|]. cbn [evp] in Q.
      destruct (evb (evp h) (run p)) as [[w|e]|]; try discriminate. congruence.
  Qed.

  Lemma simulate h : forall b st r fuel, Inv run st -> h <= fuel -> evb (evp h) b = Some r ->
    (forall q, bt_get q (passes st) = Some NoCurrentValue -> evp h q = None) ->
    exists st', run_body (get_pass run fuel) b st = (Ret r, st') /\
      forall q, bt_get q (passes st') = Some NoCurrentValue -> bt_get q (passes st) = Some NoCurrentValue.
  Proof.
    induction h as [h IHh] using lt_wf_ind. intros b.
    induction b as [v|e|m| |q k IHb]; intros st r fuel I L Ev St; simpl in Ev; try discriminate.
    - injection Ev as <-. exists st. auto.
    - injection Ev as <-. exists st. auto.
    - destruct (evp h q) as [v|] eqn:Eq; [|discriminate].
      assert (G : exists c st1, get_pass run fuel q st = (Ret (Ok (c, v)), st1) /\
         forall q', bt_get q' (passes st1) = Some NoCurrentValue -> bt_get q' (passes st) = Some NoCurrentValue).
      { destruct (evp_min h q v Eq) as (h1 & L1 & N1 & R1). destruct fuel as [|fuel]; [lia|]. cbn [get_pass].
        destruct (bt_get q (passes st)) as [[|c v']|] eqn:Gq.
        - exfalso. rewrite (St q Gq) in Eq. discriminate.
        - destruct (lookup_ok run q c v' st I Gq) as (st1 & Q1 & _ & _ & P1 & _). rewrite Q1.
          destruct (iv_comp run st I q c v' Gq) as [_ Ev']. pose proof (evp_eval h q v Eq) as Ev2.
          pose proof (eval_det run _ _ _ Ev' Ev2) as Z. injection Z as ->. exists c, st1.
          split; [reflexivity|]. rewrite P1. auto.
        - set (st1 := Build_PassContext _ _ _).
          assert (I1 : Inv run st1) by (apply Inv_start; assumption).
          destruct (IHh h1) with (b := run q) (st := st1) (r := @Ok Val E v) (fuel := fuel) as (st2 & R2 & S2); [lia|assumption|lia|assumption| |].
          + intros q'. unfold st1. simpl. rewrite bt_get_insert. destruct (eqb_spec q' q) as [->|N]; [intros _; exact N1|].
            intro Q. destruct (evp h1 q') as [w|] eqn:W; [|reflexivity]. exfalso. specialize (St q' Q).
            rewrite (evp_mono h1 h q' w) in St; [discriminate|lia|exact W].
          + rewrite R2. unfold pc_lookup. simpl. rewrite bt_get_insert_eq.
            eexists. eexists. split; [reflexivity|]. simpl. intros q'. rewrite bt_get_insert.
            destruct (eqb_spec q' q) as [->|N]; [discriminate|]. intro Q. apply S2 in Q. unfold st1 in Q. simpl in Q.
            rewrite bt_get_insert_ne in Q; assumption. }
      destruct G as (c & st1 & G & S1). cbn [run_body]. rewrite G. cbn [forget].
      pose proof (get_pass_ok run fuel q st I) as Q. rewrite G in Q. destruct Q as (I1 & _ & _).
      destruct (IHb (Ok v) st1 r fuel) as (st2 & R2 & S2); try assumption.
      + intros q' Q. apply St. apply S1. exact Q.
      + exists st2. split; [exact R2|]. auto.
  Qed.

  Lemma use_transparent client r : eval_ok run client r ->
    exists n, forall fuel, n <= fuel -> fst (use_context run client fuel) = Ret r.
  Proof.
    intro X. destruct (evb_complete client r X) as (h & Q). exists h. intros fuel L. unfold use_context.
    destruct (simulate h client pc_new r fuel (Inv_new run) L Q) as (st' & R & _); [discriminate|].
    rewrite R. reflexivity.
  Qed.
End Transparent.
