(** Assembly of the facts about the pass context. *)
From Coq Require Import String List Arith Lia Bool.
From Verif.Model Require Import Ord BTree Outcome Utils Grammar Nullable Firsts Passes.
From Verif.Spec Require Import Reach PassSpec.
From Verif.Proofs Require Import OrdFacts BTreeFacts LoopFacts UtilsFacts PassesFacts.
Import ListNotations.

#[export] Instance OrdEq_StdPass : OrdEq StdPass.
Proof.
  constructor; [constructor|]; unfold cmp, Ord_StdPass.
  - intros []; reflexivity.
  - intros [] []; reflexivity.
  - intros [] [] []; simpl; congruence.
  - intros [] [] []; simpl; congruence.
  - intros [] []; simpl; congruence.
Qed.

Lemma ret_not_nofuel {A} (a : A) : Ret a <> NoFuel.
Proof. discriminate. Qed.

Section G.
  Context {P Val E : Type} `{OrdEq P}.
  Variable run : P -> body P Val E.
  Local Notation ctx := (PassContext P Val E).

  Lemma use_inv client fuel : Inv run (snd (use_context run client fuel)).
  Proof.
    unfold use_context. pose proof (run_body_ok run (get_pass run fuel) client (get_pass_ok run fuel) pc_new (Inv_new run)) as Q.
    destruct (run_body (get_pass run fuel) client pc_new) as [o st]. apply Q.
  Qed.

  Lemma use_once client fuel :
    let st := snd (use_context run client fuel) in
    NoDup (started st) /\
    (forall p a b, In (EvReturn p (Ok a)) (trace st) -> In (EvReturn p (Ok b)) (trace st) -> a = b) /\
    (forall p q c v w, In (EvReturn p (Ok (c, v))) (trace st) -> In (EvReturn q (Ok (c, w))) (trace st) -> p = q) /\
    (forall p c v, In (EvReturn p (Ok (c, v))) (trace st) -> eval run (run p) (Ok v)) /\
    (forall p e, In (EvReturn p (Err e)) (trace st) -> eval run (run p) (Err e)).
  Proof.
    cbn zeta. destruct (use_inv client fuel) as [I1 I2 I3 I4 I5 I6].
    split; [exact I2|]. split; [|split; [|split]].
    - intros p [c v] [c' v'] A B. apply I4 in A, B. congruence.
    - intros p q c v w A B. apply I4 in A, B. exact (I5 _ _ _ _ _ A B).
    - intros p c v A. apply I4 in A. apply (I3 _ _ _ A).
    - intros p e A. apply I6 in A. apply A.
  Qed.

  Lemma use_sound client fuel r : fst (use_context run client fuel) = Ret r -> eval run client r.
  Proof.
    unfold use_context. pose proof (run_body_ok run (get_pass run fuel) client (get_pass_ok run fuel) pc_new (Inv_new run)) as Q.
    destruct (run_body (get_pass run fuel) client pc_new) as [o st]. destruct Q as (_ & _ & Q). simpl. intros ->. exact Q.
  Qed.

  (** A pass without a finite evaluation. *)
  Lemma no_eval_panics (all : list P) p client fuel :
    (forall q, In q all) -> (forall q, quiet (run q)) -> (forall r, ~ eval run (run p) r) ->
    length all < fuel ->
    fst (get_pass run fuel p (snd (use_context run client fuel))) = Panic rec_msg.
  Proof.
    intros All Q N L. set (st := snd (use_context run client fuel)).
    assert (I : Inv run st) by apply use_inv.
    assert (NH : forall q, no_hang (run q)).
    { intro q. generalize (Q q). intro X. induction X; constructor; auto. }
    assert (T : fst (get_pass run fuel p st) <> NoFuel).
    { apply (get_pass_terminates run all All NH); [exact I|]. eapply Nat.le_lt_trans; [|exact L].
      unfold missing. clear. induction all as [|a l IH]; simpl; [lia|]. destruct (negb _); simpl; lia. }
    pose proof (get_pass_ok run fuel p st I) as G. destruct (get_pass run fuel p st) as [[[[c v]|e]|m|] st'] eqn:Eg; simpl in *.
    - exfalso. destruct G as (I' & _ & G). apply (N (Ok v)). apply (iv_comp run st' I' p c v G).
    - exfalso. destruct G as (_ & _ & G). exact (N _ G).
    - f_equal. exact (get_pass_panics run Q fuel p st m st' I Eg).
    - congruence.
  Qed.

  (** A cycle of first requests has no finite evaluation. *)
  Lemma eval_height p r : eval run (run p) r -> forall q, star (requests_first run) p q -> exists r', eval run (run q) r'.
  Proof.
    intros X q S. induction S as [|y z S IH (k & R)]; [exists r; exact X|].
    destruct IH as (r' & Y). rewrite R in Y. inversion Y; subst. eexists. eassumption.
  Qed.

  Inductive ev_h : nat -> body P Val E -> result Val E -> Prop :=
  | eh_ret v : ev_h 0 (BRet v) (Ok v)
  | eh_err e : ev_h 0 (BErr e) (Err e)
  | eh_get q k rq r h1 h2 : ev_h h1 (run q) rq -> ev_h h2 (k rq) r -> ev_h (S (h1 + h2)) (BGet q k) r.

  Lemma ev_h_ex b r : eval run b r -> exists h, ev_h h b r.
  Proof.
    intro X. induction X as [v|e|q k rq r X1 (h1 & I1) X2 (h2 & I2)]; [exists 0; constructor..|].
    exists (S (h1 + h2)). apply eh_get with rq; assumption.
  Qed.
  Lemma ev_h_eval h b r : ev_h h b r -> eval run b r.
  Proof. intro X. induction X; [constructor..|]. eapply ev_get; eassumption. Qed.
  Lemma ev_h_fun h b r : ev_h h b r -> forall h' r', ev_h h' b r' -> h = h' /\ r = r'.
  Proof.
    intro X. induction X as [v|e|q k rq r h1 h2 X1 I1 X2 I2]; intros h' r' Y; inversion Y; subst; auto.
    match goal with A : ev_h _ (run q) _, B : ev_h _ (k _) r' |- _ => idtac end.
    match goal with A : ev_h ?a (run q) ?b |- _ =>
      lazymatch a with h1 => fail | _ => destruct (I1 _ _ A) as [-> ->] end end.
    match goal with B : ev_h ?a (k ?b) r' |- _ => destruct (I2 _ _ B) as [-> ->] end. auto.
  Qed.

  Lemma requests_smaller p q h r : requests_first run p q -> ev_h h (run p) r -> exists h' r', h' < h /\ ev_h h' (run q) r'.
  Proof.
    intros (k & R) X. rewrite R in X. inversion X; subst. eexists. eexists. split; [|eassumption]. lia.
  Qed.
  Lemma star_smaller p q : star (requests_first run) p q -> forall h r, ev_h h (run p) r -> exists h' r', h' <= h /\ ev_h h' (run q) r'.
  Proof.
    intro S. induction S as [|y z S IH R]; intros h r X; [exists h, r; auto|].
    destruct (IH h r X) as (h1 & r1 & L1 & X1). destruct (requests_smaller y z h1 r1 R X1) as (h2 & r2 & L2 & X2).
    exists h2, r2. split; [lia|exact X2].
  Qed.

  Lemma cycle_no_eval p : plus (requests_first run) p p -> forall r, ~ eval run (run p) r.
  Proof.
    intros (y & S & R) r X. apply ev_h_ex in X. destruct X as (h & X).
    destruct (star_smaller p y S h r X) as (h1 & r1 & L1 & X1).
    destruct (requests_smaller y p h1 r1 R X1) as (h2 & r2 & L2 & X2).
    destruct (ev_h_fun _ _ _ X _ _ X2) as [E1 _]. lia.
  Qed.

  (** After a failure. *)
  Lemma failed_again_panics client client2 fuel p e :
    let st := snd (use_context run client fuel) in
    fst (get_pass run fuel p st) = Ret (Err e) ->
    let st2 := snd (run_body (get_pass run fuel) client2 (snd (get_pass run fuel p st))) in
    forall n, fst (get_pass run (S n) p st2) = Panic rec_msg.
  Proof.
    cbn zeta. intro R. set (st := snd (use_context run client fuel)) in *.
    assert (I : Inv run st) by apply use_inv.
    pose proof (get_pass_ok run fuel p st I) as G.
    assert (X : In (EvReturn p (Err e)) (trace (snd (get_pass run fuel p st)))).
    { destruct fuel as [|fuel]; [discriminate|]. cbn [get_pass] in R |- *.
      destruct (bt_get p (passes st)) as [[|c v]|] eqn:Gp; [discriminate|unfold pc_lookup in R; rewrite Gp in R; discriminate|].
      destruct (run_body _ _ _) as [[[v|e']|m|] st2]; try discriminate.
      - unfold pc_lookup in R. simpl in R. rewrite bt_get_insert_eq in R. discriminate.
      - simpl in R. injection R as ->. left. reflexivity. }
    destruct (get_pass run fuel p st) as [o st1]. simpl in *. destruct G as (I1 & _ & _).
    pose proof (iv_err run st1 I1 p e X) as [N _].
    pose proof (run_body_ok run (get_pass run fuel) client2 (get_pass_ok run fuel) st1 I1) as Q.
    destruct (run_body (get_pass run fuel) client2 st1) as [o2 st2]. destruct Q as (_ & (Ex & _) & _). simpl.
    intro n. rewrite (Ex p _ N). reflexivity.
  Qed.
End G.

(** *** The library's passes *)
Section Std.
  Context {T NT AK AV : Type} `{Ord T} `{Ord NT}.
  Variable lay : layout NT.
  Variable g : Grammar T NT AK AV.
  Variable n : nat.
  Local Notation run := (std_run_pass lay g n).

  Lemma std_eval p r : eval run (run p) r <-> std_direct lay g n p = Ret r.
  Proof.
    assert (N : forall r, eval run (run PNullable) r <-> std_direct lay g n PNullable = Ret r).
    { intro r0. unfold std_direct, std_run_pass. destruct (calculate_nullables lay g n) as [[i|e]|m|]; simpl;
        (split; [intro X; inversion X; reflexivity | intro X; try discriminate; injection X as <-; constructor]). }
    assert (F : forall r, eval run (run PFirsts) r <-> std_direct lay g n PFirsts = Ret r).
    { intro r0. simpl. unfold calculate_firsts. split.
      - intro X. inversion X as [| |q k rq r' X1 X2]; subst. change (body_of _ _) with (run PNullable) in X1.
        apply N in X1. simpl in X1. destruct (calculate_nullables lay g n) as [[i|e]|m|]; simpl in *; try discriminate;
          injection X1 as <-; simpl in X2.
        + destruct (change_loop _ _ _); simpl in *; inversion X2; reflexivity.
        + inversion X2. reflexivity.
      - intro X. apply ev_get with (match calculate_nullables lay g n with Ret (Ok i) => Ok (VNullable i) | Ret (Err e) => Err (ENullable e) | _ => Ok (VFirsts []) end).
        + apply N. unfold std_direct. destruct (calculate_nullables lay g n) as [[i|e]|m|]; try discriminate; reflexivity.
        + destruct (calculate_nullables lay g n) as [[i|e]|m|]; simpl in *; try discriminate.
          * destruct (change_loop _ _ _); simpl in *; try discriminate. injection X as <-. constructor.
          * injection X as <-. constructor. }
    destruct p; [apply N|apply F|].
    simpl. unfold calculate_follows. split.
    - intro X. inversion X as [| |q k rq r' X1 X2]; subst. change (BGet PNullable _) with (run PFirsts) in X1.
      apply F in X1. simpl in X1. destruct (calculate_firsts lay g n) as [[i|e]|m|]; simpl in *; try discriminate;
        injection X1 as <-; simpl in X2.
      + destruct (change_loop _ _ _); simpl in *; inversion X2; reflexivity.
      + inversion X2. reflexivity.
    - intro X. apply ev_get with (match calculate_firsts lay g n with Ret (Ok i) => Ok (VFirsts i) | Ret (Err e) => Err (EFirsts e) | _ => Ok (VFirsts []) end).
      + apply F. unfold std_direct. destruct (calculate_firsts lay g n) as [[i|e]|m|]; try discriminate; reflexivity.
      + destruct (calculate_firsts lay g n) as [[i|e]|m|]; simpl in *; try discriminate.
        * destruct (change_loop _ _ _); simpl in *; try discriminate. injection X as <-. constructor.
        * injection X as <-. constructor.
  Qed.

  Lemma std_first_request p m : 3 <= m ->
    match get_pass run m p pc_new with
    | (Ret r, _) => std_direct lay g n p = Ret (forget r)
    | (Panic s, _) => std_direct lay g n p = Panic s
    | (NoFuel, _) => std_direct lay g n p = NoFuel
    end.
  Proof.
    intro L. destruct m as [|[|[|m]]]; try lia.
    Local Ltac lz := lazy -[change_loop change_iter calculate_nullables firsts_step follows_step cm_into_inner cm_new prods].
    destruct p; lz; destruct (calculate_nullables lay g n) as [[i|e]|s|]; lz; try reflexivity.
    - match goal with |- context [change_loop ?a ?b ?c] => destruct (change_loop a b c) end; lz; reflexivity.
    - match goal with |- context [change_loop ?a ?b ?c] => destruct (change_loop a b c) end; lz; try reflexivity.
      match goal with |- context [change_loop ?a ?b ?c] => destruct (change_loop a b c) end; lz; reflexivity.
  Qed.
End Std.
