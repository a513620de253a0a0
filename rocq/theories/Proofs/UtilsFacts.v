(** Facts about [Model/Utils.v]: breadth-first search, fixed points, collections. *)
From Coq Require Import List Arith Lia Bool.
From Verif.Model Require Import Ord BTree Outcome Utils.
From Verif.Spec Require Import Reach.
From Verif.Proofs Require Import OrdFacts BTreeFacts LoopFacts.
Import ListNotations.

Lemma star_trans {A} (R : A -> A -> Prop) x y z : star R x y -> star R y z -> star R x z.
Proof. intros S1 S2. induction S2 as [|y' z' _ IH E]; [exact S1 | exact (star_step R x _ _ IH E)]. Qed.

Lemma star_one {A} (R : A -> A -> Prop) x y : R x y -> star R x y.
Proof. intro E. exact (star_step R x x y (star_refl R x) E). Qed.
(** Induction from the left end. *)
Lemma star_ind_l {A} (R : A -> A -> Prop) z (Q : A -> Prop) :
  Q z -> (forall x y, R x y -> star R y z -> Q y -> Q x) -> forall x, star R x z -> Q x.
Proof.
  intros Qz Step x S. revert Q Qz Step. induction S as [|y z S IH E]; intros Q Qz Step; [exact Qz|].
  apply IH.
  - apply (Step y z E); [apply star_refl|exact Qz].
  - intros a b Eab Sb Qb. apply (Step a b Eab); [|exact Qb]. exact (star_step R b y z Sb E).
Qed.

Lemma plus_star {A} (R : A -> A -> Prop) x y : plus R x y -> star R x y.
Proof. intros (z & S & E). exact (star_step R x _ _ S E). Qed.

Lemma star_plus {A} (R : A -> A -> Prop) x y : star R x y -> x = y \/ plus R x y.
Proof. intros [|z w S E]; [left; reflexivity|]. right. exists z. auto. Qed.

Lemma star_left {A} (R : A -> A -> Prop) x y z : R x y -> star R y z -> star R x z.
Proof. intros E S. apply (star_trans R x y z); [|exact S]. exact (star_step R x x y (star_refl R x) E). Qed.

Section BFS.
  Context {T : Type} `{OrdEq T}.
  Variable f : T -> outcome (list T).
  Variable initial : list T.

  (** One step of the searched graph. *)
  Definition edge (x y : T) : Prop := exists l, f x = Ret l /\ In y l.

  Lemma bfs_visit_spec items (next seen next' seen' : btset T) :
    bfs_visit items (next, seen) = (next', seen') ->
    sorted next -> sorted seen -> incl next seen ->
    sorted next' /\ sorted seen' /\ incl next' seen' /\
    (forall x, In x seen' <-> In x seen \/ In x items) /\
    (forall x, In x next' <-> In x next \/ (In x items /\ ~ In x seen)).
  Proof.
    revert next seen. induction items as [|i items IH]; intros next seen E Sn Ss L.
    - injection E as <- <-. split; [exact Sn|]. split; [exact Ss|]. split; [exact L|].
      split; intro x; simpl; tauto.
    - cbn [bfs_visit fold_left] in E. destruct (bs_mem i seen) eqn:M.
      + apply bs_mem_In_iff in M.
        destruct (IH _ _ E Sn Ss L) as (A1 & A2 & A3 & A4 & A5).
        split; [exact A1|]. split; [exact A2|]. split; [exact A3|].
        split; intros x; simpl; rewrite ?A4, ?A5.
        * split; [tauto|]. intros [X|[<-|X]]; auto.
        * split; [tauto|]. intros [X|[[<-|X] Y]]; [auto|contradiction|auto].
      + apply bs_mem_false_iff in M.
        destruct (IH _ _ E) as (A1 & A2 & A3 & A4 & A5).
        * apply bs_add_sorted; exact Sn.
        * apply bs_add_sorted; exact Ss.
        * intros x. rewrite !bs_add_In. intros [->|X]; auto.
        * split; [exact A1|]. split; [exact A2|]. split; [exact A3|].
          split; intros x; rewrite ?A4, ?A5, ?bs_add_In; simpl.
          -- intuition.
          -- split.
             ++ intros [[->|X]|[X Y]]; auto. right. split; [auto|]. tauto.
             ++ intros [X|[[<-|X] Y]]; auto. destruct (OrdEq_dec x i) as [->|N]; [auto|]. right.
                split; [exact X|]. intros [->|Z]; tauto.
  Qed.

  (** A whole round over [curr]. *)
  Lemma bfs_round_spec curr (next seen : btset T) :
    (forall x, In x curr -> f x <> NoFuel) ->
    sorted next -> sorted seen -> incl next seen ->
    match bfs_round f curr (next, seen) with
    | Ret (next', seen') =>
        sorted next' /\ sorted seen' /\ incl next' seen' /\
        (forall x, In x curr -> exists l, f x = Ret l) /\
        (forall y, In y seen' <-> In y seen \/ exists x, In x curr /\ edge x y) /\
        (forall y, In y next' <-> In y next \/ (~ In y seen /\ exists x, In x curr /\ edge x y))
    | Panic m => exists x, In x curr /\ f x = Panic m
    | NoFuel => False
    end.
  Proof.
    revert next seen. induction curr as [|c curr IH]; intros next seen NF Sn Ss L.
    - cbn [bfs_round]. split; [exact Sn|]. split; [exact Ss|]. split; [exact L|].
      split; [intros x []|]. split; intros y.
      + split; [auto|]. intros [X|(x & [] & _)]. exact X.
      + split; [auto|]. intros [X|(_ & x & [] & _)]. exact X.
    - cbn [bfs_round]. destruct (f c) as [items|m|] eqn:F; cbn [obind].
      + destruct (bfs_visit items (next, seen)) as [next1 seen1] eqn:V.
        destruct (bfs_visit_spec _ _ _ _ _ V Sn Ss L) as (A1 & A2 & A3 & A4 & A5).
        specialize (IH next1 seen1 (fun x I => NF x (or_intror I)) A1 A2 A3).
        revert IH. destruct (bfs_round f curr (next1, seen1)) as [[next' seen']|m|]; intro IH.
        * destruct IH as (B1 & B2 & B3 & B4 & B5 & B6).
          split; [exact B1|]. split; [exact B2|]. split; [exact B3|]. split; [|split].
          -- intros x [<-|X]; [exists items; exact F | apply B4; exact X].
          -- intros y. rewrite B5, A4. split.
             ++ intros [[X|X]|(x & X & Y)]; [auto| |].
                ** right. exists c. split; [left; reflexivity | exists items; auto].
                ** right. exists x. split; [right; exact X | exact Y].
             ++ intros [X|(x & [<-|X] & Y)]; [auto| |].
                ** destruct Y as (l & F' & Y). rewrite F in F'. injection F' as <-. auto.
                ** right. exists x. auto.
          -- intros y. rewrite B6, A5, A4. split.
             ++ intros [[X|[X Y]]|(N & x & X & Y)]; [auto| |].
                ** right. split; [exact Y|]. exists c. split; [left; reflexivity | exists items; auto].
                ** right. split; [tauto|]. exists x. split; [right; exact X | exact Y].
             ++ intros [X|(N & x & [<-|X] & Y)]; [auto| |].
                ** destruct Y as (l & F' & Y). rewrite F in F'. injection F' as <-. auto.
                ** destruct (in_dec OrdEq_dec y items) as [Z|Z]; [auto|].
                   right. split; [tauto|]. exists x. auto.
        * destruct IH as (x & X & Y). exists x. split; [right; exact X | exact Y].
        * exact IH.
      + exists c. split; [left; reflexivity | exact F].
      + exact (NF c (or_introl eq_refl) F).
  Qed.

  Lemma bfs_loop_mono curr seen : fuel_mono (fun n => bfs_loop f n curr seen).
  Proof.
    intros n. revert curr seen. induction n as [|n IH]; intros curr seen m L N;
      [simpl in N; congruence|].
    destruct m as [|m]; [lia|]. cbn [bfs_loop] in *. destruct curr as [|c curr]; [reflexivity|].
    destruct (bfs_round f (c :: curr) ([], seen)) as [[next seen']| |]; cbn [obind] in *;
      try reflexivity. apply IH; [lia | exact N].
  Qed.

  Definition reach_ (y : T) : Prop := exists x, In x initial /\ star edge x y.
  Definition reachp (y : T) : Prop := exists x, In x initial /\ plus edge x y.

  Definition bfs_inv (curr seen : btset T) : Prop :=
    sorted seen /\
    (forall x, In x curr -> reach_ x) /\
    (forall x, In x seen -> reachp x) /\
    (forall x, In x initial \/ In x seen ->
       In x curr \/ exists l, f x = Ret l /\ incl l seen).

  Lemma bfs_inv_step curr seen next' seen' :
    bfs_inv curr seen -> (forall x, In x curr -> f x <> NoFuel) ->
    bfs_round f curr ([], seen) = Ret (next', seen') ->
    bfs_inv next' seen' /\ incl seen seen' /\
    (next' <> [] -> length seen < length seen').
  Proof.
    intros (S & C & Sn & P) NF R.
    pose proof (bfs_round_spec curr [] seen NF (sorted_nil) S (incl_nil_l _)) as B.
    unfold btset in *; rewrite R in B. destruct B as (B1 & B2 & B3 & B4 & B5 & B6).
    assert (Sub : incl seen seen') by (intros x X; apply B5; auto).
    assert (Seen' : forall x, In x seen' -> reachp x).
    { intros x X. apply B5 in X. destruct X as [X|(y & Y & E)]; [auto|].
      destruct (C y Y) as (i & Ii & St). exists i. split; [exact Ii|]. exists y. auto. }
    split; [|split; [exact Sub|]].
    - split; [exact B2|]. split; [|split; [exact Seen'|]].
      + intros x X. destruct (Seen' x (B3 x X)) as (i & Ii & Pl). exists i. split; [exact Ii|].
        apply plus_star. exact Pl.
      + intros x X.
        assert (D : (In x curr \/ exists l, f x = Ret l /\ incl l seen) \/ In x next').
        { destruct X as [X|X]; [left; apply P; auto|]. apply B5 in X as X'.
          destruct X' as [X'|(y & Y & E)]; [left; apply P; auto|].
          destruct (in_dec OrdEq_dec x seen) as [Z|Z]; [left; apply P; auto|].
          right. apply B6. right. split; [exact Z|]. exists y. auto. }
        destruct D as [[D|(l & F & I)]|D]; [| |left; exact D].
        * right. destruct (B4 x D) as (l & F). exists l. split; [exact F|]. intros y Y. apply B5.
          right. exists x. split; [exact D|]. exists l. auto.
        * right. exists l. split; [exact F|]. intros y Y. auto.
    - intro NE. destruct next' as [|n next']; [congruence|].
      assert (Nn : ~ In n seen /\ In n seen').
      { split; [|apply B3; left; reflexivity].
        destruct (proj1 (B6 n) (or_introl eq_refl)) as [[]|[Z _]]. exact Z. }
      destruct Nn as [Nn1 Nn2].
      assert (L : length (n :: seen) <= length seen').
      { apply NoDup_incl_length.
        - constructor; [exact Nn1 | apply sorted_NoDup; exact S].
        - intros x [<-|X]; [exact Nn2 | apply Sub; exact X]. }
      simpl in L. lia.
  Qed.

  Lemma bfs_exit seen : bfs_inv [] seen ->
    (forall x, reach_ x -> exists l, f x = Ret l) /\ (forall y, In y seen <-> reachp y).
  Proof.
    intros (S & C & Sn & P).
    assert (K : forall x, reach_ x -> (In x initial \/ In x seen) /\ exists l, f x = Ret l /\ incl l seen).
    { intros x (i & Ii & St). induction St as [|y z St IH E].
      - split; [auto|]. destruct (P i (or_introl Ii)) as [[]|Q]. exact Q.
      - destruct IH as [_ (l & F & I)]. destruct E as (l' & F' & Z). rewrite F in F'.
        injection F' as <-. apply I in Z. split; [auto|].
        destruct (P z (or_intror Z)) as [[]|Q]. exact Q. }
    split.
    - intros x R. destruct (K x R) as [_ (l & F & _)]. exists l. exact F.
    - intro y. split; [apply Sn|]. intros (i & Ii & z & St & l & F & Y).
      destruct (K z) as [_ (l' & F' & I)]; [exists i; auto|]. rewrite F in F'. injection F' as <-.
      apply I. exact Y.
  Qed.

  Definition bfs_post (r : outcome (btset T)) : Prop :=
    match r with
    | Ret s => sorted s /\ (forall y, In y s <-> reachp y) /\
               (forall x, reach_ x -> exists l, f x = Ret l)
    | Panic m => exists x, reach_ x /\ f x = Panic m
    | NoFuel => False
    end.

  Lemma bfs_loop_partial n curr seen :
    (forall x, f x <> NoFuel) ->
    bfs_inv curr seen -> bfs_loop f n curr seen <> NoFuel -> bfs_post (bfs_loop f n curr seen).
  Proof.
    intro NF. revert curr seen. induction n as [|n IH]; intros curr seen I N; [simpl in N; congruence|].
    cbn [bfs_loop] in *. destruct curr as [|c curr].
    - destruct (bfs_exit seen I) as [A B]. split; [apply I|]. split; assumption.
    - destruct (bfs_round f (c :: curr) ([], seen)) as [[next seen']|m|] eqn:R; cbn [obind] in *.
      + destruct (bfs_inv_step _ _ _ _ I (fun x _ => NF x) R) as (I' & _ & _). apply IH; assumption.
      + pose proof (bfs_round_spec (c :: curr) [] seen (fun x _ => NF x) sorted_nil (proj1 I)
          (incl_nil_l _)) as B. unfold btset in *; rewrite R in B. destruct B as (x & X & F).
        exists x. split; [|exact F]. apply I. exact X.
      + congruence.
  Qed.

  Lemma bfs_loop_terminates univ :
    (forall x, f x <> NoFuel) -> (forall y, reachp y -> In y univ) ->
    forall n curr seen, bfs_inv curr seen -> length univ < n + length seen -> curr = [] \/ length univ + 1 < n + length seen ->
    bfs_loop f n curr seen <> NoFuel.
  Proof.
    intros NF U n. induction n as [|n IH]; intros curr seen I L L2.
    - exfalso. assert (length seen <= length univ).
      { apply NoDup_incl_length; [apply sorted_NoDup; apply I|].
        intros x X. apply U. apply I. exact X. }
      simpl in *. lia.
    - cbn [bfs_loop]. destruct curr as [|c curr]; [discriminate|].
      destruct (bfs_round f (c :: curr) ([], seen)) as [[next seen']|m|] eqn:R; cbn [obind].
      + destruct (bfs_inv_step _ _ _ _ I (fun x _ => NF x) R) as (I' & Sub & G).
        destruct L2 as [L2|L2]; [discriminate|].
        assert (length seen <= length seen').
        { apply NoDup_incl_length; [apply sorted_NoDup; apply I | exact Sub]. }
        apply IH; [exact I' | lia |].
        destruct next as [|x next]; [auto|]. right.
        assert (length seen < length seen') by (apply G; discriminate). lia.
      + discriminate.
      + pose proof (bfs_round_spec (c :: curr) [] seen (fun x _ => NF x) sorted_nil (proj1 I)
          (incl_nil_l _)) as B. unfold btset in *; rewrite R in B. destruct B.
  Qed.

  Lemma bfs_inv_init : bfs_inv (bs_of_list initial) [].
  Proof.
    split; [apply sorted_nil|]. split; [|split].
    - intros x X. rewrite bs_of_list_In in X. exists x. split; [exact X | apply star_refl].
    - intros x [].
    - intros x [X|[]]. left. apply bs_of_list_In. exact X.
  Qed.

  Lemma bfs_partial n :
    (forall x, f x <> NoFuel) ->
    breadth_first_search initial f n <> NoFuel -> bfs_post (breadth_first_search initial f n).
  Proof. intros NF N. apply bfs_loop_partial; [exact NF | exact bfs_inv_init | exact N]. Qed.

  Lemma bfs_total univ :
    (forall x, f x <> NoFuel) -> (forall y, reachp y -> In y univ) ->
    exists r, runs_to (breadth_first_search initial f) r /\ bfs_post r.
  Proof.
    intros NF U.
    pose proof (bfs_loop_terminates univ NF U (length univ + 2) (bs_of_list initial) []
      bfs_inv_init ltac:(simpl; lia) ltac:(simpl; right; lia)) as N.
    exists (breadth_first_search initial f (length univ + 2)). split.
    - apply (runs_to_mono _ (length univ + 2)); [|reflexivity | exact N].
      apply bfs_loop_mono.
    - apply bfs_partial; [exact NF | exact N].
  Qed.

  Lemma bfs_mono : fuel_mono (breadth_first_search initial f).
  Proof. apply bfs_loop_mono. Qed.

  Lemma bfs_post_fun r1 r2 : bfs_post r1 -> bfs_post r2 ->
    (forall x m m', f x = Panic m -> f x = Panic m' -> m = m') ->
    match r1, r2 with Ret a, Ret b => a = b | Panic _, Panic _ => True | _, _ => False end.
  Proof.
    destruct r1 as [s1|m1|], r2 as [s2|m2|]; simpl; try tauto.
    - intros (A1 & A2 & _) (B1 & B2 & _) _. apply sorted_ext; auto. intro x. rewrite A2, B2. tauto.
    - intros (_ & _ & A) (x & R & F) _. destruct (A x R) as (l & F'). congruence.
    - intros (x & R & F) (_ & _ & A) _. destruct (A x R) as (l & F'). congruence.
  Qed.
End BFS.

(** ** fixed_point *)
Section FixedPoint.
  Context {T : Type}.
  Variable eq : T -> T -> bool.
  Variable apply : T -> T.

  Lemma fixed_point_exact fuel start x :
    fixed_point eq apply fuel start = Ret x <->
    exists n, n < fuel /\ x = Nat.iter n apply start /\ eq (apply x) x = true /\
      forall i, i < n -> eq (apply (Nat.iter i apply start)) (Nat.iter i apply start) = false.
  Proof.
    revert start. induction fuel as [|fuel IH]; intro start; cbn [fixed_point].
    - split; [discriminate|]. intros (n & L & _). lia.
    - destruct (eq (apply start) start) eqn:E.
      + split.
        * intro X. injection X as <-. exists 0. repeat split; [lia | exact E | intros; lia].
        * intros (n & L & -> & E' & F). destruct n as [|n]; [reflexivity|].
          specialize (F 0 ltac:(lia)). simpl in F. congruence.
      + rewrite IH. assert (Sh : forall n, Nat.iter n apply (apply start) = Nat.iter (S n) apply start).
        { induction n as [|n IHn]; [reflexivity|]. simpl. rewrite IHn. reflexivity. }
        split.
        * intros (n & L & -> & E' & F). exists (S n). split; [lia|]. rewrite <- Sh.
          split; [reflexivity|]. split; [exact E'|]. intros [|i] Li; [exact E|]. rewrite <- Sh.
          apply F. lia.
        * intros (n & L & -> & E' & F). destruct n as [|n].
          { simpl in E'. congruence. }
          exists n. split; [lia|]. rewrite Sh. split; [reflexivity|]. split; [exact E'|].
          intros i Li. rewrite Sh. apply F. lia.
  Qed.

  Lemma fixed_point_no_panic fuel start m : fixed_point eq apply fuel start <> Panic m.
  Proof.
    revert start. induction fuel as [|fuel IH]; intro start; cbn [fixed_point]; [discriminate|].
    destruct (eq (apply start) start); [discriminate | apply IH].
  Qed.
End FixedPoint.

(** ** take_only *)
Lemma take_only_spec {A} (l : list A) v : take_only l = Some v <-> l = [v].
Proof. destruct l as [|a [|b l]]; simpl; split; congruence. Qed.
Lemma take_only_none {A} (l : list A) : take_only l = None <-> length l <> 1.
Proof. destruct l as [|a [|b l]]; simpl; split; intros; try congruence; try lia. Qed.

(** ** Collections *)
Section Collections.
  Context {K V : Type} `{OrdEq K} `{OrdEq V}.

  (** The abstract content of a map of sets. *)
  Definition cm_rel (m : btmap K (btset V)) (k : K) (v : V) : Prop :=
    exists s, bt_get k m = Some s /\ In v s.
  Definition cm_wf (m : btmap K (btset V)) : Prop :=
    msorted m /\ forall k s, bt_get k m = Some s -> sorted s.

  Lemma cm_wf_nil : cm_wf [].
  Proof. split; [apply sorted_nil | intros k s E; discriminate]. Qed.

  Lemma cm_wf_insert m k s : cm_wf m -> sorted s -> cm_wf (bt_insert k s m).
  Proof.
    intros [A B] S. split; [apply bt_insert_sorted; exact A|].
    intros k' s'. rewrite bt_get_insert. destruct (eqb_spec k' k).
    - intro E. injection E as <-. exact S.
    - apply B.
  Qed.

  Lemma set_insert_iter_spec values set c c' set' :
    set_insert_iter values set c = (c', set') -> sorted set ->
    sorted set' /\ (forall x, In x set' <-> In x set \/ In x values) /\
    (c' = Changed <-> c = Changed \/ exists v, In v values /\ ~ In v set).
  Proof.
    revert set c. induction values as [|v values IH]; intros set c E S.
    - injection E as <- <-. split; [exact S|]. split.
      + intro x. simpl. tauto.
      + split; [auto|]. intros [X|(v & [] & _)]. exact X.
    - cbn [set_insert_iter] in E. unfold bs_insert in E.
      destruct (IH _ _ E (bs_add_sorted _ _ S)) as (A & B & C). split; [exact A|]. split.
      + intro x. rewrite B, bs_add_In. simpl. intuition.
      + rewrite C, wc_join_Changed. destruct (bs_mem v set) eqn:M; cbn [negb from_changed].
        * apply bs_mem_In_iff in M. split.
          -- intros [[X|X]|(w & W & N)]; [auto|discriminate|]. right. exists w.
             rewrite bs_add_In in N. split; [right; exact W | tauto].
          -- intros [X|(w & [<-|W] & N)]; [auto|contradiction|]. right. exists w. split; [exact W|].
             rewrite bs_add_In. intros [->|X]; contradiction.
        * apply bs_mem_false_iff in M. split.
          -- intros _. right. exists v. split; [left; reflexivity | exact M].
          -- intros _. left. right. reflexivity.
  Qed.

  Lemma cm_insert_spec m k v c m' :
    cm_insert m k v = (c, m') -> cm_wf m ->
    cm_wf m' /\
    (forall k', k' <> k -> bt_get k' m' = bt_get k' m) /\
    (exists s, bt_get k m' = Some s /\
       forall v', In v' s <-> cm_rel m k v' \/ v' = v) /\
    (c = Changed <-> ~ cm_rel m k v).
  Proof.
    intros E W. unfold cm_insert in E. destruct (bt_get k m) as [set|] eqn:G.
    - unfold bs_insert in E. injection E as <- <-.
      assert (S : sorted set) by exact (proj2 W k set G). split; [|split; [|split]].
      + apply cm_wf_insert; [exact W | apply bs_add_sorted; exact S].
      + intros k' N. apply bt_get_insert_ne. exact N.
      + exists (bs_add v set). split; [apply bt_get_insert_eq|]. intro v'. rewrite bs_add_In.
        unfold cm_rel. split.
        * intros [X|X]; [auto|]. left. exists set. auto.
        * intros [(s & G' & X)|X]; [|auto]. rewrite G in G'. injection G' as <-. auto.
      + unfold cm_rel. destruct (bs_mem v set) eqn:M; cbn [negb from_changed].
        * split; [discriminate|]. intro N. destruct N. exists set. split; [exact G|].
          apply bs_mem_In_iff. exact M.
        * split; [|reflexivity]. intros _ (s & G' & X). rewrite G in G'. injection G' as <-.
          apply bs_mem_false_iff in M. contradiction.
    - injection E as <- <-. split; [|split; [|split]].
      + apply cm_wf_insert; [exact W|]. apply (bs_add_sorted v []). apply sorted_nil.
      + intros k' N. apply bt_get_insert_ne. exact N.
      + exists [v]. split; [apply bt_get_insert_eq|]. intro v'. simpl. unfold cm_rel. split.
        * intros [<-|[]]. auto.
        * intros [(s & G' & _)|X]; [congruence | auto].
      + split; [|reflexivity]. intros _ (s & G' & _). congruence.
  Qed.

  Lemma cm_insert_iter_spec m k vs c m' :
    cm_insert_iter m k vs = (c, m') -> cm_wf m ->
    cm_wf m' /\
    (forall k', k' <> k -> bt_get k' m' = bt_get k' m) /\
    (bt_get k m' = None <-> bt_get k m = None /\ vs = []) /\
    (forall v', cm_rel m' k v' <-> cm_rel m k v' \/ In v' vs) /\
    (c = Changed <-> exists v, In v vs /\ ~ cm_rel m k v).
  Proof.
    intros E W. unfold cm_insert_iter in E. destruct (bt_get k m) as [set|] eqn:G.
    - destruct (set_insert_iter vs set Unchanged) as [c1 set1] eqn:I. injection E as <- <-.
      assert (S : sorted set) by exact (proj2 W k set G).
      destruct (set_insert_iter_spec _ _ _ _ _ I S) as (A & B & C). split; [|split; [|split; [|split]]].
      + apply cm_wf_insert; assumption.
      + intros k' N. apply bt_get_insert_ne. exact N.
      + rewrite bt_get_insert_eq. split; [discriminate|]. intros [X _]. discriminate.
      + intro v'. unfold cm_rel. rewrite bt_get_insert_eq, G. split.
        * intros (s & X & Y). injection X as <-. apply B in Y. destruct Y as [Y|Y]; [|auto].
          left. exists set. auto.
        * intros [(s & X & Y)|Y]; exists set1; (split; [reflexivity|]); apply B.
          -- injection X as <-. auto.
          -- auto.
      + rewrite C. unfold cm_rel. rewrite G. split.
        * intros [X|(v & X & Y)]; [discriminate|]. exists v. split; [exact X|].
          intros (s & Z & Z'). injection Z as <-. contradiction.
        * intros (v & X & Y). right. exists v. split; [exact X|]. intro Z. apply Y. exists set. auto.
    - destruct vs as [|v vs].
      + injection E as <- <-. split; [exact W|]. split; [reflexivity|]. split; [tauto|]. split.
        * intro v'. simpl. tauto.
        * split; [discriminate|]. intros (v & [] & _).
      + injection E as <- <-. split; [|split; [|split; [|split]]].
        * apply cm_wf_insert; [exact W|]. apply bs_extend_sorted. apply (bs_add_sorted v []). apply sorted_nil.
        * intros k' N. apply bt_get_insert_ne. exact N.
        * rewrite bt_get_insert_eq. split; [discriminate|]. intros [_ X]. discriminate.
        * intro v'. unfold cm_rel. rewrite bt_get_insert_eq, G. split.
          -- intros (s & X & Y). injection X as <-. apply bs_extend_In in Y. simpl in *. intuition.
          -- intros [(s & X & _)|Y]; [discriminate|]. exists (bs_extend [v] vs). split; [reflexivity|].
             apply bs_extend_In. simpl in *. intuition.
        * split; [|reflexivity]. intros _. exists v. split; [left; reflexivity|].
          intros (s & X & _). congruence.
  Qed.

  Lemma cm_insert_from_key_set_spec m k src c m' :
    cm_insert_from_key_set m k src = (c, m') -> cm_wf m ->
    cm_wf m' /\
    (forall k', k' <> k -> bt_get k' m' = bt_get k' m) /\
    (bt_get k m' = None <-> bt_get k m = None /\ k = src) /\
    (forall v', cm_rel m' k v' <-> cm_rel m k v' \/ cm_rel m src v') /\
    (c = Changed <-> exists v, cm_rel m src v /\ ~ cm_rel m k v).
  Proof.
    intros E W. unfold cm_insert_from_key_set in E. destruct (eqb_spec k src) as [->|NE].
    - injection E as <- <-. split; [exact W|]. split; [reflexivity|]. split; [tauto|]. split.
      + tauto.
      + split; [discriminate|]. intros (v & X & Y). contradiction.
    - assert (Gs : bt_get src (bt_remove k m) = bt_get src m).
      { rewrite bt_get_remove by apply W. destruct (eqb_spec src k); [congruence|reflexivity]. }
      rewrite Gs in E. clear Gs.
      set (value := match bt_get k m with Some set => set | None => [] end) in *.
      assert (Sv : sorted value).
      { unfold value. destruct (bt_get k m) as [s|] eqn:G; [exact (proj2 W k s G) | apply sorted_nil]. }
      assert (Rv : forall v, In v value <-> cm_rel m k v).
      { intro v. unfold value, cm_rel. destruct (bt_get k m) as [s|].
        - split; [intro X; exists s; auto|]. intros (s' & X & Y). injection X as <-. exact Y.
        - split; [intros []|]. intros (s' & X & _). discriminate. }
      assert (Wr : cm_wf (bt_remove k m)).
      { split; [apply bt_remove_sorted; apply W|]. intros k' s'.
        rewrite bt_get_remove by apply W. destruct (eqb_spec k' k); [discriminate|]. apply W. }
      assert (Get : forall value' k', k' <> k -> bt_get k' (bt_insert k value' (bt_remove k m)) = bt_get k' m).
      { intros value' k' N. rewrite bt_get_insert_ne by exact N. rewrite bt_get_remove by apply W.
        destruct (eqb_spec k' k); [contradiction|reflexivity]. }
      destruct (bt_get src m) as [ss|] eqn:G.
      + destruct (set_insert_iter ss value Unchanged) as [c1 value'] eqn:I. injection E as <- <-.
        destruct (set_insert_iter_spec _ _ _ _ _ I Sv) as (A & B & C).
        assert (Rs : forall v, In v ss <-> cm_rel m src v).
        { intro v. unfold cm_rel. rewrite G. split; [intro X; exists ss; auto|].
          intros (s' & X & Y). injection X as <-. exact Y. }
        split; [|split; [|split; [|split]]].
        * apply cm_wf_insert; assumption.
        * apply Get.
        * rewrite bt_get_insert_eq. split; [discriminate|]. tauto.
        * intro v'. unfold cm_rel at 1. rewrite bt_get_insert_eq. rewrite <- Rv, <- Rs, <- B. split.
          -- intros (s & X & Y). injection X as <-. exact Y.
          -- intro Y. exists value'. auto.
        * rewrite C. split.
          -- intros [X|(v & X & Y)]; [discriminate|]. exists v. rewrite <- Rs, <- Rv. auto.
          -- intros (v & X & Y). right. exists v. rewrite Rs, Rv. auto.
      + injection E as <- <-. assert (Rs : forall v, ~ cm_rel m src v).
        { intros v (s & X & _). congruence. }
        split; [|split; [|split; [|split]]].
        * apply cm_wf_insert; assumption.
        * apply Get.
        * rewrite bt_get_insert_eq. split; [discriminate|]. tauto.
        * intro v'. unfold cm_rel at 1. rewrite bt_get_insert_eq. rewrite <- Rv. split.
          -- intros (s & X & Y). injection X as <-. auto.
          -- intros [Y|Y]; [exists value; auto | destruct (Rs v' Y)].
        * split; [discriminate|]. intros (v & X & _). destruct (Rs v X).
  Qed.

  Lemma merge_value_pairs_gen l m :
    cm_wf m ->
    let m' := fold_left (fun (result : btmap K (btset V)) kv =>
      let '(k, v) := kv in
      match bt_get k result with
      | None => bt_insert k (bs_add v []) result
      | Some set => bt_insert k (bs_add v set) result
      end) l m in
    cm_wf m' /\
    (forall k, bt_get k m' = None <-> bt_get k m = None /\ forall v, ~ In (k, v) l) /\
    (forall k v, cm_rel m' k v <-> cm_rel m k v \/ In (k, v) l).
  Proof.
    revert m. induction l as [|[k v] l IH]; intros m W; cbn [fold_left].
    - split; [exact W|]. split; intros; simpl; intuition.
    - set (m1 := match bt_get k m with
        | None => bt_insert k (bs_add v []) m | Some set => bt_insert k (bs_add v set) m end).
      assert (E : cm_insert m k v = (fst (cm_insert m k v), m1)).
      { unfold m1, cm_insert, bs_insert. destruct (bt_get k m); reflexivity. }
      destruct (cm_insert_spec _ _ _ _ _ E W) as (W1 & G1 & (s & Gs & Rs) & _).
      assert (R1 : forall k' v', cm_rel m1 k' v' <-> cm_rel m k' v' \/ (k' = k /\ v' = v)).
      { intros k' v'. destruct (OrdEq_dec k' k) as [->|N].
        - unfold cm_rel at 1. rewrite Gs. split.
          + intros (s' & X & Y). injection X as <-. apply Rs in Y. tauto.
          + intro Y. exists s. split; [reflexivity|]. apply Rs. tauto.
        - unfold cm_rel. rewrite G1 by exact N. tauto. }
      destruct (IH m1 W1) as (A & B & C). split; [exact A|]. split.
      + intro k'. rewrite B. simpl. destruct (OrdEq_dec k' k) as [->|N].
        * rewrite Gs. split; [intros [X _]; discriminate|].
          intros [_ X]. exfalso. apply (X v). left. reflexivity.
        * rewrite G1 by exact N. split; intros [X Y]; (split; [exact X|]); intros v' Z.
          -- destruct Z as [Z|Z]; [congruence | exact (Y v' Z)].
          -- exact (Y v' (or_intror Z)).
      + intros k' v'. rewrite C, R1. simpl. intuition congruence.
  Qed.

  Lemma merge_value_pairs_spec (l : list (K * V)) :
    cm_wf (merge_value_pairs l) /\
    (forall k, bt_get k (merge_value_pairs l) = None <-> forall v, ~ In (k, v) l) /\
    (forall k v, cm_rel (merge_value_pairs l) k v <-> In (k, v) l).
  Proof.
    destruct (merge_value_pairs_gen l [] cm_wf_nil) as (A & B & C). split; [exact A|]. split.
    - intro k. unfold merge_value_pairs. rewrite B. simpl. tauto.
    - intros k v. unfold merge_value_pairs. rewrite C. unfold cm_rel at 1. simpl.
      split; [|auto]. intros [(s & X & _)|X]; [discriminate | exact X].
  Qed.
End Collections.

(** ** apply_fixed_point *)
Section AFP.
  Context {K V : Type} `{OrdEq K}.
  Variable p : @FixedPointProcessor K V.

  Lemma afp_apply_mem k acc kvs :
    bt_mem k (fst acc) = true -> bt_mem k (fst (afp_apply p acc kvs)) = true.
  Proof.
    revert acc. induction kvs as [|[k' v'] kvs IH]; intros [target nexts] M; [exact M|].
    cbn [afp_apply fold_left]. apply IH. cbn [fst] in M.
    assert (X : forall v, bt_mem k (bt_insert k' v target) = true).
    { intro v. apply bt_mem_iff. rewrite bt_keys_insert. apply bs_add_In. right.
      apply bt_mem_iff. exact M. }
    destruct (bt_get k' target) as [old|]; [|apply X].
    destruct (fpp_merge p old v') as [[] new]; apply X.
  Qed.

  Lemma afp_round_total currs acc :
    (forall k, In k currs -> bt_mem k (fst acc) = true) ->
    exists acc', afp_round p currs acc = Ret acc' /\
      forall k, bt_mem k (fst acc) = true -> bt_mem k (fst acc') = true.
  Proof.
    revert acc. induction currs as [|c currs IH]; intros acc M.
    - exists acc. auto.
    - cbn [afp_round]. destruct (proj1 (bt_mem_get c (fst acc)) (M c (or_introl eq_refl))) as (v & G).
      rewrite G. cbn [expect obind].
      destruct (IH (afp_apply p acc (fpp_next p c v))) as (acc' & E & P).
      + intros k I. apply afp_apply_mem. apply M. right. exact I.
      + exists acc'. split; [exact E|]. intros k I. apply P. apply afp_apply_mem. exact I.
  Qed.

  Lemma afp_loop_diverges currs acc fuel :
    currs <> [] -> (forall k, In k currs -> bt_mem k (fst acc) = true) ->
    afp_loop p fuel currs acc = NoFuel.
  Proof.
    intros NE. revert acc. induction fuel as [|fuel IH]; intros acc M; [reflexivity|].
    cbn [afp_loop]. destruct currs as [|c currs]; [congruence|].
    destruct (afp_round_total (c :: currs) acc M) as (acc' & E & P). rewrite E. cbn [obind].
    apply IH. intros k I. apply P. apply M. exact I.
  Qed.

  Lemma apply_fixed_point_diverges target : target <> [] -> diverges (apply_fixed_point p target).
  Proof.
    intros NE fuel. unfold apply_fixed_point. apply afp_loop_diverges.
    - destruct target as [|[k v] t]; [congruence|]. intro E.
      assert (I : In k (bs_of_list (bt_keys ((k, v) :: t)))).
      { apply bs_of_list_In. left. reflexivity. }
      rewrite E in I. destruct I.
    - intros k I. rewrite bs_of_list_In in I. apply bt_mem_iff. exact I.
  Qed.

  Lemma apply_fixed_point_empty : runs_to (apply_fixed_point p []) (Ret []).
  Proof. split; [discriminate|]. exists 1. intros [|fuel] L; [lia|reflexivity]. Qed.
End AFP.
