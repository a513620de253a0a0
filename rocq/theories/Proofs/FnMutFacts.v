(** [fixed_point] and [breadth_first_search] with effects: which calls are made. *)
From Coq Require Import List Arith Lia Sorted.
From Verif.Model Require Import Ord BTree Outcome Utils UtilsFnMut.
From Verif.Spec Require Import Reach UtilsSpec CallsSpec.
From Verif.Proofs Require Import OrdFacts BTreeFacts LoopFacts UtilsFacts UtilsMore.
Import ListNotations.

Lemma calls_app {A B S} (f : A -> S -> outcome (B * S)) l1 l2 s1 s3 :
  calls f (l1 ++ l2) s1 s3 <-> exists s2, calls f l1 s1 s2 /\ calls f l2 s2 s3.
Proof.
  revert s1. induction l1 as [|[a b] l1 IH]; intro s1; simpl.
  - split; [intro C; exists s1; split; [constructor|exact C]|]. intros (s2 & C1 & C2). inversion C1. subst. exact C2.
  - split.
    + intro C. inversion C as [|? ? ? ? t ? E C']. subst. apply IH in C'. destruct C' as (s2 & C1 & C2). exists s2. split; [econstructor; eauto|exact C2].
    + intros (s2 & C1 & C2). inversion C1 as [|? ? ? ? t ? E C']. subst. econstructor; [exact E|]. apply IH. eauto.
Qed.

Section Fix.
  Context {T S : Type}.
  Variable eq : T -> T -> bool.
  Variable f : T -> S -> outcome (T * S).

  Lemma fixed_point_mut_mono x s : fuel_mono (fun n => fixed_point_mut eq f n x s).
  Proof.
    intro n. revert x s. induction n as [|n IH]; intros x s m L N; [simpl in N; congruence|]. destruct m as [|m]; [lia|].
    cbn [fixed_point_mut] in *. destruct (f x s) as [[y s']| |]; cbn [obind] in *; [|reflexivity|congruence].
    destruct (eq y x); [reflexivity|]. apply IH; [lia|exact N].
  Qed.

  Lemma fixed_point_mut_ret n x s x' s' : fixed_point_mut eq f n x s = Ret (x', s') ->
    exists l y, calls f (l ++ [(x', y)]) s s' /\ linked x (l ++ [(x', y)]) /\ (forall a b, In (a, b) l -> eq b a = false) /\ eq y x' = true.
  Proof.
    revert x s. induction n as [|n IH]; intros x s E; [discriminate|]. cbn [fixed_point_mut] in E. destruct (f x s) as [[y s1]| |] eqn:F; cbn [obind] in E; try discriminate.
    destruct (eq y x) eqn:Q.
    - injection E as <- <-. exists [], y. split; [econstructor; [exact F|constructor]|]. simpl. repeat split; auto. intros a b [].
    - destruct (IH _ _ E) as (l & z & C & Li & Ne & Eq). exists ((x, y) :: l), z. split; [econstructor; [exact F|exact C]|]. simpl. split; [auto|]. split; [|exact Eq].
      intros a b [[= <- <-]|I]; [exact Q|exact (Ne a b I)].
  Qed.
  Lemma fixed_point_mut_calls l y x s x' s' : calls f (l ++ [(x', y)]) s s' -> linked x (l ++ [(x', y)]) ->
    (forall a b, In (a, b) l -> eq b a = false) -> eq y x' = true -> forall n, length l < n -> fixed_point_mut eq f n x s = Ret (x', s').
  Proof.
    revert x s. induction l as [|[a b] l IH]; intros x s C Li Ne Q n L; destruct n as [|n]; try lia; cbn [fixed_point_mut].
    - simpl in *. destruct Li as [-> _]. inversion C as [|? ? ? ? t ? E C']. subst. inversion C'. subst. rewrite E. cbn [obind]. rewrite Q. reflexivity.
    - simpl in *. destruct Li as [-> Li]. inversion C as [|? ? ? ? t ? E C']. subst. rewrite E. cbn [obind]. rewrite (Ne x b (or_introl eq_refl)). apply IH; auto. lia.
  Qed.
  Lemma fixed_point_mut_panic n x s m : fixed_point_mut eq f n x s = Panic m ->
    exists l x1 s1, calls f l s s1 /\ linked x l /\ x1 = last (map snd l) x /\ (forall a b, In (a, b) l -> eq b a = false) /\ f x1 s1 = Panic m.
  Proof.
    revert x s. induction n as [|n IH]; intros x s E; [discriminate|]. cbn [fixed_point_mut] in E. destruct (f x s) as [[y s1]|m'|] eqn:F; cbn [obind] in E; try discriminate.
    - destruct (eq y x) eqn:Q; [discriminate|]. destruct (IH _ _ E) as (l & x1 & s2 & C & Li & Ex & Ne & Fp). exists ((x, y) :: l), x1, s2.
      split; [econstructor; [exact F|exact C]|]. simpl. split; [auto|]. split; [|split; [|exact Fp]].
      + rewrite Ex. clear. destruct l as [|[a b] l]; [reflexivity|]. simpl. clear a. revert b. induction l as [|[c d] l IH]; intro b; [reflexivity|]. simpl in *. apply (IH d).
      + intros a b [[= <- <-]|I]; [exact Q|exact (Ne a b I)].
    - injection E as ->. exists [], x, s. simpl. repeat split; [constructor|intros a b []|exact F].
  Qed.
  Lemma fixed_point_mut_panics l x s s1 m : calls f l s s1 -> linked x l -> (forall a b, In (a, b) l -> eq b a = false) ->
    f (last (map snd l) x) s1 = Panic m -> forall n, length l < n -> fixed_point_mut eq f n x s = Panic m.
  Proof.
    revert x s. induction l as [|[a b] l IH]; intros x s C Li Ne F n L; destruct n as [|n]; try (simpl in L; lia); cbn [fixed_point_mut].
    - inversion C. subst. simpl in F. rewrite F. reflexivity.
    - simpl in Li. destruct Li as [-> Li]. inversion C as [|? ? ? ? t ? E C']. subst. rewrite E. cbn [obind]. rewrite (Ne x b (or_introl eq_refl)).
      apply IH; auto; [intros c d I; apply Ne; right; exact I| |simpl in L; lia].
      rewrite <- F. simpl. f_equal. clear. destruct l as [|[c d] l]; [reflexivity|]. simpl. clear c. revert d. induction l as [|[c e] l IH]; intro d; [reflexivity|]. simpl in *. symmetry. symmetry. apply (IH e).
  Qed.
End Fix.

Section Bfs.
  Context {T S : Type} `{OrdEq T}.
  Variable f : T -> S -> outcome (list T * S).

  Lemma answered_app (l1 l2 : list (T * list T)) y : answered (l1 ++ l2) y <-> answered l1 y \/ answered l2 y.
  Proof.
    unfold answered. split.
    - intros (x & ys & I & J). apply in_app_iff in I. destruct I; [left|right]; eauto.
    - intros [(x & ys & I & J)|(x & ys & I & J)]; exists x, ys; rewrite in_app_iff; auto.
  Qed.

  (** One round. *)
  Lemma round_ret curr : forall (next seen next' seen' : btset T) s s',
    bfs_round_mut f curr (next, seen) s = Ret ((next', seen'), s') -> sorted next -> sorted seen -> incl next seen ->
    exists round, map fst round = curr /\ calls f round s s' /\ sorted next' /\ sorted seen' /\
      (forall y, In y seen' <-> In y seen \/ answered round y) /\
      (forall y, In y next' <-> In y next \/ (~ In y seen /\ answered round y)).
  Proof.
    induction curr as [|c curr IH]; intros next seen next' seen' s s' E Sn Ss L; cbn [bfs_round_mut] in E.
    - injection E as <- <- <-. exists []. split; [reflexivity|]. split; [constructor|]. split; [exact Sn|]. split; [exact Ss|].
      split; intro y; (split; [auto|]); [intros [I|(x & ys & [] & _)]|intros [I|(_ & x & ys & [] & _)]]; exact I.
    - destruct (f c s) as [[items s1]| |] eqn:F; cbn [obind] in E; try discriminate. destruct (bfs_visit items (next, seen)) as [n1 s2] eqn:V.
      destruct (bfs_visit_spec (fun _ => NoFuel) _ _ _ _ _ V Sn Ss L) as (A1 & A2 & A3 & A4 & A5).
      destruct (IH _ _ _ _ _ _ E A1 A2 A3) as (round & B1 & B2 & B3 & B4 & B5 & B6). exists ((c, items) :: round).
      assert (Q : forall y, answered ((c, items) :: round) y <-> In y items \/ answered round y).
      { intro y. change ((c, items) :: round) with ([(c, items)] ++ round). rewrite answered_app. split; (intros [X|X]; [left|right; exact X]).
        - destruct X as (x & ys & [[= <- <-]|[]] & J). exact J.
        - exists c, items. split; [left; reflexivity|exact X]. }
      split; [simpl; rewrite B1; reflexivity|]. split; [econstructor; [exact F|exact B2]|]. split; [exact B3|]. split; [exact B4|]. split; intro y; rewrite ?B5, ?B6, ?A4, ?A5, Q.
      + tauto.
      + destruct (in_dec OrdEq_dec y items); tauto.
  Qed.
  Lemma round_panic curr : forall acc s m, bfs_round_mut f curr acc s = Panic m ->
    exists log x rest s1, curr = map fst log ++ x :: rest /\ calls f log s s1 /\ f x s1 = Panic m.
  Proof.
    induction curr as [|c curr IH]; intros acc s m E; cbn [bfs_round_mut] in E; [discriminate|]. destruct (f c s) as [[items s1]|m'|] eqn:F; cbn [obind] in E; try discriminate.
    - destruct (IH _ _ _ E) as (log & x & rest & s2 & -> & C & P). exists ((c, items) :: log), x, rest, s2. split; [reflexivity|]. split; [econstructor; eauto|exact P].
    - injection E as ->. exists [], c, curr, s. split; [reflexivity|]. split; [constructor|exact F].
  Qed.
  Lemma round_calls round : forall acc s s', calls f round s s' ->
    exists acc', bfs_round_mut f (map fst round) acc s = Ret (acc', s').
  Proof.
    induction round as [|[c items] round IH]; intros acc s s' C; inversion C as [|? ? ? ? t ? E C']; subst; cbn [map fst bfs_round_mut].
    - eauto.
    - rewrite E. cbn [obind]. apply IH. exact C'.
  Qed.
  Lemma round_panics log : forall acc s s1 x rest m, calls f log s s1 -> f x s1 = Panic m -> bfs_round_mut f (map fst log ++ x :: rest) acc s = Panic m.
  Proof.
    induction log as [|[c items] round IH]; intros acc s s1 x rest m C P; inversion C as [|? ? ? ? t ? E C']; subst; cbn [map fst bfs_round_mut app].
    - rewrite P. reflexivity.
    - rewrite E. cbn [obind]. eapply IH; eauto.
  Qed.

  Lemma bfs_mut_mono (curr seen : btset T) s : fuel_mono (fun n => bfs_loop_mut f n curr seen s).
  Proof.
    intro n. revert curr seen s. induction n as [|n IH]; intros curr seen s m L N; [simpl in N; congruence|]. destruct m as [|m]; [lia|].
    cbn [bfs_loop_mut] in *. destruct curr as [|c curr]; [reflexivity|]. destruct (bfs_round_mut f (c :: curr) ([], seen) s) as [[[a b] s']| |]; cbn [obind] in *; [|reflexivity|congruence].
    apply IH; [lia|exact N].
  Qed.

  Lemma bfs_ret n : forall past (curr seen r : btset T) s s', sorted seen -> (forall y, In y seen <-> answered past y) ->
    bfs_loop_mut f n curr seen s = Ret (r, s') ->
    exists log, calls f log s s' /\ by_rounds past curr log /\ sorted r /\ forall y, In y r <-> answered (past ++ log) y.
  Proof.
    induction n as [|n IH]; intros past curr seen r s s' Ss P E; [discriminate|]. cbn [bfs_loop_mut] in E. destruct curr as [|c curr].
    - injection E as <- <-. exists []. split; [constructor|]. split; [constructor|]. split; [exact Ss|]. rewrite app_nil_r. exact P.
    - destruct (bfs_round_mut f (c :: curr) ([], seen) s) as [[[next' seen'] s1]| |] eqn:R; cbn [obind] in E; try discriminate.
      destruct (round_ret _ _ _ _ _ _ _ R) as (round & B1 & B2 & B3 & B4 & B5 & B6); [constructor|exact Ss|intros x []|].
      assert (P' : forall y, In y seen' <-> answered (past ++ round) y) by (intro y; rewrite B5, P, answered_app; reflexivity).
      destruct (IH (past ++ round) _ _ _ _ _ B4 P' E) as (log & C & By & Sr & Q).
      exists (round ++ log). split; [apply calls_app; eauto|]. split; [|split; [exact Sr|intro y; rewrite Q, !answered_app; tauto]].
        rewrite <- B1. apply (br_round past round next' log); [intros ->; discriminate| |exact By].
        split; [exact B3|]. intro y. rewrite B6, P. simpl. tauto.
  Qed.
  Lemma bfs_panic n : forall past (curr seen : btset T) s m, sorted seen -> (forall y, In y seen <-> answered past y) ->
    bfs_loop_mut f n curr seen s = Panic m ->
    exists log x s1, calls f log s s1 /\ next_call past curr log x /\ f x s1 = Panic m.
  Proof.
    induction n as [|n IH]; intros past curr seen s m Ss P E; [discriminate|]. cbn [bfs_loop_mut] in E. destruct curr as [|c curr]; [discriminate|].
    destruct (bfs_round_mut f (c :: curr) ([], seen) s) as [[[next' seen'] s1]|m'|] eqn:R; cbn [obind] in E; try discriminate.
    - destruct (round_ret _ _ _ _ _ _ _ R) as (round & B1 & B2 & B3 & B4 & B5 & B6); [constructor|exact Ss|intros x []|].
      assert (P' : forall y, In y seen' <-> answered (past ++ round) y) by (intro y; rewrite B5, P, answered_app; reflexivity).
      destruct (IH (past ++ round) next' seen' s1 m B4 P' E) as (log & x & s2 & C & Nc & Pn).
      exists (round ++ log), x, s2. split; [apply calls_app; eauto|]. split; [|exact Pn].
        rewrite <- B1. apply (nc_later past round next' log x); [intros ->; discriminate| |exact Nc].
        split; [exact B3|]. intro y. rewrite B6, P. simpl. tauto.
    - injection E as ->. destruct (round_panic _ _ _ _ R) as (log & x & rest & s1 & Ec & C & Pn). exists log, x, s1. split; [exact C|]. split; [rewrite Ec; constructor|exact Pn].
  Qed.

  Lemma new_next past round (seen next' seen' : btset T) new : sorted next' -> (forall y, In y seen <-> answered past y) ->
    (forall y, In y next' <-> In y [] \/ (~ In y seen /\ answered round y)) -> first_answered past round new -> next' = new.
  Proof.
    intros S1 P Q [S2 R]. apply sorted_ext; [exact S1|exact S2|]. intro y. rewrite Q, R, P. simpl. tauto.
  Qed.

  Lemma bfs_calls log : forall past (curr seen : btset T) s s', sorted seen -> (forall y, In y seen <-> answered past y) ->
    by_rounds past curr log -> calls f log s s' -> exists n r, bfs_loop_mut f n curr seen s = Ret (r, s').
  Proof.
    intros past curr seen s s' Ss P By. revert seen s s' Ss P. induction By as [past|past round new log Ne Fa By IH]; intros seen s s' Ss P C.
    - inversion C. subst. exists 1, seen. reflexivity.
    - apply calls_app in C. destruct C as (s1 & C1 & C2). destruct (round_calls round ([], seen) s s1 C1) as ([next' seen'] & R).
      destruct (round_ret _ _ _ _ _ _ _ R) as (round' & B1 & B2 & B3 & B4 & B5 & B6); [constructor|exact Ss|intros x []|].
      assert (round' = round).
      { clear -B1 B2 C1. revert s round' B1 B2 C1. induction round as [|[a b] round IH]; intros s [|[a' b'] round'] B1 B2 C1; try discriminate; [reflexivity|].
        simpl in B1. injection B1 as -> B1. inversion B2 as [|? ? ? ? t ? E C']. inversion C1 as [|? ? ? ? t2 ? E2 C2']. subst. rewrite E in E2. injection E2 as -> ->. f_equal. eapply IH; eauto. }
      subst round'. pose proof (new_next past round seen next' seen' new B3 P B6 Fa). subst next'.
      destruct (IH seen' s1 s' B4) as (n & r & E); [intro y; rewrite B5, P, answered_app; reflexivity|exact C2|].
      exists (Datatypes.S n), r. cbn [bfs_loop_mut]. destruct (map fst round) as [|c curr] eqn:Em; [destruct round; [congruence|discriminate]|]. rewrite R. cbn [obind]. exact E.
  Qed.
  Lemma bfs_panics log x : forall past (curr seen : btset T) s s1 m, sorted seen -> (forall y, In y seen <-> answered past y) ->
    next_call past curr log x -> calls f log s s1 -> f x s1 = Panic m -> exists n, bfs_loop_mut f n curr seen s = Panic m.
  Proof.
    intros past curr seen s s1 m Ss P Nc. revert seen s s1 Ss P. induction Nc as [past log x rest|past round new log x Ne Fa Nc IH]; intros seen s s' Ss P C Pn.
    - exists 1. cbn [bfs_loop_mut]. pose proof (round_panics log ([], seen) s s' x rest m C Pn) as R.
      destruct (map fst log ++ x :: rest) as [|c curr] eqn:Em; [destruct (map fst log); discriminate|]. rewrite R. reflexivity.
    - apply calls_app in C. destruct C as (s1 & C1 & C2). destruct (round_calls round ([], seen) s s1 C1) as ([next' seen'] & R).
      destruct (round_ret _ _ _ _ _ _ _ R) as (round' & B1 & B2 & B3 & B4 & B5 & B6); [constructor|exact Ss|intros z []|].
      assert (round' = round).
      { clear -B1 B2 C1. revert s round' B1 B2 C1. induction round as [|[a b] round IH]; intros s [|[a' b'] round'] B1 B2 C1; try discriminate; [reflexivity|].
        simpl in B1. injection B1 as -> B1. inversion B2 as [|? ? ? ? t ? E C']. inversion C1 as [|? ? ? ? t2 ? E2 C2']. subst. rewrite E in E2. injection E2 as -> ->. f_equal. eapply IH; eauto. }
      subst round'. pose proof (new_next past round seen next' seen' new B3 P B6 Fa). subst next'.
      destruct (IH seen' s1 s' B4) as (n & E); [intro y; rewrite B5, P, answered_app; reflexivity|exact C2|exact Pn|].
      exists (Datatypes.S n). cbn [bfs_loop_mut]. destruct (map fst round) as [|c curr] eqn:Em; [destruct round; [congruence|discriminate]|]. rewrite R. cbn [obind]. exact E.
  Qed.

  (** ** Who is called *)
  Lemma NoDup_app_intro {A} (l1 l2 : list A) : NoDup l1 -> NoDup l2 -> (forall x, In x l1 -> ~ In x l2) -> NoDup (l1 ++ l2).
  Proof.
    intros N1 N2 D. induction N1 as [|x l1 Nx N1 IH]; [exact N2|]. simpl. constructor.
    - rewrite in_app_iff. intros [I|I]; [exact (Nx I)|exact (D x (or_introl eq_refl) I)].
    - apply IH. intros y I. apply D. right. exact I.
  Qed.
  Lemma bfs_dec (past : list (T * list T)) y : answered past y \/ ~ answered past y.
  Proof.
    induction past as [|[x ys] past IH]; [right; intros (x & ys & [] & _)|]. destruct (in_dec OrdEq_dec y ys) as [I|I].
    - left. exists x, ys. split; [left; reflexivity|exact I].
    - destruct IH as [(z & zs & J & K)|N]; [left; exists z, zs; split; [right; exact J|exact K]|]. right. intros (z & zs & [[= <- <-]|J] & K); [exact (I K)|]. apply N. exists z, zs. auto.
  Qed.
  Lemma by_rounds_once past items log : by_rounds past items log ->
    exists rest, map fst log = items ++ rest /\ NoDup rest /\ (forall y, In y rest -> answered log y /\ ~ answered past y) /\
      (forall y, answered log y -> answered past y \/ In y rest).
  Proof.
    induction 1 as [past|past round new log Ne [Sn Fa] By IH].
    - exists []. split; [reflexivity|]. split; [constructor|]. split; [intros y []|]. intros y (x & ys & [] & _).
    - destruct IH as (rest & E & Nd & Q1 & Q2). exists (new ++ rest). split; [rewrite map_app, E; reflexivity|]. split; [|split].
      + apply NoDup_app_intro; [exact (sorted_NoDup new Sn)|exact Nd|]. intros y I J. apply Fa in I. apply Q1 in J. rewrite answered_app in J. tauto.
      + intros y I. rewrite answered_app. apply in_app_iff in I. destruct I as [I|I]; [apply Fa in I; tauto|]. apply Q1 in I. rewrite answered_app in I. tauto.
      + intros y A. rewrite in_app_iff, Fa. apply answered_app in A. destruct (in_dec OrdEq_dec y new) as [I|I]; [apply Fa in I; tauto|]. destruct A as [A|A].
        * left. destruct (bfs_dec past y) as [D|D]; [exact D|]. exfalso. apply I, Fa. auto.
        * apply Q2 in A. rewrite answered_app in A. destruct A as [[A|A]|A]; auto. left. destruct (bfs_dec past y) as [D|D]; [exact D|]. exfalso. apply I, Fa. auto.
  Qed.

  (** With answers that do not depend on the state. *)
  Lemma by_rounds_reach past items log (next : T -> list T) (initial : list T) : by_rounds past items log ->
    (forall x ys, In (x, ys) log -> ys = next x) ->
    (forall x, In x items -> In x initial \/ exists z, In z initial /\ plus (fun a b => In b (next a)) z x) ->
    forall y, answered log y -> exists z, In z initial /\ plus (fun a b => In b (next a)) z y.
  Proof.
    induction 1 as [past|past round new log Ne [Sn Fa] By IH]; intros An It y A; [destruct A as (x & ys & [] & _)|].
    assert (X : forall y, answered round y -> exists z, In z initial /\ plus (fun a b => In b (next a)) z y).
    { intros y' (x & ys & I & J). rewrite (An x ys) in J by (apply in_app_iff; auto). destruct (It x) as [K|(z & K & Pz)]; [apply (in_map fst) in I; exact I| |].
      - exists x. split; [exact K|]. exists x. split; [apply star_refl|exact J].
      - exists z. split; [exact K|]. destruct Pz as (u & S1 & S2). exists x. split; [exact (star_step _ _ _ _ S1 S2)|exact J]. }
    apply answered_app in A. destruct A as [A|A]; [exact (X y A)|]. apply IH; auto.
    - intros x ys I. apply An. apply in_app_iff. auto.
    - intros x I. right. apply X. apply Fa in I. tauto.
  Qed.
  Lemma log_closed log (next : T -> list T) (initial : list T) : (forall x ys, In (x, ys) log -> ys = next x) ->
    (forall x, In x initial -> In x (map fst log)) -> (forall y, answered log y -> In y (map fst log)) ->
    forall z y, In z initial -> plus (fun a b => In b (next a)) z y -> answered log y.
  Proof.
    intros An It Cl z y Iz Py.
    assert (X : forall x b, In x (map fst log) -> In b (next x) -> answered log b).
    { intros x b I J. apply in_map_iff in I. destruct I as ([x' ys] & <- & I). exists x', ys. split; [exact I|]. rewrite (An _ _ I). exact J. }
    destruct Py as (u & St & J). apply (X u y); [|exact J]. clear J. induction St as [|a b _ IH E]; [exact (It z Iz)|]. apply Cl. exact (X a b (IH) E).
  Qed.
End Bfs.
