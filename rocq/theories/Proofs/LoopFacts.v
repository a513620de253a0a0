(** Facts about the loop combinators of [Model/Utils.v]. *)
From Coq Require Import List Arith Lia Wellfounded.
From Verif.Model Require Import Ord BTree Outcome Utils.
Import ListNotations.

Lemma runs_to_intro {A} (f : nat -> outcome A) r n :
  r <> NoFuel -> (forall fuel, n <= fuel -> f fuel = r) -> runs_to f r.
Proof. intros N E. split; [exact N | exists n; exact E]. Qed.

Lemma runs_to_fun {A} (f : nat -> outcome A) r1 r2 : runs_to f r1 -> runs_to f r2 -> r1 = r2.
Proof.
  intros [_ [n1 E1]] [_ [n2 E2]]. rewrite <- (E1 (n1 + n2)), <- (E2 (n1 + n2)); [reflexivity|lia..].
Qed.

Lemma runs_to_ext {A} (f g : nat -> outcome A) r :
  (forall n, f n = g n) -> runs_to f r -> runs_to g r.
Proof. intros E [N [n H]]. split; [exact N|]. exists n. intros m L. rewrite <- E. auto. Qed.

(** [f] is monotone in fuel: a finished result stays. *)
Definition fuel_mono {A} (f : nat -> outcome A) : Prop :=
  forall n m, n <= m -> f n <> NoFuel -> f m = f n.

Lemma runs_to_mono {A} (f : nat -> outcome A) n r :
  fuel_mono f -> f n = r -> r <> NoFuel -> runs_to f r.
Proof.
  intros M E N. split; [exact N|]. exists n. intros fuel L. rewrite (M n fuel L); congruence.
Qed.

Lemma runs_to_eq {A} (f : nat -> outcome A) n r r' :
  fuel_mono f -> runs_to f r -> f n = r' -> r' <> NoFuel -> r' = r.
Proof. intros M R E N. apply (runs_to_fun f r' r); [|exact R]. exact (runs_to_mono f n r' M E N). Qed.

Lemma runs_to_bind {A B} (f : nat -> outcome A) (k : nat -> A -> outcome B) a r :
  runs_to f (Ret a) -> runs_to (fun n => k n a) r -> runs_to (fun n => obind (f n) (k n)) r.
Proof.
  intros [_ [n E]] [N [m E']]. split; [exact N|]. exists (n + m). intros fuel L.
  rewrite E by lia. simpl. apply E'. lia.
Qed.

Lemma runs_to_bind_panic {A B} (f : nat -> outcome A) (k : nat -> A -> outcome B) msg :
  runs_to f (Panic msg) -> runs_to (fun n => obind (f n) (k n)) (Panic msg).
Proof.
  intros [_ [n E]]. split; [discriminate|]. exists n. intros fuel L. rewrite E by lia. reflexivity.
Qed.

Lemma runs_to_ret {A} (a : A) : runs_to (fun _ => Ret a) (Ret a).
Proof. split; [discriminate|]. exists 0. reflexivity. Qed.
Lemma runs_to_const {A} (r : outcome A) : r <> NoFuel -> runs_to (fun _ => r) r.
Proof. intro N. split; [exact N|]. exists 0. reflexivity. Qed.

Lemma fuel_mono_const {A} (r : outcome A) : fuel_mono (fun _ => r).
Proof. intros n m _ _. reflexivity. Qed.

Lemma fuel_mono_bind {A B} (f : nat -> outcome A) (k : nat -> A -> outcome B) :
  fuel_mono f -> (forall a, fuel_mono (fun n => k n a)) -> fuel_mono (fun n => obind (f n) (k n)).
Proof.
  intros Mf Mk n m L N. destruct (f n) as [a| |] eqn:E; simpl in N.
  - rewrite (Mf n m L) by congruence. rewrite E. simpl. apply (Mk a n m L N).
  - rewrite (Mf n m L) by congruence. rewrite E. reflexivity.
  - congruence.
Qed.

Section ChangeLoop.
  Context {St : Type}.
  Variable func : St -> outcome (WasChanged * St).

  Lemma change_loop_mono s : fuel_mono (fun n => change_loop func n s).
  Proof.
    intros n. revert s. induction n as [|n IH]; intros s m L N; [simpl in N; congruence|].
    destruct m as [|m]; [lia|]. cbn [change_loop] in *.
    destruct (func s) as [[[] s']| |]; simpl in *; try reflexivity.
    apply (IH s' m); [lia | exact N].
  Qed.

  (** Total correctness with an invariant and a well-founded decrease on [Changed]. *)
  Lemma change_loop_wf (I : St -> Prop) (R : St -> St -> Prop) (Post : St -> Prop)
    (PPost : String.string -> Prop) :
    well_founded R ->
    (forall s, I s ->
      match func s with
      | Ret (Changed, s') => I s' /\ R s' s
      | Ret (Unchanged, s') => Post s'
      | Panic m => PPost m
      | NoFuel => False
      end) ->
    forall s, I s ->
    exists r, runs_to (fun n => change_loop func n s) r /\
      match r with Ret s' => Post s' | Panic m => PPost m | NoFuel => False end.
  Proof.
    intros W Step s. induction (W s) as [s _ IH]. intro Is.
    pose proof (Step s Is) as St_. destruct (func s) as [[[] s']|m|] eqn:F.
    - destruct St_ as [I' R']. destruct (IH s' R' I') as (r & Rr & P).
      exists r. split; [|exact P]. destruct Rr as [N [n E]]. split; [exact N|].
      exists (S n). intros [|fuel] L; [lia|]. cbn [change_loop]. rewrite F. simpl. apply E. lia.
    - exists (Ret s'). split; [|exact St_]. split; [discriminate|]. exists 1.
      intros [|fuel] L; [lia|]. cbn [change_loop]. rewrite F. reflexivity.
    - exists (Panic m). split; [|exact St_]. split; [discriminate|]. exists 1.
      intros [|fuel] L; [lia|]. cbn [change_loop]. rewrite F. reflexivity.
    - destruct St_.
  Qed.

  (** The same with a natural-number measure and no panics. *)
  Lemma change_loop_measure (I : St -> Prop) (mu : St -> nat) (Post : St -> Prop) :
    (forall s, I s -> exists c s', func s = Ret (c, s') /\
       match c with Changed => I s' /\ mu s' < mu s | Unchanged => Post s' end) ->
    forall s, I s ->
    exists s', runs_to (fun n => change_loop func n s) (Ret s') /\ Post s'.
  Proof.
    intros Step s Is.
    destruct (change_loop_wf I (fun a b => mu a < mu b) Post (fun _ => False)) with (s := s)
      as (r & Rr & P); auto.
    - apply (well_founded_lt_compat St mu). auto.
    - intros s0 I0. destruct (Step s0 I0) as (c & s' & F & C). rewrite F. destruct c; exact C.
    - destruct r as [s'| |]; [exists s'; auto | destruct P..].
  Qed.

  (** Partial correctness. *)
  Lemma change_loop_inv (I : St -> Prop) :
    (forall s c s', I s -> func s = Ret (c, s') -> I s') ->
    forall n s s', I s -> change_loop func n s = Ret s' ->
    I s' /\ exists s0, I s0 /\ func s0 = Ret (Unchanged, s').
  Proof.
    intros P n. induction n as [|n IH]; intros s s' Is E; [discriminate|].
    cbn [change_loop] in E. destruct (func s) as [[c s1]| |] eqn:F; simpl in E; try discriminate.
    destruct c.
    - apply (IH s1 s'); [exact (P _ _ _ Is F) | exact E].
    - injection E as <-. split; [exact (P _ _ _ Is F)|]. exists s. auto.
  Qed.
End ChangeLoop.

Section ChangeIter.
  Context {St I : Type}.
  Variable func : I -> St -> outcome (WasChanged * St).

  Lemma wc_join_Changed a b : wc_join a b = Changed <-> a = Changed \/ b = Changed.
  Proof. destruct a, b; simpl; intuition congruence. Qed.
  Lemma wc_join_Unchanged a b : wc_join a b = Unchanged <-> a = Unchanged /\ b = Unchanged.
  Proof. destruct a, b; simpl; intuition congruence. Qed.

  Lemma change_iter_from_app c l1 l2 s :
    change_iter_from func c (l1 ++ l2) s =
    ('(c', s') <- change_iter_from func c l1 s ;; change_iter_from func c' l2 s').
  Proof.
    revert c s. induction l1 as [|x l1 IH]; intros c s; [reflexivity|].
    cbn [app change_iter_from]. destruct (func x s) as [[d s']| |]; simpl; [apply IH|reflexivity..].
  Qed.

  Lemma change_iter_from_join c l s :
    change_iter_from func c l s =
    ('(c', s') <- change_iter_from func Unchanged l s ;; Ret (wc_join c c', s')).
  Proof.
    revert c s. induction l as [|x l IH]; intros c s.
    - simpl. destruct c; reflexivity.
    - cbn [change_iter_from]. destruct (func x s) as [[d s']| |]; simpl; try reflexivity.
      rewrite IH. rewrite (IH (wc_join Unchanged d)). destruct (change_iter_from func Unchanged l s') as [[e s'']| |];
        simpl; try reflexivity. destruct c, d, e; reflexivity.
  Qed.

  (** Induction principle for a complete [change_iter]: a relation closed under single calls. *)
  Lemma change_iter_ind (P : WasChanged -> St -> Prop) :
    forall l c s,
    P c s ->
    (forall x c s, In x l -> P c s ->
       exists d s', func x s = Ret (d, s') /\ P (wc_join c d) s') ->
    exists c' s', change_iter_from func c l s = Ret (c', s') /\ P c' s'.
  Proof.
    induction l as [|x l IH]; intros c s Pcs Step.
    - exists c, s. split; [reflexivity | exact Pcs].
    - destruct (Step x c s (or_introl eq_refl) Pcs) as (d & s' & F & P').
      destruct (IH (wc_join c d) s' P') as (c' & s'' & E & P'').
      + intros y c0 s0 Iy. apply Step. right. exact Iy.
      + exists c', s''. split; [|exact P'']. cbn [change_iter_from]. rewrite F. exact E.
  Qed.
End ChangeIter.

Lemma filter_length_le {A} (f g : A -> bool) l :
  (forall x, In x l -> f x = true -> g x = true) -> length (filter f l) <= length (filter g l).
Proof.
  induction l as [|a l IH]; simpl; intro M; [lia|].
  assert (length (filter f l) <= length (filter g l)) by (apply IH; intros; apply M; auto).
  destruct (f a) eqn:Fa.
  - rewrite (M a (or_introl eq_refl) Fa). simpl. lia.
  - destruct (g a); simpl; lia.
Qed.
Lemma filter_length_lt {A} (f g : A -> bool) l x :
  (forall x, In x l -> f x = true -> g x = true) -> In x l -> f x = false -> g x = true ->
  length (filter f l) < length (filter g l).
Proof.
  induction l as [|a l IH]; simpl; intros M I Fx Gx; [destruct I|].
  assert (length (filter f l) <= length (filter g l)) by (apply filter_length_le; intros; apply M; auto).
  destruct I as [->|I].
  - rewrite Fx, Gx. simpl. lia.
  - assert (length (filter f l) < length (filter g l)) by (apply IH; auto).
    destruct (f a) eqn:Fa.
    + rewrite (M a (or_introl eq_refl) Fa). simpl. lia.
    + destruct (g a); simpl; lia.
Qed.

(** [change_loop (change_iter func l)]: saturation with a bounded measure. *)
Section Saturate.
  Context {St I : Type}.
  Variable func : I -> St -> outcome (WasChanged * St).
  Variable l : list I.
  Variable Inv : St -> Prop.
  Variable mu : St -> nat.
  Variable R : St -> St -> Prop.
  Variable PP : String.string -> Prop.
  Hypothesis R_refl : forall s, R s s.
  Hypothesis R_trans : forall s t u, R s t -> R t u -> R s u.
  Hypothesis step : forall x s, In x l -> Inv s ->
    match func x s with
    | Ret (c, s') => Inv s' /\ mu s' <= mu s /\
        match c with Changed => mu s' < mu s | Unchanged => R s s' end
    | Panic m => PP m
    | NoFuel => False
    end.

  Lemma saturate_iter l' c s : incl l' l -> Inv s ->
    match change_iter_from func c l' s with
    | Ret (c', s') => Inv s' /\ mu s' <= mu s /\
        match c' with
        | Changed => c = Changed \/ mu s' < mu s
        | Unchanged => R s s' /\ forall x, In x l' ->
            exists s1 s2, Inv s1 /\ R s1 s' /\ R s2 s' /\ func x s1 = Ret (Unchanged, s2)
        end
    | Panic m => PP m
    | NoFuel => False
    end.
  Proof.
    revert c s. induction l' as [|x l' IH]; intros c s Sub Is; cbn [change_iter_from].
    - split; [exact Is|]. split; [lia|]. destruct c; [auto|]. split; [apply R_refl|]. intros x [].
    - pose proof (step x s (Sub x (or_introl eq_refl)) Is) as S1.
      destruct (func x s) as [[d s1]|m|] eqn:F; cbn [obind]; [|exact S1|exact S1].
      destruct S1 as (I1 & L1 & D1).
      specialize (IH (wc_join c d) s1 (fun y Y => Sub y (or_intror Y)) I1).
      destruct (change_iter_from func (wc_join c d) l' s1) as [[c' s']|m|] eqn:F'; [|exact IH|exact IH].
      destruct IH as (I' & L' & D'). split; [exact I'|]. split; [lia|].
      destruct c'.
      + destruct D' as [D'|D']; [|right; lia]. apply wc_join_Changed in D'. destruct D' as [-> | ->]; [auto|].
        right. lia.
      + destruct D' as [R' D'].
        assert (Ed : d = Unchanged).
        { destruct d; [|reflexivity]. exfalso.
          assert (X : exists s2, change_iter_from func Changed l' s1 = Ret (Unchanged, s2)).
          { exists s'. destruct c; exact F'. }
          destruct X as (s2 & X). rewrite change_iter_from_join in X.
          destruct (change_iter_from func Unchanged l' s1) as [[e s3]| |]; cbn [obind] in X;
            try discriminate. }
        subst d. split; [exact (R_trans _ _ _ D1 R')|]. intros y [<-|Y]; [|exact (D' y Y)].
        exists s, s1. split; [exact Is|]. split; [exact (R_trans _ _ _ D1 R')|]. split; [exact R'|exact F].
  Qed.

  Lemma saturate s : Inv s ->
    exists r, runs_to (fun n => change_loop (change_iter func l) n s) r /\
      match r with
      | Ret s' => Inv s' /\ forall x, In x l ->
          exists s1 s2, Inv s1 /\ R s1 s' /\ R s2 s' /\ func x s1 = Ret (Unchanged, s2)
      | Panic m => PP m
      | NoFuel => False
      end.
  Proof.
    intro Is.
    destruct (change_loop_wf (change_iter func l) Inv (fun a b => mu a < mu b)
      (fun s' => Inv s' /\ forall x, In x l ->
          exists s1 s2, Inv s1 /\ R s1 s' /\ R s2 s' /\ func x s1 = Ret (Unchanged, s2)) PP) with (s := s)
      as (r & Rr & P).
    - apply (well_founded_lt_compat St mu). auto.
    - intros s0 I0. pose proof (saturate_iter l Unchanged s0 (incl_refl l) I0) as S0.
      unfold change_iter. destruct (change_iter_from func Unchanged l s0) as [[[] s1]|m|].
      + destruct S0 as (I1 & _ & [X|X]); [discriminate|auto].
      + destruct S0 as (I1 & _ & _ & D). auto.
      + exact S0.
      + exact S0.
    - exact Is.
    - exists r. split; [exact Rr|]. exact P.
  Qed.

  (** The number of rounds. *)
  Lemma saturate_bound : forall n s, Inv s -> mu s < n -> change_loop (change_iter func l) n s <> NoFuel.
  Proof.
    induction n as [|n IH]; intros s Is L; [lia|]. cbn [change_loop].
    pose proof (saturate_iter l Unchanged s (incl_refl l) Is) as S0. unfold change_iter in *.
    destruct (change_iter_from func Unchanged l s) as [[[] s1]|m|]; cbn [obind]; try discriminate; [|destruct S0].
    destruct S0 as (I1 & _ & [X|X]); [discriminate|]. apply IH; [exact I1|lia].
  Qed.
End Saturate.
