(** [breadth_first_search] over values of which equal ones need not be identical. *)
From Coq Require Import List Arith Lia.
From Verif.Model Require Import Ord BTree Outcome Utils.
From Verif.Spec Require Import Reach.
From Verif.Proofs Require Import OrdFacts BTreeFacts LoopFacts UtilsFacts.
Import ListNotations.

Section S.
  Context {T : Type} `{TotalPre T}.
  (** The step function, with fuel. *)
  Variable f : nat -> T -> outcome (list T).
  Variable initial : list T.
  Local Notation edge := (fun x y => exists l, runs_to (fun n => f n x) (Ret l) /\ In y l).
  Local Notation reach0 := (fun y => exists x, In x initial /\ star edge x y).
  Local Notation reach1 := (fun y => exists x, In x initial /\ plus edge x y).
  Hypothesis Tot : forall x, reach0 x -> exists r, runs_to (fun n => f n x) r.

  Lemma mem_incl x (s s' : btset T) : incl s s' -> bs_mem x s = true -> bs_mem x s' = true.
  Proof. intros L M. apply bs_mem_iff in M. destruct M as (y & I & E). apply bs_mem_iff. exists y. auto. Qed.

  Lemma cvisit items : forall next seen next' seen' : btset T,
    bfs_visit items (next, seen) = (next', seen') -> sorted seen -> incl next seen ->
    sorted seen' /\ incl next' seen' /\ incl seen seen' /\ incl next next' /\
    length seen' + length next = length seen + length next' /\
    (forall x, In x seen' -> In x seen \/ (In x items /\ In x next')) /\
    (forall x, In x items -> bs_mem x seen' = true).
  Proof.
    induction items as [|i items IH]; intros next seen next' seen' E Ss L.
    - injection E as <- <-. split; [exact Ss|]. split; [exact L|]. split; [apply incl_refl|]. split; [apply incl_refl|]. split; [lia|]. split; [auto|intros x []].
    - cbn [bfs_visit fold_left] in E. destruct (bs_mem i seen) eqn:M.
      + destruct (IH _ _ _ _ E Ss L) as (A1 & A2 & A3 & A4 & A5 & A6 & A7). repeat (split; [assumption|]). split.
        * intros x X. destruct (A6 x X) as [Y|[Y Z]]; [auto|right; split; [right; exact Y|exact Z]].
        * intros x [<-|X]; [exact (mem_incl i seen seen' A3 M)|auto].
      + assert (Mn : bs_mem i next = false).
        { destruct (bs_mem i next) eqn:Q; [|reflexivity]. pose proof (mem_incl i _ _ L Q). congruence. }
        destruct (IH _ _ _ _ E) as (A1 & A2 & A3 & A4 & A5 & A6 & A7).
        * apply bs_add_sorted; exact Ss.
        * intros x X. apply bs_add_In_inv in X. destruct X as [->|X]; [apply bs_add_In_new; exact M|apply bs_add_In_old; auto].
        * split; [exact A1|]. split; [exact A2|]. split; [intros x X; apply A3, bs_add_In_old, X|]. split; [intros x X; apply A4, bs_add_In_old, X|].
          rewrite (bs_add_length_new i seen M), (bs_add_length_new i next Mn) in A5. split; [lia|]. split.
          -- intros x X. destruct (A6 x X) as [Y|[Y Z]]; [|right; split; [right; exact Y|exact Z]].
             apply bs_add_In_inv in Y. destruct Y as [->|Y]; [|auto]. right. split; [left; reflexivity|]. apply A4, bs_add_In_new, Mn.
          -- intros x [<-|X]; [|auto]. apply (mem_incl i (bs_add i seen)); [exact A3|]. apply bs_mem_add. left. apply cmp_refl.
  Qed.

  Lemma cround curr : forall next seen : btset T, (forall x, In x curr -> reach0 x) -> sorted seen -> incl next seen ->
    exists r, runs_to (fun n => bfs_round (f n) curr (next, seen)) r /\
    match r with
    | Ret (next', seen') => sorted seen' /\ incl next' seen' /\ incl seen seen' /\ incl next next' /\
        length seen' + length next = length seen + length next' /\
        (forall x, In x seen' -> In x seen \/ (In x next' /\ exists c, In c curr /\ edge c x)) /\
        (forall c, In c curr -> exists l, runs_to (fun n => f n c) (Ret l) /\ forall y, In y l -> bs_mem y seen' = true)
    | Panic m => exists c, In c curr /\ runs_to (fun n => f n c) (Panic m)
    | NoFuel => False
    end.
  Proof.
    induction curr as [|c curr IH]; intros next seen Rc Ss L; cbn [bfs_round].
    - exists (Ret (next, seen)). split; [split; [discriminate|exists 0; reflexivity]|].
      split; [exact Ss|]. split; [exact L|]. split; [apply incl_refl|]. split; [apply incl_refl|]. split; [lia|]. split; [auto|intros x []].
    - destruct (Tot c (Rc c (or_introl eq_refl))) as ([items|m|] & F).
      + destruct (bfs_visit items (next, seen)) as [next1 seen1] eqn:V. destruct (cvisit _ _ _ _ _ V Ss L) as (A1 & A2 & A3 & A4 & A5 & A6 & A7).
        destruct (IH next1 seen1 (fun x I => Rc x (or_intror I)) A1 A2) as (r & R & Sr). exists r.
        split; [apply (runs_to_bind (fun n => f n c) (fun n items => bfs_round (f n) curr (bfs_visit items (next, seen))) items r F); cbn beta; unfold btset in *; rewrite V; exact R|].
        destruct r as [[next' seen']|m|].
        * destruct Sr as (B1 & B2 & B3 & B4 & B5 & B6 & B7). split; [exact B1|]. split; [exact B2|].
          split; [eapply incl_tran; eassumption|]. split; [eapply incl_tran; eassumption|]. split; [lia|]. split.
          -- intros x X. destruct (B6 x X) as [Y|(Y & d & I & D)]; [|right; split; [exact Y|exists d; split; [right; exact I|exact D]]].
             destruct (A6 x Y) as [Z|[Z W]]; [auto|]. right. split; [apply B4, W|]. exists c. split; [left; reflexivity|exists items; auto].
          -- intros d [<-|I]; [|apply B7, I]. exists items. split; [exact F|]. intros y Y. exact (mem_incl y _ _ B3 (A7 y Y)).
        * destruct Sr as (d & I & D). exists d. split; [right; exact I|exact D].
        * exact Sr.
      + exists (Panic m). split; [|exists c; split; [left; reflexivity|exact F]].
        exact (runs_to_bind_panic (fun n => f n c) (fun n items => bfs_round (f n) curr (bfs_visit items (next, seen))) m F).
      + destruct F as [F _]. congruence.
  Qed.

  Definition cinv (curr seen : btset T) : Prop :=
    sorted seen /\ (forall x, In x curr -> reach0 x) /\ (forall x, In x seen -> reach1 x) /\
    (forall x, In x (bs_of_list initial) \/ In x seen -> In x curr \/ exists l, runs_to (fun n => f n x) (Ret l) /\ forall y, In y l -> bs_mem y seen = true).

  (** What the search returns. *)
  Definition cpost (r : outcome (btset T)) : Prop :=
    match r with
    | Ret s => sorted s /\ (forall y, In y s -> reach1 y) /\
        (forall x, In x (bs_of_list initial) \/ In x s -> exists l, runs_to (fun n => f n x) (Ret l) /\ forall y, In y l -> exists z, In z s /\ cmp y z = Eq)
    | Panic m => exists x, reach0 x /\ runs_to (fun n => f n x) (Panic m)
    | NoFuel => False
    end.
  Lemma cloop univ : (forall y, reach1 y -> In y univ) ->
    forall k curr seen, cinv curr seen -> length univ + 2 <= k + length seen \/ (curr = [] /\ 0 < k) ->
    exists r N, cpost r /\ forall n j, N <= n -> N <= j -> bfs_loop (f n) j curr seen = r.
  Proof.
    intros U. induction k as [|k IH]; intros curr seen I L.
    - exfalso. assert (length seen <= length univ); [|lia]. apply NoDup_incl_length; [apply sorted_NoDup, I|]. intros x X. apply U, I, X.
    - destruct curr as [|c curr].
      + exists (Ret seen), 1. split; [|intros n [|j] _ Lj; [lia|reflexivity]].
        destruct I as (S & _ & Sn & P). split; [exact S|]. split; [exact Sn|]. intros x X. destruct (P x X) as [[]|(l & F & Y)].
        exists l. split; [exact F|]. intros y I. apply bs_mem_iff, Y, I.
      + destruct (cround (c :: curr) [] seen (fun x X => proj1 (proj2 I) x X) (proj1 I) (incl_nil_l _)) as (r & [_ (N1 & R)] & Sr).
        destruct r as [[next' seen']|m|]; [| |destruct Sr].
        * destruct Sr as (B1 & B2 & B3 & B4 & B5 & B6 & B7). cbn [length] in B5.
          destruct I as (S & C & Sn & P).
          assert (Seen' : forall x, In x seen' -> reach1 x).
          { intros x X. destruct (B6 x X) as [Y|(_ & d & I & D)]; [auto|]. destruct (C d I) as (i & Ii & St). exists i. split; [exact Ii|]. exists d. auto. }
          assert (I' : cinv next' seen').
          { split; [exact B1|]. split; [|split; [exact Seen'|]].
            - intros x X. destruct (Seen' x (B2 x X)) as (i & Ii & Pl). exists i. split; [exact Ii|]. apply plus_star, Pl.
            - assert (K : forall x, In x (bs_of_list initial) \/ In x seen -> exists l, runs_to (fun n => f n x) (Ret l) /\ forall y, In y l -> bs_mem y seen' = true).
              { intros x X. destruct (P x X) as [Y|(l & F & Y)]; [apply B7, Y|]. exists l. split; [exact F|]. intros y I. exact (mem_incl y _ _ B3 (Y y I)). }
              intros x [X|X]; [right; apply K; auto|]. destruct (B6 x X) as [Y|[Y _]]; [right; apply K; auto|left; exact Y]. }
          destruct (IH next' seen' I') as (r & N2 & Pr & Q).
          { destruct L as [L|[L _]]; [|discriminate]. destruct next' as [|x next]; [|left; cbn [length] in B5; lia]. right. split; [reflexivity|].
            assert (length seen <= length univ); [|lia]. apply NoDup_incl_length; [apply sorted_NoDup, S|]. intros x X. apply U, Sn, X. }
          exists r, (Datatypes.S (N1 + N2)). split; [exact Pr|]. intros n [|j] Ln Lj; [lia|]. cbn [bfs_loop]. unfold btset in *. rewrite (R n) by lia. cbn [obind]. apply Q; lia.
        * exists (Panic m), (Datatypes.S N1). split; [destruct Sr as (d & Id & D); exists d; split; [apply I, Id|exact D]|].
          intros n [|j] Ln Lj; [lia|]. cbn [bfs_loop]. unfold btset in *. rewrite (R n) by lia. reflexivity.
  Qed.
  Lemma cinv_init : cinv (bs_of_list initial) [].
  Proof.
    assert (Q : forall x, In x (bs_of_list initial) -> In x initial).
    { intros x X. unfold bs_of_list in X. apply bs_extend_In_inv in X. destruct X as [X|[]]. exact X. }
    split; [apply sorted_nil|]. split; [|split].
    - intros x X. exists x. split; [apply Q, X|apply star_refl].
    - intros x [].
    - intros x [X|[]]. left. exact X.
  Qed.
  Lemma cbfs univ : (forall y, reach1 y -> In y univ) ->
    exists r, runs_to (fun n => breadth_first_search initial (f n) n) r /\ cpost r.
  Proof.
    intro U. destruct (cloop univ U (length univ + 2) (bs_of_list initial) [] cinv_init) as (r & N & P & Q); [left; cbn [length]; lia|].
    exists r. split; [|exact P]. split; [intros ->; exact P|]. exists N. intros n Ln. exact (Q n n Ln Ln).
  Qed.
End S.
