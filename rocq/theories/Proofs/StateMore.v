(** [take_closure] as a whole, and the contents of state sets. *)
From Coq Require Import List Arith Lia Permutation NArith Sorted.
From Verif.Model Require Import Ord BTree Outcome Grammar Nullable State.
From Verif.Spec Require Import Reach NullSpec StateSpec BuildSpec.
From Verif.Proofs Require Import OrdFacts BTreeFacts LoopFacts GrammarFacts NullableFacts StateFacts.
Import ListNotations.

Section Closure.
  Context {T NT AK AV : Type}.
  Variable lay : layout NT.
  Local Notation PS := (ProdState T NT AK AV).
  #[local] Hint Extern 0 (Ord (ProdState _ _ _ _)) => exact (Ord_ProdState lay) : typeclass_instances.
  #[local] Existing Instance TotalPre_PS.

  Lemma take_closure_logged {St} (F : PS -> St -> list PS * St) s st n s' st' :
    take_closure lay F s st n = Ret (s', st') <->
    exists calls, take_closure lay (logged F) s (st, []) n = Ret (s', (st', calls)).
  Proof.
    unfold take_closure. pose proof (tc_loop_logged lay F n s s st []) as L.
    destruct (tc_loop lay F n s s st) as [[s1 st1]|m|].
    - destruct L as [l' E]. rewrite E. split.
      + intros [= -> ->]. exists l'. reflexivity.
      + intros (c & [= -> -> ->]). reflexivity.
    - destruct L.
    - rewrite L. split; [discriminate | intros (c & [=])].
  Qed.

  Lemma take_closure_facts {St} (F : PS -> St -> list PS * St) s st n s' st' calls :
    sorted s -> take_closure lay (logged F) s (st, []) n = Ret (s', (st', calls)) ->
    sorted s' /\ incl s s' /\ Permutation (map fst calls) s' /\
    (forall x ys y, In (x, ys) calls -> In y ys -> exists z, In z s' /\ ps_eqb lay y z = true) /\
    (forall y, In y s' -> In y s \/ exists x ys, In (x, ys) calls /\ In y ys).
  Proof.
    intros Ss E. unfold take_closure in E.
    destruct (tc_loop_spec lay F s n s s st [] s' st' calls E Ss Ss (Permutation_refl _)) as
      (A1 & A2 & A3 & A4 & A5).
    - intros x ys [].
    - intros y I. left. exact I.
    - split; [exact A1|]. split; [exact A2|]. split; [exact A3|]. split; [|exact A5].
      intros x ys y I Iy. apply (A4 x ys I) in Iy. apply bs_mem_iff in Iy.
      destruct Iy as (z & Iz & Ez). exists z. split; [exact Iz|].
      unfold ps_eqb, prod_eqb. unfold cmp, Ord_ProdState, prod_cmp in Ez.
      apply N.eqb_eq. apply N.compare_eq_iff. exact Ez.
  Qed.

  (** Every call's results come from the closure function. *)
  Lemma tc_round_calls {St} (F : PS -> St -> list PS * St) curr sets st l sets' st' l' :
    tc_round lay (logged F) curr (sets, (st, l)) = (sets', (st', l')) ->
    (forall x ys, In (x, ys) l -> exists st0, fst (F x st0) = ys) ->
    forall x ys, In (x, ys) l' -> exists st0, fst (F x st0) = ys.
  Proof.
    revert sets st l. induction curr as [|c curr IH]; intros sets st l E L.
    - unfold tc_round in E. simpl in E. injection E as <- <- <-. exact L.
    - rewrite (tc_round_cons lay) in E. unfold logged in E at 2 3. cbn [fst snd] in E.
      destruct (F c st) as [ys st1] eqn:Fc. cbn [fst snd] in E. refine (IH _ _ _ E _).
      intros x ys' I. apply in_app_or in I. destruct I as [I|[[= <- <-]|[]]]; [exact (L x ys' I)|].
      exists st. rewrite Fc. reflexivity.
  Qed.
  Lemma take_closure_calls {St} (F : PS -> St -> list PS * St) s st n s' st' calls :
    take_closure lay (logged F) s (st, []) n = Ret (s', (st', calls)) ->
    forall x ys, In (x, ys) calls -> exists st0, fst (F x st0) = ys.
  Proof.
    unfold take_closure.
    assert (G : forall n seen curr st l, tc_loop lay (logged F) n seen curr (st, l) = Ret (s', (st', calls)) ->
      (forall x ys, In (x, ys) l -> exists st0, fst (F x st0) = ys) ->
      forall x ys, In (x, ys) calls -> exists st0, fst (F x st0) = ys).
    { clear. induction n as [|n IH]; intros seen curr st l E L; [discriminate|]. cbn [tc_loop] in E.
      destruct (tc_round lay (logged F) curr ((seen, []), (st, l))) as [[seen1 next] [st1 l1]] eqn:R.
      pose proof (tc_round_calls _ _ _ _ _ _ _ _ R L) as L1. clear L. rename L1 into L. destruct next as [|a next].
      - injection E as <- <- <-. exact L.
      - exact (IH _ _ _ _ E L). }
    intro E. apply (G n s s st [] E). intros x ys [].
  Qed.

  (** Everything stays inside a predicate closed under the closure function. *)
  Section Term.
    Context {St : Type}.
    Variable F : PS -> St -> list PS * St.
    Variable R : PS -> Prop.
    Variable univ : list PS.
    Hypothesis closed : forall x st y, R x -> In y (fst (F x st)) -> R y.
    Hypothesis bounded : forall y, R y -> exists u, In u univ /\ ps_eqb lay y u = true.

    Lemma eqb_cmp (y u : PS) : ps_eqb lay y u = true <-> cmp y u = Eq.
    Proof.
      unfold ps_eqb, prod_eqb, cmp, Ord_ProdState, prod_cmp. rewrite N.eqb_eq, N.compare_eq_iff. reflexivity.
    Qed.

    Lemma seen_bound seen : sorted seen -> Forall R seen -> length seen <= length univ.
    Proof.
      intros Ss Fs.
      assert (B : forall (s : list PS) (v : list PS), sorted s ->
        (forall y, In y s -> exists u, In u v /\ cmp y u = Eq) -> length s <= length v).
      { clear. induction s as [|a s IH]; intros v Ss Hv; [simpl; lia|].
        destruct (Hv a (or_introl eq_refl)) as (u & Iu & Eu).
        apply in_split in Iu. destruct Iu as (v1 & v2 & ->).
        apply sorted_inv in Ss. destruct Ss as [Ss Fa]. rewrite Forall_forall in Fa.
        assert (length s <= length (v1 ++ v2)).
        { apply IH; [exact Ss|]. intros y Iy. destruct (Hv y (or_intror Iy)) as (w & Iw & Ew).
          exists w. split; [|exact Ew]. apply in_app_or in Iw. apply in_or_app.
          destruct Iw as [Iw|[<-|Iw]]; auto. exfalso. pose proof (Fa y Iy) as Lt_.
          rewrite (cmp_eq_compat a u y Eu) in Lt_. rewrite cmp_sym, Ew in Lt_. discriminate. }
        rewrite app_length in *. simpl. lia. }
      apply B; [exact Ss|]. intros y Iy. rewrite Forall_forall in Fs.
      destruct (bounded y (Fs y Iy)) as (u & Iu & Eu). exists u. split; [exact Iu|]. apply eqb_cmp. exact Eu.
    Qed.

    Lemma tc_visit_R ys (seen next : list PS) : Forall R ys -> Forall R seen -> Forall R next ->
      Forall R (fst (tc_visit lay ys (seen, next))) /\ Forall R (snd (tc_visit lay ys (seen, next))).
    Proof.
      revert seen next. induction ys as [|y ys IH]; intros seen next Fy Fs Fn; [simpl; auto|].
      inversion Fy as [|? ? Ry Fy']; subst. unfold tc_visit. cbn [fold_left]. unfold bs_insert at 2 4.
      fold (tc_visit lay ys). destruct (negb (bs_mem y seen)); apply IH; auto; apply Forall_bs_add; auto.
    Qed.

    Lemma tc_round_R curr (seen next : list PS) st : Forall R curr -> Forall R seen -> Forall R next ->
      let r := tc_round lay F curr ((seen, next), st) in Forall R (fst (fst r)) /\ Forall R (snd (fst r)).
    Proof.
      revert seen next st. induction curr as [|c curr IH]; intros seen next st Fc Fs Fn; [simpl; auto|].
      inversion Fc as [|? ? Rc Fc']; subst. cbv zeta. pose proof (tc_round_cons lay F c curr (seen, next) st) as E0. unfold ProdStateSet, btset in *. rewrite E0. clear E0.
      destruct (tc_visit_R (fst (F c st)) seen next) as [A B]; auto.
      { apply Forall_forall. intros y Iy. exact (closed c st y Rc Iy). }
      destruct (tc_visit lay (fst (F c st)) (seen, next)) as [seen1 next1]. apply IH; auto.
    Qed.

    Lemma tc_round_sorted curr (seen next base : list PS) st :
      sorted seen -> sorted next -> Permutation (base ++ next) seen ->
      let r := tc_round lay F curr ((seen, next), st) in
      sorted (fst (fst r)) /\ sorted (snd (fst r)) /\ Permutation (base ++ snd (fst r)) (fst (fst r)).
    Proof.
      revert seen next st. induction curr as [|c curr IH]; intros seen next st Ss Sn P; [simpl; auto|].
      cbv zeta. pose proof (tc_round_cons lay F c curr (seen, next) st) as E0. unfold ProdStateSet, btset in *. rewrite E0. clear E0.
      destruct (tc_visit lay (fst (F c st)) (seen, next)) as [seen1 next1] eqn:V.
      destruct (tc_visit_spec lay _ seen next base seen1 next1 V Ss Sn P) as (A1 & A2 & A3 & _).
      apply IH; auto.
    Qed.

    Lemma tc_loop_terminates n seen curr st :
      sorted seen -> Forall R seen -> Forall R curr -> length univ < n + length seen ->
      tc_loop lay F n seen curr st <> NoFuel.
    Proof.
      revert seen curr st. induction n as [|n IH]; intros seen curr st Ss Fs Fc L.
      - pose proof (seen_bound seen Ss Fs). lia.
      - cbn [tc_loop].
        destruct (tc_round_sorted curr seen [] seen st Ss sorted_nil) as (A1 & A2 & A3).
        { rewrite app_nil_r. apply Permutation_refl. }
        destruct (tc_round_R curr seen [] st Fc Fs (Forall_nil _)) as (B1 & B2).
        unfold ProdStateSet, btset in *.
        destruct (tc_round lay F curr (seen, [], st)) as [[seen1 next] st1]. cbn [fst snd] in *.
        destruct next as [|x next]; [discriminate|]. apply IH; auto.
        apply Permutation_length in A3. rewrite app_length in A3. simpl in A3. lia.
    Qed.

    Lemma take_closure_terminates s st : sorted s -> Forall R s ->
      exists s' st', runs_to (take_closure lay F s st) (Ret (s', st')).
    Proof.
      intros Ss Fs. unfold take_closure.
      pose proof (tc_loop_terminates (Datatypes.S (length univ)) s s st Ss Fs Fs) as N.
      pose proof (tc_loop_logged lay F (Datatypes.S (length univ)) s s st []) as Lg.
      destruct (tc_loop lay F (Datatypes.S (length univ)) s s st) as [[s' st']|m|] eqn:E.
      - exists s', st'. apply (runs_to_mono (fun n => tc_loop lay F n s s st) (Datatypes.S (length univ)));
          [apply tc_loop_mono | exact E | discriminate].
      - destruct Lg.
      - exfalso. apply N; [lia | reflexivity].
    Qed.
  End Term.
End Closure.
