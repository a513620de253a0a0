(** Production states and sets of them. *)
From Coq Require Import List Arith Lia Permutation NArith Sorted.
From Verif.Model Require Import Ord BTree Outcome Grammar Nullable State.
From Verif.Spec Require Import Reach NullSpec StateSpec.
From Verif.Proofs Require Import OrdFacts BTreeFacts LoopFacts GrammarFacts NullableFacts.
Import ListNotations.

Section Positions.
  Context {T NT AK AV : Type} `{OrdEq T} `{OrdEq NT}.
  Local Notation PS := (ProdState T NT AK AV).

  Lemma next_elem_state_iff (s : PS) e s' :
    next_elem_state s = Some (e, s') <->
    nth_error (prod_elements (ps_prod s)) (ps_index s) = Some e /\
    ps_prod s' = ps_prod s /\ ps_index s' = Datatypes.S (ps_index s).
  Proof.
    unfold next_elem_state, next_prod_elem, offset_prod_elem. rewrite Nat.add_0_r.
    destruct (nth_error _ _) as [x|]; simpl.
    - split.
      + intros [= -> <-]. simpl. repeat split. lia.
      + intros ([= ->] & E1 & E2). destruct s' as [p i]. simpl in *. subst. do 3 f_equal. lia.
    - split; [discriminate | intros ([=] & _)].
  Qed.

  Lemma next_elem_state_None (s : PS) :
    next_elem_state s = None <-> length (prod_elements (ps_prod s)) <= ps_index s.
  Proof.
    unfold next_elem_state, next_prod_elem, offset_prod_elem. rewrite Nat.add_0_r.
    rewrite <- nth_error_None. destruct (nth_error _ _); simpl; split; congruence.
  Qed.

  Lemma advance_if_iff (s : PS) e s' :
    advance_if s e = Some s' <-> exists pe, next_elem_state s = Some (pe, s') /\ pe_elem pe = e.
  Proof.
    unfold advance_if. destruct (next_elem_state s) as [[pe s1]|].
    - unfold eqb. destruct (cmp (pe_elem pe) e) eqn:C.
      + apply cmp_eq in C. split.
        * intros [= ->]. exists pe. auto.
        * intros (pe' & [= -> ->] & _). reflexivity.
      + split; [discriminate|]. intros (pe' & [= -> ->] & E). rewrite E, cmp_refl in C. discriminate.
      + split; [discriminate|]. intros (pe' & [= -> ->] & E). rewrite E, cmp_refl in C. discriminate.
    - split; [discriminate | intros (? & [=] & _)].
  Qed.

  Lemma position_inv p (s : PS) : position p s -> ps_prod s = p /\ ps_index s <= length (prod_elements p).
  Proof.
    induction 1 as [|s e s' _ [E L] N|s e s' _ [E L] A].
    - simpl. split; [reflexivity | lia].
    - apply next_elem_state_iff in N. destruct N as (N & E1 & E2).
      assert (ps_index s < length (prod_elements (ps_prod s))) by (apply nth_error_Some; congruence).
      split; [congruence|]. rewrite E in *. lia.
    - apply advance_if_iff in A. destruct A as (pe & N & _).
      apply next_elem_state_iff in N. destruct N as (N & E1 & E2).
      assert (ps_index s < length (prod_elements (ps_prod s))) by (apply nth_error_Some; congruence).
      split; [congruence|]. rewrite E in *. lia.
  Qed.

  Lemma position_all p i : i <= length (prod_elements p) -> position p (Build_ProdState p i : PS).
  Proof.
    induction i as [|i IH]; intro L; [apply pos_start|].
    destruct (nth_error (prod_elements p) i) as [e|] eqn:N.
    - apply (pos_next p (Build_ProdState p i) e); [apply IH; lia|].
      apply next_elem_state_iff. simpl. auto.
    - apply nth_error_None in N. lia.
  Qed.

  Lemma skipn_nth {A} (l : list A) i e : nth_error l i = Some e -> skipn i l = e :: skipn (Datatypes.S i) l.
  Proof.
    revert i. induction l as [|a l IH]; intros [|i] N; simpl in *; try discriminate.
    - congruence.
    - apply IH. exact N.
  Qed.

  Lemma reads_skipn (s : PS) l : reads s l <-> l = skipn (ps_index s) (prod_elements (ps_prod s)).
  Proof.
    split.
    - induction 1 as [s N|s e s' l N _ IH].
      + apply next_elem_state_None in N. symmetry. apply skipn_all2. exact N.
      + apply next_elem_state_iff in N. destruct N as (N & E1 & E2). rewrite E1, E2 in IH.
        rewrite (skipn_nth _ _ _ N). congruence.
    - revert s. induction l as [|e l IH]; intros s E.
      + apply reads_end. apply next_elem_state_None.
        destruct (le_lt_dec (length (prod_elements (ps_prod s))) (ps_index s)) as [L|L]; [exact L|].
        assert (length (skipn (ps_index s) (prod_elements (ps_prod s))) = 0) by (rewrite <- E; reflexivity).
        rewrite skipn_length in *. lia.
      + destruct (nth_error (prod_elements (ps_prod s)) (ps_index s)) as [e'|] eqn:N.
        * rewrite (skipn_nth _ _ _ N) in E. injection E as -> ->.
          apply (reads_more s e' (Build_ProdState (ps_prod s) (Datatypes.S (ps_index s)))).
          -- apply next_elem_state_iff. simpl. auto.
          -- apply IH. reflexivity.
        * apply nth_error_None in N. rewrite skipn_all2 in E by exact N. discriminate.
  Qed.
End Positions.

Section Closure.
  Context {T NT AK AV : Type}.
  Variable lay : layout NT.
  Local Notation PS := (ProdState T NT AK AV).
  #[local] Hint Extern 0 (Ord (ProdState _ _ _ _)) => exact (Ord_ProdState lay) : typeclass_instances.

  Instance TotalPre_PS : @TotalPre PS (Ord_ProdState lay).
  Proof.
    constructor; unfold cmp, Ord_ProdState, prod_cmp.
    - intro x. apply N.compare_refl.
    - intros x y. apply N.compare_antisym.
    - intros x y z. rewrite !N.compare_lt_iff. lia.
    - intros x y z E. apply N.compare_eq_iff in E. rewrite E. reflexivity.
  Qed.

  Lemma bs_add_perm k (s : list PS) : bs_mem k s = false -> Permutation (bs_add k s) (k :: s).
  Proof.
    induction s as [|a s IH]; simpl; intro M; [apply Permutation_refl|].
    destruct (cmp k a) eqn:C; try discriminate; [apply Permutation_refl|].
    rewrite IH by exact M. apply perm_swap.
  Qed.

  (** One call's worth of new states. *)
  Lemma tc_visit_spec ys (seen next base : list PS) seen' next' :
    tc_visit lay ys (seen, next) = (seen', next') ->
    sorted seen -> sorted next -> Permutation (base ++ next) seen ->
    sorted seen' /\ sorted next' /\ Permutation (base ++ next') seen' /\ incl seen seen' /\
    (forall y, In y ys -> bs_mem y seen' = true) /\
    (forall y, In y seen' -> In y seen \/ In y ys).
  Proof.
    revert seen next. induction ys as [|y ys IH]; intros seen next E Ss Sn P.
    - unfold tc_visit in E. simpl in E. injection E as <- <-. repeat split; auto using incl_refl.
    - unfold tc_visit in E. cbn [fold_left] in E.
      fold (tc_visit lay ys) in E. unfold bs_insert in E.
      destruct (bs_mem y seen) eqn:M; cbn [negb] in E.
      + rewrite (bs_add_mem_id y seen Ss M) in E.
        destruct (IH seen next E Ss Sn P) as (A1 & A2 & A3 & A4 & A5 & A6).
        split; [exact A1|]. split; [exact A2|]. split; [exact A3|]. split; [exact A4|]. split.
        * intros z [<-|I]; [|exact (A5 z I)]. apply bs_mem_iff in M. destruct M as (w & Iw & Ew).
          apply bs_mem_iff. exists w. split; [exact (A4 w Iw) | exact Ew].
        * intros z I. destruct (A6 z I); simpl; auto.
      + assert (Mn : bs_mem y next = false).
        { destruct (bs_mem y next) eqn:Mn; [|reflexivity]. apply bs_mem_iff in Mn.
          destruct Mn as (w & Iw & Ew). assert (bs_mem y seen = true); [|congruence].
          apply bs_mem_iff. exists w. split; [|exact Ew]. apply (Permutation_in _ P).
          apply in_or_app. auto. }
        destruct (IH (bs_add y seen) (bs_add y next) E) as (A1 & A2 & A3 & A4 & A5 & A6).
        * apply bs_add_sorted. exact Ss.
        * apply bs_add_sorted. exact Sn.
        * rewrite (bs_add_perm y seen M), (bs_add_perm y next Mn).
          rewrite <- Permutation_middle. apply perm_skip. exact P.
        * split; [exact A1|]. split; [exact A2|]. split; [exact A3|]. split.
          { intros z I. apply A4. apply bs_add_In_old. exact I. }
          split.
          -- intros z [<-|I]; [|exact (A5 z I)]. apply bs_mem_In. apply A4.
             apply bs_add_In_new. exact M.
          -- intros z I. destruct (A6 z I) as [I'|I']; [|simpl; auto].
             apply bs_add_In_inv in I'. simpl. destruct I' as [-> |]; auto.
  Qed.

  Section Loop.
    Context {St : Type}.
    Variable F : PS -> St -> list PS * St.
    Local Notation log := (list (PS * list PS)).

    (** What is known of a recorded call. *)
    Definition log_ok (seen : list PS) (l : log) : Prop :=
      forall x ys, In (x, ys) l -> forall y, In y ys -> bs_mem y seen = true.
    Definition log_src (s0 seen : list PS) (l : log) : Prop :=
      forall y, In y seen -> In y s0 \/ exists x ys, In (x, ys) l /\ In y ys.

    Lemma log_ok_mono seen seen' l : incl seen seen' -> log_ok seen l -> log_ok seen' l.
    Proof.
      intros I L x ys Ix y Iy. apply (L x ys Ix) in Iy. apply bs_mem_iff in Iy.
      destruct Iy as (w & Iw & Ew). apply bs_mem_iff. exists w. auto.
    Qed.

    Lemma tc_round_spec s0 curr (seen next base : list PS) st l seen' next' st' l' :
      tc_round lay (logged F) curr ((seen, next), (st, l)) = ((seen', next'), (st', l')) ->
      sorted seen -> sorted next -> Permutation (base ++ next) seen ->
      log_ok seen l -> log_src s0 seen l ->
      sorted seen' /\ sorted next' /\ Permutation (base ++ next') seen' /\ incl seen seen' /\
      log_ok seen' l' /\ log_src s0 seen' l' /\ map fst l' = map fst l ++ curr.
    Proof.
      revert seen next st l. induction curr as [|c curr IH]; intros seen next st l E Ss Sn P Lo Ls.
      - unfold tc_round in E. simpl in E. injection E as <- <- <- <-. rewrite app_nil_r.
        repeat split; auto using incl_refl.
      - unfold tc_round in E. cbn [fold_left] in E. fold (tc_round lay (logged F) curr) in E.
        unfold logged at 2 in E. cbn [fst snd] in E.
        destruct (F c st) as [ys st1] eqn:Fc.
        destruct (tc_visit lay ys (seen, next)) as [seen1 next1] eqn:V.
        destruct (tc_visit_spec ys seen next base seen1 next1 V Ss Sn P) as (A1 & A2 & A3 & A4 & A5 & A6).
        destruct (IH seen1 next1 st1 (l ++ [(c, ys)]) E A1 A2 A3) as (B1 & B2 & B3 & B4 & B5 & B6 & B7).
        + intros x ys' I y Iy. apply in_app_or in I. destruct I as [I|[[= <- <-]|[]]].
          * exact (log_ok_mono _ _ _ A4 Lo x ys' I y Iy).
          * exact (A5 y Iy).
        + intros y I. destruct (A6 y I) as [I'|I'].
          * destruct (Ls y I') as [|(x & ys' & I1 & I2)]; [auto|]. right. exists x, ys'.
            split; [apply in_or_app; auto | exact I2].
          * right. exists c, ys. split; [apply in_or_app; right; left; reflexivity | exact I'].
        + split; [exact B1|]. split; [exact B2|]. split; [exact B3|].
          split; [exact (incl_tran A4 B4)|]. split; [exact B5|]. split; [exact B6|].
          rewrite B7, map_app. simpl. rewrite <- app_assoc. reflexivity.
    Qed.

    Lemma tc_loop_spec s0 n seen curr st l s' st' l' :
      tc_loop lay (logged F) n seen curr (st, l) = Ret (s', (st', l')) ->
      sorted seen -> sorted curr -> Permutation (map fst l ++ curr) seen ->
      log_ok seen l -> log_src s0 seen l ->
      sorted s' /\ incl seen s' /\ Permutation (map fst l') s' /\ log_ok s' l' /\ log_src s0 s' l'.
    Proof.
      revert seen curr st l. induction n as [|n IH]; intros seen curr st l E Ss Sc P Lo Ls; [discriminate|].
      cbn [tc_loop] in E.
      destruct (tc_round lay (logged F) curr ((seen, []), (st, l))) as [[seen1 next] [st1 l1]] eqn:R.
      destruct (tc_round_spec s0 curr seen [] seen st l seen1 next st1 l1 R Ss (sorted_nil)) as
        (A1 & A2 & A3 & A4 & A5 & A6 & A7).
      { rewrite app_nil_r. apply Permutation_refl. }
      { exact Lo. }
      { exact Ls. }
      assert (P1 : Permutation (map fst l1 ++ next) seen1).
      { rewrite A7. rewrite P. exact A3. }
      destruct next as [|x next].
      - injection E as <- <- <-. rewrite app_nil_r in P1. auto.
      - destruct (IH seen1 (x :: next) st1 l1 E A1 A2 P1 A5 A6) as (B1 & B2 & B3 & B4 & B5).
        split; [exact B1|]. split; [exact (incl_tran A4 B2)|]. auto.
    Qed.

    Lemma tc_loop_mono seen curr st : fuel_mono (fun n => tc_loop lay F n seen curr st).
    Proof.
      intros n. revert seen curr st. induction n as [|n IH]; intros seen curr st m L N; [simpl in N; congruence|].
      destruct m as [|m]; [lia|]. cbn [tc_loop] in *.
      destruct (tc_round lay F curr (seen, [], st)) as [[seen1 [|x next]] st1]; [reflexivity|].
      apply (IH seen1 (x :: next) st1 m); [lia | exact N].
    Qed.

    Lemma tc_round_cons {St'} (G : PS -> St' -> list PS * St') c curr sets st :
      tc_round lay G (c :: curr) (sets, st) =
      tc_round lay G curr (tc_visit lay (fst (G c st)) sets, snd (G c st)).
    Proof. unfold tc_round. cbn [fold_left]. destruct (G c st). reflexivity. Qed.

    (** Recording calls does not change the result. *)
    Lemma tc_round_logged curr sets st l : exists l',
      tc_round lay (logged F) curr (sets, (st, l)) =
      (fst (tc_round lay F curr (sets, st)), (snd (tc_round lay F curr (sets, st)), l')).
    Proof.
      revert sets st l. induction curr as [|c curr IH]; intros sets st l.
      - exists l. reflexivity.
      - rewrite !tc_round_cons. 
        assert (E1 : logged F c (st, l) = (fst (F c st), (snd (F c st), l ++ [(c, fst (F c st))]))).
        { unfold logged. cbn [fst snd]. destruct (F c st). reflexivity. }
        rewrite E1. cbn [fst snd]. apply IH.
    Qed.

    Lemma tc_loop_logged n seen curr st l :
      match tc_loop lay F n seen curr st with
      | Ret (s', st') => exists l', tc_loop lay (logged F) n seen curr (st, l) = Ret (s', (st', l'))
      | Panic m => False
      | NoFuel => tc_loop lay (logged F) n seen curr (st, l) = NoFuel
      end.
    Proof.
      revert seen curr st l. induction n as [|n IH]; intros seen curr st l; [reflexivity|].
      cbn [tc_loop]. destruct (tc_round_logged curr (seen, []) st l) as [l1 E1].
      unfold ProdStateSet, btset in *. rewrite E1. clear E1.
      destruct (tc_round lay F curr (seen, [], st)) as [[seen1 next] st1]. cbn [fst snd].
      destruct next as [|x next]; [eauto|]. apply IH.
    Qed.
  End Loop.
End Closure.
