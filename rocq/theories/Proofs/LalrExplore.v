(** Collecting LALR states by shifting. *)
From Coq Require Import String List Arith Lia Bool NArith Sorted.
From Verif.Model Require Import Ord BTree Outcome Utils Grammar Nullable Firsts State Lalr Compare.
From Verif.Spec Require Import Reach Cfg BuildSpec NullSpec StateSpec LalrSpec AmbigSpec LalrExploreSpec.
From Verif.Proofs Require Import OrdFacts BTreeFacts LoopFacts UtilsFacts GrammarFacts NullableFacts CfgFacts
  FirstsFacts FollowsFacts FirstsMore StateFacts StateMore StateSets LalrFacts LalrMore LalrMain LalrActions CompareFacts CoarseBfs.
Import ListNotations.

(** All lists of at most [n] elements of [U]. *)
Fixpoint lists_upto {A} (U : list A) (n : nat) : list (list A) :=
  [] :: match n with 0 => [] | S n => flat_map (fun l => map (fun a => a :: l) U) (lists_upto U n) end.
Lemma lists_upto_In {A} (U : list A) : forall n l, length l <= n -> incl l U -> In l (lists_upto U n).
Proof.
  induction n as [|n IH]; intros [|a l] L I; cbn [lists_upto length] in *; try (left; reflexivity); [lia|].
  right. apply in_flat_map. exists l. split; [apply IH; [lia|]; intros x X; apply I; right; exact X|]. apply in_map_iff. exists a. split; [reflexivity|]. apply I. left. reflexivity.
Qed.

Section Explore.
  Context {T NT AK AV : Type} `{OrdEq T} `{OrdEq NT}.
  Variable lay : layout NT.
  Variable g : Grammar T NT AK AV.
  Hypothesis B : built g.
  Hypothesis Inj : lay_inj g lay.
  Variable kl : bool.
  Local Notation PS := (ProdState T NT AK AV).
  Local Notation Map := (btmap PS (btset T)).
  Local Notation ok := (state_ok lay g).
  Local Notation edge := (shift_edge lay g kl).
  #[local] Hint Extern 0 (Ord (ProdState _ _ _ _)) => exact (Ord_ProdState lay) : typeclass_instances.
  #[local] Existing Instance TotalPre_PS.

  Lemma edge_result m m' : ok m -> edge m m' -> exists t, shift_result lay g m t m'.
  Proof.
    intros O (acts & t & R & I). destruct (shift_spec lay g B Inj kl m O) as (r & R' & S). pose proof (runs_to_fun _ _ _ R R') as E. subst r.
    exists t. apply S, I.
  Qed.
  Lemma star_ok m m' : ok m -> star edge m m' -> ok m'.
  Proof.
    intros O S. induction S as [|y z S IH E]; [exact O|]. destruct (edge_result y z IH E) as (t & R). apply R.
  Qed.

  (** The lookaheads are terminals of the grammar or lookaheads of the first state. *)
  Section La.
    Variable L : list T.
    Hypothesis Lg : incl (terms g) L.
    Definition las (m : Map) : Prop := forall s ts u, In (s, ts) m -> In u ts -> In u L.
    Lemma todo_term s t pre post : In (ps_prod s) (prods g) -> todo s = pre ++ Term t :: post -> In t L.
    Proof.
      intros I E. apply Lg. apply (term_in_terms g (ps_prod s)); [exact I|]. unfold todo in E.
      rewrite <- (firstn_skipn (ps_index s) (elements (ps_prod s))). apply in_or_app. right. rewrite E. apply in_or_app. right. left. reflexivity.
    Qed.
    Lemma las_step m m' : ok m -> las m -> edge m m' -> las m'.
    Proof.
      intros O A E. destruct (edge_result m m' O E) as (t & _ & _ & _ & V & _). intros s ts u I Iu. apply (V s ts I) in Iu.
      set (Cl := closure_mut T NT AK AV g (moved m t) (fun p u _ => In u L) (fun s _ => In (ps_prod s) (prods g)) (fun s u _ => In (ps_prod s) (prods g) -> In u L)).
      refine (proj1 (_ : (forall p u, carries g (moved m t) p u -> In u L) /\ _ /\ _) _ _ Iu). apply Cl; clear Cl.
      - intros s0 ts0 t0 (s1 & rest & I1 & _ & _) It. exact (A s1 ts0 t0 I1 It).
      - intros s0 A0 rest p t0 _ Ip _ _ _ _ IH. exact (IH Ip).
      - intros s0 ts0 M. apply (moved_item_of lay g m t s0 ts0 O M).
      - intros p t0 C IH _. cbn [ps_prod]. destruct C as [s0 ts0 t0 M _|s0 A0 rest p t0 _ _ Ip _ _]; [|exact Ip].
        apply (moved_item_of lay g m t s0 ts0 O M).
      - intros s0 A0 t0 rest Td Ip. exact (todo_term s0 t0 [NonTerm A0] rest Ip Td).
      - intros s0 A0 C rest t0 _ Fo _. apply Lg. apply first_of_iff in Fo. apply (firstR_univ g (built_rs_wf g B)) in Fo. apply in_prod_iff in Fo. apply Fo.
      - intros s0 A0 t0 _ _ IH _. exact IH.
    Qed.
    Lemma las_star m m' : ok m -> las m -> star edge m m' -> las m'.
    Proof. intros O A S. induction S as [|y z S IH E]; [exact A|]. exact (las_step y z (star_ok m y O S) IH E). Qed.
  End La.

  Lemma one_state_per_prod m : ok m -> NoDup (map (fun x : PS * btset T => ps_prod (fst x)) m).
  Proof.
    intros [Ms _]. unfold msorted, bt_keys in Ms. induction m as [|[s ts] m IH]; cbn [map]; constructor.
    - cbn [map fst] in Ms. apply sorted_inv in Ms. destruct Ms as [_ F]. intro I. apply in_map_iff in I. destruct I as ([s' ts'] & E & I). cbn [fst] in E.
      rewrite Forall_forall in F. specialize (F s' (in_map fst _ _ I)). pose proof (cmp_prod_refl lay s s' (eq_sym E)) as Q. unfold cmp in *. congruence.
    - apply IH. cbn [map fst] in Ms. apply sorted_inv in Ms. apply Ms.
  Qed.

  Lemma reachable_finite m : ok m -> finitely_many (star edge m).
  Proof.
    intro O. set (L := terms g ++ flat_map snd m).
    set (Ui := flat_map (fun p => map (fun i => Build_ProdState p i : PS) (seq 0 (S (length (prod_elements p))))) (prods g)).
    exists (lists_upto (list_prod Ui (lists_upto L (length L))) (length (prods g))). intros m' S.
    assert (A : las L m').
    { apply (las_star L (incl_appl _ (incl_refl _)) m m' O); [|exact S]. intros s ts u I Iu. apply in_or_app. right. apply in_flat_map. exists (s, ts). auto. }
    pose proof (star_ok m m' O S) as O'. apply lists_upto_In.
    - rewrite <- (map_length (fun x : PS * btset T => ps_prod (fst x))). apply NoDup_incl_length; [apply one_state_per_prod, O'|].
      intros p I. apply in_map_iff in I. destruct I as ([s ts] & <- & I). destruct O' as [_ F]. rewrite Forall_forall in F. apply (F _ I).
    - intros [s ts] I. destruct O' as [_ F]. rewrite Forall_forall in F. destruct (F _ I) as (Ip & P & So). cbn [fst snd] in *. apply in_prod.
      + apply in_flat_map. exists (ps_prod s). split; [exact Ip|]. apply in_map_iff. exists (ps_index s). split; [destruct s; reflexivity|].
        apply in_seq. apply position_inv in P. lia.
      + apply lists_upto_In; [|intros u Iu; exact (A s ts u I Iu)]. apply NoDup_incl_length; [exact (sorted_NoDup ts So)|]. intros u Iu. exact (A s ts u I Iu).
  Qed.

  (** *** The search *)
  #[local] Existing Instance Ord_ParseState.
  Lemma ord_list (a b : ParseState T NT AK AV) : @cmp _ (Ord_ParseState lay) a b = @cmp (list (PS * list T)) Ord_list a b.
  Proof.
    change (@cmp _ (Ord_ParseState lay) a b) with (iter_cmp (c_cmp (C_pair (C_ProdState (T := T) (AK := AK) (AV := AV) lay) (C_vec C_of))) a b).
    change (@cmp (list (PS * list T)) Ord_list a b) with (list_cmp a b). revert b.
    induction a as [|x a IH]; intros [|y b]; cbn [iter_cmp list_cmp]; try reflexivity.
    rewrite IH. change (c_cmp (C_pair (C_ProdState lay) (C_vec C_of)) x y) with (then_cmp (Ord_ProdState lay (fst x) (fst y)) (iter_cmp cmp (snd x) (snd y))).
    rewrite iter_cmp_list. reflexivity.
  Qed.
  #[local] Instance TotalPre_ParseState : @TotalPre (ParseState T NT AK AV) (Ord_ParseState lay).
  Proof.
    pose proof (TotalPre_list (A := PS * list T)) as Q. constructor; intros; rewrite ?ord_list in *.
    - apply cmp_refl.
    - apply cmp_sym.
    - eapply cmp_lt_trans; eassumption.
    - apply cmp_eq_compat. assumption.
  Qed.

  Local Notation step := (shift_states lay g kl).
  Lemma step_run m : ok m -> exists r, runs_to (fun n => shift_actions lay g kl m n) r /\
    runs_to (fun n => step n m) (match r with Ret (Ok acts) => Ret (bt_values acts) | Ret (Err _) => Panic "called `Result::unwrap()` on an `Err` value"%string
                                            | Panic e => Panic e | NoFuel => NoFuel end) /\
    match r with Ret (Err _) => null_ambiguous g | NoFuel => False | _ => True end.
  Proof.
    intro O. destruct (shift_spec lay g B Inj kl m O) as (r & R & S). exists r. split; [exact R|]. unfold shift_states.
    set (k := fun (_ : nat) (r : result (btmap T (ParseState T NT AK AV)) FirstsError) =>
      match r with Ok acts => Ret (bt_values acts) | Err _ => Panic "called `Result::unwrap()` on an `Err` value"%string end).
    destruct r as [[acts|e]|msg|]; [| | |destruct S].
    - split; [|exact I]. apply (runs_to_bind _ k _ _ R). split; [discriminate|exists 0; reflexivity].
    - split; [|apply S]. apply (runs_to_bind _ k _ _ R). split; [discriminate|exists 0; reflexivity].
    - split; [|exact I]. exact (runs_to_bind_panic _ k _ R).
  Qed.
  Lemma step_edge x y : ok x -> ((exists l, runs_to (fun n => step n x) (Ret l) /\ In y l) <-> edge x y).
  Proof.
    intro O. destruct (step_run x O) as (r & R & R' & _). split.
    - intros (l & Rl & Iy). pose proof (runs_to_fun _ _ _ Rl R') as E. destruct r as [[acts|e]|msg|]; try discriminate. injection E as ->.
      unfold bt_values in Iy. apply in_map_iff in Iy. destruct Iy as ([t z] & <- & Iy). exists acts, t. auto.
    - intros (acts & t & Ra & Iy). pose proof (runs_to_fun _ _ _ Ra R) as E. subst r. exists (bt_values acts). split; [exact R'|].
      unfold bt_values. apply in_map_iff. exists (t, y). auto.
  Qed.
  Local Notation sedge := (fun x y => exists l, runs_to (fun n => step n x) (Ret l) /\ In y l).
  Lemma star_sedge m x : ok m -> (star sedge m x <-> star edge m x).
  Proof.
    intro O. split; intro S; (induction S as [|y z S IH E]; [apply star_refl|]).
    - apply (star_step _ m y z IH). apply step_edge; [exact (star_ok m y O IH)|exact E].
    - apply (star_step _ m y z IH). apply step_edge; [exact (star_ok m y O S)|exact E].
  Qed.
  Lemma plus_sedge m x : ok m -> (plus sedge m x <-> plus edge m x).
  Proof.
    intro O. split; intros (y & S & E); exists y.
    - apply (star_sedge m y O) in S. split; [exact S|]. apply step_edge; [exact (star_ok m y O S)|exact E].
    - pose proof (star_ok m y O S) as Oy. apply (star_sedge m y O) in S. split; [exact S|]. apply step_edge; [exact Oy|exact E].
  Qed.
  Local Notation pcmp := (@cmp (ParseState T NT AK AV) (Ord_ParseState lay)).
  Lemma explore_spec m : ok m -> ~ null_ambiguous g ->
    exists r, runs_to (explore lay g kl m) r /\
    match r with
    | Ret found => StronglySorted (fun a b => pcmp a b = Lt) found /\ (forall x, In x found -> plus edge m x) /\
        (forall x y, x = m \/ In x found -> edge x y -> exists z, In z found /\ pcmp y z = Eq) /\
        (forall x, x = m \/ In x found -> exists acts, runs_to (fun n => shift_actions lay g kl x n) (Ret (Ok acts)))
    | Panic e => exists x, star edge m x /\ runs_to (fun n => shift_actions lay g kl x n) (Panic e)
    | NoFuel => False
    end.
  Proof.
    intros O Na. destruct (reachable_finite m O) as (U & HU).
    destruct (@cbfs _ (Ord_ParseState lay) TotalPre_ParseState step [m]) with (univ := U) as (r & R & P).
    - intros x (i & [<-|[]] & S). apply (star_sedge m x O) in S. destruct (step_run x (star_ok m x O S)) as (r & _ & R & _). eauto.
    - intros y (i & [<-|[]] & S). apply HU, plus_star, (plus_sedge m y O), S.
    - exists r. split; [exact R|]. destruct r as [found|e|]; [| |exact P].
      + destruct P as (So & Rf & Cl).
        assert (Rf' : forall x, In x found -> plus edge m x) by (intros x Ix; destruct (Rf x Ix) as (i & [<-|[]] & S); apply (plus_sedge m x O), S).
        assert (Ok' : forall x, x = m \/ In x found -> ok x).
        { intros x [->|Ix]; [exact O|]. exact (star_ok m x O (plus_star _ _ _ (Rf' x Ix))). }
        assert (Cl' : forall x, x = m \/ In x found -> exists l, runs_to (fun n => step n x) (Ret l) /\ forall y, In y l -> exists z, In z found /\ pcmp y z = Eq).
        { intros x X. apply Cl. destruct X as [->|X]; [left; left; reflexivity|right; exact X]. }
        split; [exact So|]. split; [exact Rf'|]. split.
        * intros x y X E. destruct (Cl' x X) as (l & Rl & Q). apply Q. apply (step_edge x y (Ok' x X)) in E. destruct E as (l' & Rl' & Iy).
          pose proof (runs_to_fun _ _ _ Rl Rl') as E. injection E as ->. exact Iy.
        * intros x X. destruct (Cl' x X) as (l & Rl & _). destruct (step_run x (Ok' x X)) as (r & Rr & R' & _).
          pose proof (runs_to_fun _ _ _ Rl R') as E. destruct r as [[acts|e]|msg|]; try discriminate. eauto.
      + destruct P as (x & (i & [<-|[]] & S) & Rx). apply (star_sedge m x O) in S. exists x. split; [exact S|].
        destruct (step_run x (star_ok m x O S)) as (r & Rr & R' & Q). pose proof (runs_to_fun _ _ _ Rx R') as E.
        destruct r as [[acts|e']|msg|]; try discriminate; [destruct (Na Q)|]. injection E as ->. exact Rr.
  Qed.

  (** States of which no two compare equal are all found. *)
  Lemma explore_all m found : ok m -> ~ null_ambiguous g -> runs_to (explore lay g kl m) (Ret found) ->
    (forall x y, plus edge m x -> plus edge m y -> pcmp x y = Eq -> x = y) -> forall x, In x found <-> plus edge m x.
  Proof.
    intros O Na R Dif. destruct (explore_spec m O Na) as (r & R' & S). pose proof (runs_to_fun _ _ _ R R') as E. subst r. destruct S as (_ & Rf & Cl & _).
    assert (K : forall x y, (x = m \/ In x found) -> edge x y -> In y found).
    { intros x y X E. destruct (Cl x y X E) as (z & Iz & Q). assert (y = z); [|subst; exact Iz]. apply Dif; [|exact (Rf z Iz)|exact Q].
      exists x. split; [|exact E]. destruct X as [->|X]; [apply star_refl|apply plus_star, Rf, X]. }
    intro x. split; [apply Rf|]. intros (y & S & E). apply (K y); [|exact E]. clear E x. induction S as [|a b S IH E]; [left; reflexivity|right; exact (K a b IH E)].
  Qed.

  (** *** States of one item *)
  Lemma lalr_state_na m : lalr_state lay g kl m -> ~ null_ambiguous g.
  Proof.
    induction 1 as [items m F R|m acts t m' _ IH _ _]; [|exact IH].
    destruct (from_prod_spec lay g B Inj kl items F) as (r & R' & S). pose proof (runs_to_fun _ _ _ R R') as E. subst r. apply S.
  Qed.
End Explore.
