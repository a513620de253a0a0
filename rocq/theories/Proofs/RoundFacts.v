(** After how many rounds the fixed-point loops stop. *)
From Coq Require Import String List Arith Lia Bool NArith.
From Verif.Model Require Import Ord BTree Outcome Utils Grammar Nullable Firsts.
From Verif.Spec Require Import Reach Cfg BuildSpec NullSpec SizeSpec.
From Verif.Proofs Require Import OrdFacts BTreeFacts LoopFacts UtilsFacts GrammarFacts BuildMore NullableFacts NullableMore
  CfgFacts FirstsFacts FollowsFacts FirstsMore.
Import ListNotations.

Lemma bounded_runs {A} (f : nat -> outcome A) b : fuel_mono f -> (forall fuel, b <= fuel -> f fuel <> NoFuel) ->
  exists r, runs_to f r /\ forall fuel, b <= fuel -> f fuel = r.
Proof.
  intros M N. exists (f b). assert (R : runs_to f (f b)) by (apply (runs_to_mono f b); [exact M|reflexivity|apply N; lia]).
  split; [exact R|]. intros fuel L. exact (runs_to_eq f fuel _ _ M R eq_refl (N fuel L)).
Qed.

Section BFS.
  Context {T : Type} `{OrdEq T}.
  Variable f : T -> outcome (list T).
  Hypothesis NF : forall x, f x <> NoFuel.

  Lemma bfs_bound initial univ : (forall y, reachp f initial y -> In y univ) ->
    forall fuel, length univ + 2 <= fuel -> breadth_first_search initial f fuel <> NoFuel.
  Proof.
    intros U fuel L. apply (bfs_loop_terminates f initial univ NF U fuel _ _ (bfs_inv_init f initial)); simpl; [lia|right; lia].
  Qed.
End BFS.

Section Build.
  Context {T NT AK AV : Type} `{OrdEq NT}.

  Lemma build_bound (start : NT) (calls : list (gb_call T NT AK AV)) ns :
    (forall B, is_mentioned calls B -> In B ns) ->
    forall fuel, length ns + 2 <= fuel -> build start calls fuel <> NoFuel.
  Proof.
    intros U fuel L. set (g := calls_grammar start calls).
    rewrite build_unfold. fold g.
    unfold check_grammar, find_unreachable_nonterms.
    pose proof (calls_rs_wf start calls) as W. fold g in W.
    pose proof (bfs_bound (successors g) (successors_NoFuel g) [start_symbol g] ns) as Q.
    assert (X : forall y, reachp (successors g) [start_symbol g] y -> In y ns).
    { intros y (x & _ & z & _ & E). apply (edge_mentions g _ _ W) in E. apply U. exists z. apply (calls_mentions start). exact E. }
    specialize (Q X fuel L). unfold find_reachable_nonterms.
    destruct (breadth_first_search [start_symbol g] (successors g) fuel) as [s|m|]; [discriminate|discriminate|congruence].
  Qed.
End Build.

Section Null.
  Context {T NT AK AV : Type} `{OrdEq NT}.
  Variable lay : layout NT.
  Variable g : Grammar T NT AK AV.
  Hypothesis Inj : lay_inj g lay.
  Hypothesis W : rs_wf g.

  Lemma prods_length : length (prods g) = nprods g.
  Proof.
    unfold nprods, prods, all_prods, rules. induction (rule_set g) as [|[A r] l IH]; [reflexivity|].
    simpl. rewrite !app_length, IH. f_equal. unfold rule_prods. generalize 0.
    induction (r_prods r) as [|q qs IHq]; intro n; [reflexivity|]. simpl. f_equal. apply IHq.
  Qed.

  Lemma filter_le {A} (f : A -> bool) l : length (filter f l) <= length l.
  Proof. induction l as [|x l IH]; simpl; [lia|]. destruct (f x); simpl; lia. Qed.

  Lemma inner_bound n : nprods g < n -> inner_calculate_nullables lay g n <> NoFuel.
  Proof.
    intro L. apply (saturate_bound (nullable_step lay) (prods g) (ninv lay g) (nmu lay g) eq (fun _ => False)).
    - reflexivity.
    - intros s t u E1 E2. congruence.
    - intros x s Ix N. pose proof (nullable_step_spec lay g W x s Ix N) as Q.
      destruct (nullable_step lay x s) as [[c s']| |]; exact Q.
    - split; [apply sorted_nil|]. intros A s E. discriminate.
    - unfold nmu. eapply Nat.le_lt_trans; [apply filter_le|]. rewrite prods_length. exact L.
  Qed.

  Lemma nullables_bound n : nprods g < n -> calculate_nullables lay g n <> NoFuel.
  Proof.
    intro L. destruct (inner_spec lay g Inj W) as (nts & R & N & Nk & Np).
    pose proof (runs_to_eq (inner_calculate_nullables lay g) n _ _ (inner_mono lay g) R eq_refl (inner_bound n L)) as E.
    unfold calculate_nullables. rewrite E. cbn [obind].
    destruct (check_infos_spec (bt_values nts)) as [[E1 F]|[E1 (i & I & Li)]].
    { intros i I. unfold bt_values in I. apply in_map_iff in I. destruct I as ([A s] & <- & I).
      apply bt_get_iff in I; [|apply N]. apply (proj2 N A s I). }
    2: { rewrite E1. discriminate. }
    rewrite E1. cbn [obind].
    assert (N1 : forall A s, bt_get A nts = Some s -> exists p, s = [p]).
    { intros A s G. apply F. unfold bt_values. apply in_map_iff. exists (A, s).
      split; [reflexivity|]. apply bt_get_In. exact G. }
    destruct (make_action_map_spec nts []) as (am & Em & Am & _).
    { apply sorted_NoDup. apply N. }
    { intros A s I. apply N1 with (A := A). apply bt_get_iff; [apply N|exact I]. }
    rewrite Em. cbn [obind]. set (rem := bs_of_list (bt_keys nts)).
    assert (Lr : length rem <= nprods g).
    { rewrite <- prods_length. rewrite <- (map_length p_head (prods g)). apply NoDup_incl_length.
      - apply sorted_NoDup, bs_of_list_sorted.
      - intros A I. unfold rem in I. rewrite bs_of_list_In, bt_keys_In in I. destruct I as (s & G).
        destruct (N1 A s G) as (p & ->). destruct (proj1 (Np A _ G p) (or_introl eq_refl)) as [[Ip _] Hp].
        apply in_map_iff. exists p. auto. }
    destruct (complete_loop_spec g W nts Nk Np N1 am Am n rem []) as (info & Ec & _ & _).
    - lia.
    - split; [apply bs_of_list_sorted|]. split; [intros A []|]. intro A. unfold rem.
      rewrite bs_of_list_In, Nk. simpl. tauto.
    - split; [apply sorted_nil|]. intros A t Q. discriminate.
    - rewrite Ec. discriminate.
  Qed.
End Null.

Section Firsts.
  Context {T NT AK AV : Type} `{OrdEq T} `{OrdEq NT}.
  Variable lay : layout NT.
  Variable g : Grammar T NT AK AV.
  Hypothesis Inj : lay_inj g lay.
  Hypothesis B : built g.
  Let W : rs_wf g := acc_wf g (built_accepted g B).
  Variable ns : list NT.
  Variable ts : list T.
  Hypothesis Ns : forall A, (exists X rhs, rhs_of g X rhs /\ (A = X \/ In (NonTerm A) rhs)) -> In A ns.
  Hypothesis Ts : forall t, (exists X rhs, rhs_of g X rhs /\ In (Term t) rhs) -> In t ts.

  Lemma heads_ns A : In A (heads g) -> In A ns.
  Proof.
    intro I. unfold heads in I. apply in_map_iff in I. destruct I as (p & <- & Ip). apply Ns.
    exists (p_head p), (elements p). split; [apply prods_rhs; assumption|left; reflexivity].
  Qed.
  Lemma elem_rhs e : In e (get_elements g) -> exists X rhs, rhs_of g X rhs /\ In e rhs.
  Proof.
    intro I. unfold get_elements in I. apply in_flat_map in I. destruct I as (q & Iq & I). apply in_flat_map in Iq. destruct Iq as (r & Ir & Iq).
    apply (rules_In g r W) in Ir. exists (r_head r), (elements_iter q). split; [|exact I].
    exists q. split; [|reflexivity]. exists r. auto.
  Qed.
  Lemma terms_ts t : In t (terms g) -> In t ts.
  Proof.
    unfold terms, get_terminals. intro I. apply filter_map_In in I. destruct I as (e & I & E). apply Ts.
    destruct e; [injection E as <-; exact (elem_rhs _ I)|discriminate].
  Qed.
  Lemma nts_ns A : In A (nts_ g) -> In A ns.
  Proof.
    unfold nts_, get_nonterminals. intro I. apply filter_map_In in I. destruct I as (e & I & E). apply Ns.
    destruct e; [discriminate|injection E as <-]. destruct (elem_rhs _ I) as (X & rhs & P & Q). exists X, rhs. auto.
  Qed.

  Lemma firsts_bound n : nprods g < n -> length ns * length ts < n -> calculate_firsts lay g n <> NoFuel.
  Proof.
    intros L1 L2. unfold calculate_firsts.
    destruct (nullable_final lay g Inj B) as [[Am R]|(U & info & R & _ & N & _)];
      pose proof (runs_to_eq (calculate_nullables lay g) n _ _ (calculate_nullables_mono lay g) R eq_refl
        (nullables_bound lay g Inj W n L1)) as E; rewrite E; cbn [obind]; [discriminate|].
    pose proof (firsts_rounds info g W N (list_prod ns ts)) as F.
    assert (X : forall k v, firstR (rhs_of g) k v -> In (k, v) (list_prod ns ts)).
    { intros k v Q. apply (firstR_univ g W) in Q. apply in_prod_iff in Q. apply in_prod; [apply heads_ns|apply terms_ts]; apply Q. }
    specialize (F X n). rewrite prod_length in F. specialize (F L2).
    destruct (change_loop (change_iter (firsts_step info) (prods g)) n cm_new); [discriminate|discriminate|congruence].
  Qed.

  Lemma follows_bound n : nprods g < n -> length ns * length ts < n -> calculate_follows lay g n <> NoFuel.
  Proof.
    intros L1 L2. unfold calculate_follows.
    destruct (firsts_final lay g Inj B) as [[Am R]|(U & fm & R & _ & Rel & _)];
      pose proof (runs_to_eq (calculate_firsts lay g) n _ _ (calculate_firsts_mono lay g) R eq_refl
        (firsts_bound n L1 L2)) as E; rewrite E; cbn [obind]; [discriminate|].
    pose proof (follows_rounds fm g W Rel (list_prod ns ts)) as F.
    assert (X : forall k v, folR (rhs_of g) k v -> In (k, v) (list_prod ns ts)).
    { intros k v Q. apply (folR_univ g W) in Q. apply in_prod_iff in Q. apply in_prod; [apply nts_ns|apply terms_ts]; apply Q. }
    specialize (F X n). rewrite prod_length in F. specialize (F L2).
    destruct (change_loop (change_iter (follows_step fm) (prods g)) n cm_new); [discriminate|discriminate|congruence].
  Qed.
End Firsts.

(** ** transform_to_nonnull *)
From Verif.Model Require Import NonNull.
From Verif.Proofs Require Import NonNullMore.

Section NonNull.
  Context {T NT AK AV : Type} `{OrdEq NT}.
  Variable lay : layout NT.
  Variable g : Grammar T NT AK AV.
  Hypothesis Inj : lay_inj g lay.
  Hypothesis B : built g.
  Let W : rs_wf g := acc_wf g (built_accepted g B).
  Variable ns : list NT.
  Hypothesis Ns : forall A, (exists X rhs, rhs_of g X rhs /\ In (NonTerm A) rhs) -> In A ns.

  Lemma nn_fold_elems (info : GrammarNullableInfo NT AK) (es0 : list (ProdElement T NT)) : forall es S, incl es es0 ->
    (forall s, In s S -> incl (bs_elems s) es0) ->
    forall s, In s (fold_left (nn_step info) es S) -> incl (bs_elems s) es0.
  Proof.
    induction es as [|e es IH]; intros S I Q s Is; [exact (Q s Is)|]. cbn [fold_left] in Is.
    apply (IH (nn_step info S e)); [intros x X; apply I; right; exact X| |exact Is].
    assert (K : forall s0, In s0 S -> incl (bs_elems s0 ++ [e]) es0).
    { intros s0 I0 x X. apply in_app_or in X. destruct X as [X|[<-|[]]]; [exact (Q s0 I0 x X)|apply I; left; reflexivity]. }
    assert (Mk : forall s', In s' (map (nn_keep e) S) -> incl (bs_elems s') es0).
    { intros s' I'. apply in_map_iff in I'. destruct I' as (s0 & <- & I0). exact (K s0 I0). }
    intros s'. unfold nn_step. destruct (pe_elem e) as [t|nt].
    - intro I'. apply in_map_iff in I'. destruct I' as (s0 & <- & I0). exact (K s0 I0).
    - destruct (get_nullable_action info nt) as [a|]; [|apply Mk]. intro I'. apply in_app_or in I'. destruct I' as [I'|I']; [exact (Mk s' I')|].
      apply in_map_iff in I'. destruct I' as (s0 & <- & I0). exact (Q s0 I0).
  Qed.

  Lemma transform_bound n : nprods g < n -> length ns + 2 <= n -> transform_to_nonnull lay g n <> NoFuel.
  Proof.
    intros L1 L2. unfold transform_to_nonnull. pose proof (nullables_bound lay g Inj W n L1) as N.
    destruct (calculate_nullables lay g n) as [[info|e]|m|]; cbn [obind]; try discriminate; [|congruence].
    pose proof (build_bound (start_nt g) (map (nn_rule_call info) (rule_set g)) ns) as Q.
    assert (X : forall C, is_mentioned (map (nn_rule_call info) (rule_set g)) C -> In C ns).
    { intros C (A & rcs & c & (pre & post & E & _) & Ic & I).
      assert (J : In (AddRule A rcs) (map (nn_rule_call info) (rule_set g))) by (rewrite E; apply in_or_app; right; left; reflexivity).
      apply in_map_iff in J. destruct J as ([A' r] & E' & Ir). unfold nn_rule_call in E'. injection E' as <- <-. simpl in Ic.
      apply in_flat_map in Ic. destruct Ic as (p & Ip & Ic). destruct (is_prod_nullable info p); [destruct Ic|].
      unfold build_nonnull_prods in Ic. apply in_map_iff in Ic. destruct Ic as (s & <- & Is). cbn [spec_prod pi_elements] in I.
      apply in_map_iff in I. destruct I as (el & E2 & Iel).
      apply (nn_fold_elems info (prod_elements p)) in Is; [|apply incl_refl|intros s0 [<-|[]] x []].
      apply Ns. assert (Pg : In p (prods g)).
      { unfold prods. apply in_flat_map. exists r. split; [|exact Ip]. apply (rules_In g r W). rewrite (proj2 W _ _ Ir). exact Ir. }
      exists (p_head p), (elements p). split; [apply prods_rhs; assumption|]. unfold elements. apply in_map_iff. exists el.
      split; [exact E2|]. exact (Is el Iel). }
    specialize (Q X n L2). destruct (build (start_nt g) (map (nn_rule_call info) (rule_set g)) n); [discriminate|discriminate|congruence].
  Qed.
End NonNull.
