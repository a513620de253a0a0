(** Facts about the Follows pass of [Model/Firsts.v]. *)
From Coq Require Import String List Arith Lia Bool NArith.
From Verif.Model Require Import Ord BTree Outcome Utils Grammar Nullable Firsts.
From Verif.Spec Require Import Reach Cfg BuildSpec NullSpec.
From Verif.Proofs Require Import OrdFacts BTreeFacts LoopFacts UtilsFacts GrammarFacts NullableFacts NullableMore
  CfgFacts FirstsFacts.
Import ListNotations.

Section Follows.
  Context {T NT AK AV : Type} `{OrdEq T} `{OrdEq NT}.
  Variable firsts : btmap NT (btset T).

  Definition adj (es : list (Elem T NT)) (A : NT) (e : Elem T NT) : Prop :=
    exists pre post, es = pre ++ NonTerm A :: e :: post.
  Definition in_first (e : Elem T NT) (v : T) : Prop :=
    match e with Term t => t = v | NonTerm B => cm_rel firsts B v end.
  Definition bad (es : list (Elem T NT)) : Prop :=
    exists A B, adj es A (NonTerm B) /\ bt_get B firsts = None.

  Lemma adj_cons x y es A e : adj (x :: y :: es) A e <-> (x = NonTerm A /\ y = e) \/ adj (y :: es) A e.
  Proof.
    split.
    - intros (pre & post & E). destruct pre as [|z pre]; simpl in E.
      + injection E as -> -> ->. auto.
      + injection E as -> E. right. exists pre, post. exact E.
    - intros [[-> ->]|(pre & post & E)].
      + exists [], es. reflexivity.
      + exists (x :: pre), post. rewrite E. reflexivity.
  Qed.
  Lemma adj_single x A e : ~ adj [x] A e.
  Proof. intros (pre & post & E). destruct pre as [|z [|w pre]]; discriminate. Qed.
  Lemma adj_nil A e : ~ adj [] A e.
  Proof. intros (pre & post & E). destruct pre; discriminate. Qed.

  Definition added (es : list (Elem T NT)) (k : NT) (v : T) : Prop := exists e, adj es k e /\ in_first e v.

  Lemma follows_pairs_spec es c m :
    cm_wf m ->
    match follows_pairs firsts es c m with
    | Ret (c', m') =>
        ~ bad es /\ cm_wf m' /\
        (forall k v, cm_rel m' k v <-> cm_rel m k v \/ added es k v) /\
        (forall k, bt_get k m <> None -> bt_get k m' <> None) /\
        (c' = Changed <-> c = Changed \/ exists k v, cm_rel m' k v /\ ~ cm_rel m k v)
    | Panic _ => bad es
    | NoFuel => False
    end.
  Proof.
    revert c m. induction es as [|x es IH]; intros c m Wf.
    - cbn [follows_pairs]. split; [intros (A & B & Ad & _); exact (adj_nil _ _ Ad)|]. split; [exact Wf|].
      split; [|split; [auto|]].
      + intros k v. split; [auto|]. intros [R|(e & Ad & _)]; [exact R|destruct (adj_nil _ _ Ad)].
      + split; [auto|]. intros [Q|(k & v & R & NR)]; [exact Q|contradiction].
    - destruct es as [|y es].
      + cbn [follows_pairs]. split; [intros (A & B & Ad & _); exact (adj_single _ _ _ Ad)|]. split; [exact Wf|].
        split; [|split; [auto|]].
        * intros k v. split; [auto|]. intros [R|(e & Ad & _)]; [exact R|destruct (adj_single _ _ _ Ad)].
        * split; [auto|]. intros [Q|(k & v & R & NR)]; [exact Q|contradiction].
      + assert (Gen : forall d m1 (new : NT -> T -> Prop),
          cm_wf m1 ->
          (forall k v, cm_rel m1 k v <-> cm_rel m k v \/ new k v) ->
          (forall k, bt_get k m <> None -> bt_get k m1 <> None) ->
          (d = Changed <-> exists k v, new k v /\ ~ cm_rel m k v) ->
          (forall k v, added (x :: y :: es) k v <-> new k v \/ added (y :: es) k v) ->
          (bad (x :: y :: es) <-> bad (y :: es)) ->
          match follows_pairs firsts (y :: es) (wc_merge c d) m1 with
          | Ret (c', m') =>
              ~ bad (x :: y :: es) /\ cm_wf m' /\
              (forall k v, cm_rel m' k v <-> cm_rel m k v \/ added (x :: y :: es) k v) /\
              (forall k, bt_get k m <> None -> bt_get k m' <> None) /\
              (c' = Changed <-> c = Changed \/ exists k v, cm_rel m' k v /\ ~ cm_rel m k v)
          | Panic _ => bad (x :: y :: es)
          | NoFuel => False
          end).
        { intros d m1 new Wf1 R1 K1 C1 An Bd. pose proof (IH (wc_merge c d) m1 Wf1) as Q.
          destruct (follows_pairs firsts (y :: es) (wc_merge c d) m1) as [[c' m']|s|]; [|apply Bd; exact Q|exact Q].
          destruct Q as (NB & Wf' & R' & K' & C').
          assert (RR : forall k v, cm_rel m' k v <-> cm_rel m k v \/ added (x :: y :: es) k v).
          { intros k v. rewrite R', R1, An. tauto. }
          split; [rewrite Bd; exact NB|]. split; [exact Wf'|]. split; [exact RR|].
          split; [auto|]. rewrite C'. unfold wc_merge. rewrite wc_join_Changed, C1. split.
          - intros [[Q|(k & v & N & NR)]|(k & v & R & NR)]; [auto| |].
            + right. exists k, v. split; [|exact NR]. apply RR. right. apply An. auto.
            + right. exists k, v. split; [exact R|]. intro Z. apply NR. apply R1. auto.
          - intros [Q|(k & v & R & NR)]; [auto|]. destruct (cm_rel_dec m1 k v) as [Y|NY].
            + left. right. exists k, v. split; [|exact NR]. apply R1 in Y. tauto.
            + right. exists k, v. auto. }
        destruct x as [t0|A].
        * cbn [follows_pairs].
          assert (X : wc_merge c Unchanged = c) by (destruct c; reflexivity).
          specialize (Gen Unchanged m (fun _ _ => False)). rewrite X in Gen. apply Gen.
          -- exact Wf.
          -- intros; tauto.
          -- auto.
          -- split; [discriminate|]. intros (k & v & [] & _).
          -- intros k v. unfold added. split.
             ++ intros (e & Ad & F). apply adj_cons in Ad. destruct Ad as [[Q _]|Ad]; [discriminate|]. right. exists e. auto.
             ++ intros [[]|(e & Ad & F)]. exists e. split; [apply adj_cons; auto|exact F].
          -- unfold bad. split; intros (A & B & Ad & G); exists A, B; (split; [|exact G]).
             ++ apply adj_cons in Ad. destruct Ad as [[Q _]|Ad]; [discriminate|exact Ad].
             ++ apply adj_cons. auto.
        * assert (AnC : forall (new : NT -> T -> Prop), (forall k v, new k v <-> k = A /\ in_first y v) ->
                    forall k v, added (NonTerm A :: y :: es) k v <-> new k v \/ added (y :: es) k v).
          { intros new Nw k v. unfold added. rewrite Nw. split.
            - intros (e & Ad & F). apply adj_cons in Ad. destruct Ad as [[Q <-]|Ad].
              + injection Q as ->. auto.
              + right. exists e. auto.
            - intros [[-> F]|(e & Ad & F)].
              + exists y. split; [apply adj_cons; auto|exact F].
              + exists e. split; [apply adj_cons; auto|exact F]. }
          destruct y as [t|B].
          -- change (follows_pairs firsts (NonTerm A :: Term t :: es) c m) with
               (let '(d, m1) := cm_insert m A t in follows_pairs firsts (Term t :: es) (wc_merge c d) m1).
             destruct (cm_insert m A t) as [d m1] eqn:E1.
             destruct (cm_insert_spec _ _ _ _ _ E1 Wf) as (Wf1 & Oth & (s & Gs & Ms) & Ch).
             apply (Gen d m1 (fun k v => k = A /\ t = v)).
             ++ exact Wf1.
             ++ intros k v. destruct (eqb_spec k A) as [->|Ne].
                ** unfold cm_rel at 1. rewrite Gs. split.
                   --- intros (s' & Q & I). injection Q as <-. apply Ms in I. destruct I; auto.
                   --- intro Q. exists s. split; [reflexivity|]. apply Ms. destruct Q as [Q|[_ Q]]; auto.
                ** rewrite (cm_rel_get m1 m k v (Oth k Ne)). tauto.
             ++ intros k Q. destruct (eqb_spec k A) as [->|Ne]; [congruence|]. rewrite Oth by exact Ne. exact Q.
             ++ rewrite Ch. split.
                ** intro NR. exists A, t. auto.
                ** intros (k & v & [-> ->] & NR). exact NR.
             ++ apply AnC. intros; simpl; tauto.
             ++ unfold bad. split; intros (A' & B & Ad & G); exists A', B; (split; [|exact G]).
                ** apply adj_cons in Ad. destruct Ad as [[_ Q]|Ad]; [discriminate|exact Ad].
                ** apply adj_cons. auto.
          -- change (follows_pairs firsts (NonTerm A :: NonTerm B :: es) c m) with
               (set <- expect (firsts_get firsts B) "called `Option::unwrap()` on a `None` value"%string ;;
                let '(d, m1) := cm_insert_iter m A set in follows_pairs firsts (NonTerm B :: es) (wc_merge c d) m1).
             unfold firsts_get. destruct (bt_get B firsts) as [set|] eqn:GB; cbn [expect obind].
             2:{ exists A, B. split; [apply adj_cons; auto|exact GB]. }
             destruct (cm_insert_iter m A set) as [d m1] eqn:E1.
             destruct (cm_insert_iter_spec _ _ _ _ _ E1 Wf) as (Wf1 & Oth & Pn & Rl & Ch).
             apply (Gen d m1 (fun k v => k = A /\ In v set)).
             ++ exact Wf1.
             ++ intros k v. destruct (eqb_spec k A) as [->|Ne].
                ** rewrite Rl. tauto.
                ** rewrite (cm_rel_get m1 m k v (Oth k Ne)). tauto.
             ++ intros k Q. destruct (eqb_spec k A) as [->|Ne]; [rewrite Pn; tauto|]. rewrite Oth by exact Ne. exact Q.
             ++ rewrite Ch. split.
                ** intros (v & I & NR). exists A, v. auto.
                ** intros (k & v & [-> I] & NR). exists v. auto.
             ++ apply AnC. intros k v. simpl. unfold cm_rel. rewrite GB. split.
                ** intros [-> I]. split; [reflexivity|]. exists set. auto.
                ** intros [-> (s & Q & I)]. injection Q as <-. auto.
             ++ unfold bad. split; intros (A' & B' & Ad & G).
                ** apply adj_cons in Ad. destruct Ad as [[_ Q]|Ad]; [injection Q as <-; congruence|].
                   exists A', B'. auto.
                ** exists A', B'. split; [apply adj_cons; auto|exact G].
  Qed.

  Lemma last_opt_iff {A} (l : list A) a : last_opt l = Some a <-> exists pre, l = pre ++ [a].
  Proof.
    induction l as [|x l IH].
    - simpl. split; [discriminate|]. intros (pre & E). destruct pre; discriminate.
    - destruct l as [|y l].
      + simpl. split.
        * intro E. injection E as ->. exists []. reflexivity.
        * intros (pre & E). destruct pre as [|z [|w pre]]; try discriminate. injection E as ->. reflexivity.
      + change (last_opt (x :: y :: l)) with (last_opt (y :: l)). rewrite IH. split.
        * intros (pre & E). exists (x :: pre). rewrite E. reflexivity.
        * intros (pre & E). destruct pre as [|z pre]; [discriminate|]. injection E as -> E. exists pre. exact E.
  Qed.

  Variable g : Grammar T NT AK AV.
  Hypothesis W : rs_wf g.
  Hypothesis Fi : forall A t, cm_rel firsts A t <-> firstR (rhs_of g) A t.

  Lemma in_first_iff e v : in_first e v <-> firstE (rhs_of g) e v.
  Proof. destruct e; simpl; [tauto|apply Fi]. Qed.

  Definition foinv (m : btmap NT (btset T)) : Prop :=
    cm_wf m /\ (forall k v, cm_rel m k v -> folR (rhs_of g) k v).

  Definition nts_ : list NT := get_nonterminals g.

  Lemma nt_in_nts p B : In p (prods g) -> In (NonTerm B) (elements p) -> In B nts_.
  Proof.
    intros Ip It. apply filter_map_In. exists (NonTerm B). split; [|reflexivity].
    unfold get_elements. unfold prods in Ip. apply in_flat_map in Ip. destruct Ip as (r & Ir & Ip).
    apply rule_prods_In in Ip. destruct Ip as [_ Ip]. apply in_flat_map. exists (p_inner p).
    split; [|exact It]. apply in_flat_map. exists r. split; [exact Ir|]. exact (nth_error_In _ _ Ip).
  Qed.

  Lemma folR_univ k v : folR (rhs_of g) k v -> In (k, v) (list_prod nts_ (terms g)).
  Proof.
    intro F. apply in_prod.
    - destruct F as [H' pre A e post t Pr _|H' pre A t Pr _];
        destruct (rhs_prods g W _ _ Pr) as (p & Ip & _ & E);
        apply (nt_in_nts p); try exact Ip; rewrite E; apply in_or_app; right; left; reflexivity.
    - induction F as [H' pre A e post t Pr F|H' pre A t Pr _ IH]; [|exact IH].
      destruct e as [t'|B]; simpl in F.
      + subst t'. destruct (rhs_prods g W _ _ Pr) as (p & Ip & _ & E). apply (term_in_terms g p); [exact Ip|].
        rewrite E. apply in_or_app. right. right. left. reflexivity.
      + apply firstR_univ in F; [|exact W]. apply in_prod_iff in F. apply F.
  Qed.

  Definition some_bad : Prop := exists p, In p (prods g) /\ bad (elements p).

  Lemma follows_loop_step univ : (forall k v, folR (rhs_of g) k v -> In (k, v) univ) ->
    forall p m, In p (prods g) -> foinv m ->
    match follows_step firsts p m with
    | Ret (c, m') => foinv m' /\ (forall k v, cm_rel m k v -> cm_rel m' k v) /\
        (forall k v, cm_rel m' k v -> cm_rel m k v \/ In (k, v) univ) /\
        (forall k, bt_get k m <> None -> bt_get k m' <> None) /\
        (c = Changed <-> exists k v, cm_rel m' k v /\ ~ cm_rel m k v)
    | Panic s => some_bad
    | NoFuel => False
    end.
  Proof.
    intros Hu.
  intros p m Ip (Wf & Sd). unfold follows_step.
    pose proof (follows_pairs_spec (elements p) Unchanged m Wf) as Q.
    destruct (follows_pairs firsts (elements p) Unchanged m) as [[c m1]|s|]; cbn [obind];
      [|exists p; auto|exact Q].
    destruct Q as (NB & Wf1 & R1 & K1 & C1).
    assert (Sd1 : forall k v, cm_rel m1 k v -> folR (rhs_of g) k v).
    { intros k v Q. apply R1 in Q. destruct Q as [Q|(e & (pre & post & Ee) & F)]; [apply Sd; exact Q|].
      apply in_first_iff in F. eapply folR_adj; [|exact F]. rewrite <- Ee. apply prods_rhs; assumption. }
    assert (C1' : c = Changed <-> exists k v, cm_rel m1 k v /\ ~ cm_rel m k v).
    { rewrite C1. split; [intros [Q|Q]; [discriminate|exact Q]|auto]. }
    assert (Plain : foinv m1 /\ (forall k v, cm_rel m k v -> cm_rel m1 k v) /\
      (forall k v, cm_rel m1 k v -> cm_rel m k v \/ In (k, v) univ) /\
      (forall k, bt_get k m <> None -> bt_get k m1 <> None) /\
      (c = Changed <-> exists k v, cm_rel m1 k v /\ ~ cm_rel m k v)).
    { split; [split; assumption|]. split; [intros k v Q; apply R1; auto|].
      split; [intros k v Q; right; apply Hu, Sd1, Q|]. split; [exact K1|exact C1']. }
    destruct (last_opt (elements p)) as [[t|B]|] eqn:L; [exact Plain| |exact Plain].
    destruct (cm_insert_from_key_set m1 B (p_head p)) as [d m2] eqn:E2.
    destruct (cm_insert_from_key_set_spec _ _ _ _ _ E2 Wf1) as (Wf2 & Oth & Pn & Rl & Ch).
    apply last_opt_iff in L. destruct L as (pre & L).
    assert (R2 : forall k v, cm_rel m2 k v <-> cm_rel m1 k v \/ (k = B /\ cm_rel m1 (p_head p) v)).
    { intros k v. destruct (eqb_spec k B) as [->|Ne]; [rewrite Rl; tauto|].
      rewrite (cm_rel_get m2 m1 k v (Oth k Ne)). tauto. }
    assert (Sd2 : forall k v, cm_rel m2 k v -> folR (rhs_of g) k v).
    { intros k v Q. apply R2 in Q. destruct Q as [Q|[-> Q]]; [apply Sd1; exact Q|].
      apply (folR_last _ (p_head p) pre); [|apply Sd1; exact Q]. rewrite <- L. apply prods_rhs; assumption. }
    split; [split; assumption|]. split; [intros k v Q; apply R2; left; apply R1; auto|].
    split; [intros k v Q; right; apply Hu, Sd2, Q|]. split.
    + intros k Q. destruct (eqb_spec k B) as [->|Ne].
      * rewrite Pn. intros [X _]. exact (K1 B Q X).
      * rewrite Oth by exact Ne. apply K1. exact Q.
    + unfold wc_merge. rewrite wc_join_Changed, C1', Ch. split.
      * intros [(k & v & Q & NQ)|(v & Q & NQ)].
        -- exists k, v. split; [apply R2; auto|exact NQ].
        -- exists B, v. split; [apply R2; auto|]. intro X. apply NQ, R1. auto.
      * intros (k & v & Q & NQ). destruct (cm_rel_dec m1 k v) as [Y|NY].
        -- left. exists k, v. auto.
        -- right. apply R2 in Q. destruct Q as [Q|[-> Q]]; [contradiction|]. exists v. auto.
  Qed.
  Lemma follows_rounds univ : (forall k v, folR (rhs_of g) k v -> In (k, v) univ) ->
    forall n, length univ < n -> change_loop (change_iter (follows_step firsts) (prods g)) n cm_new <> NoFuel.
  Proof.
    intros Hu n L. apply (cm_saturate_bound (follows_step firsts) (prods g) foinv univ (fun _ => some_bad)); [apply follows_loop_step; exact Hu| | |exact L].
    - split; [apply cm_wf_nil|]. intros k v (s & Q & _). discriminate.
    - intros k v (s & Q & _). discriminate.
  Qed.

  Lemma follows_loop :
    exists r, runs_to (fun n => change_loop (change_iter (follows_step firsts) (prods g)) n cm_new) r /\
      match r with
      | Ret m => ~ some_bad /\ cm_wf m /\ forall A t, cm_rel m A t <-> folR (rhs_of g) A t
      | Panic _ => some_bad
      | NoFuel => False
      end.
  Proof.
    destruct (cm_saturate (follows_step firsts) (prods g) foinv (list_prod nts_ (terms g)) (fun _ => some_bad))
      with (m0 := @nil (NT * btset T)) as (r & R & Pr).
    - apply follows_loop_step. exact folR_univ.
    - split; [apply cm_wf_nil|]. intros k v (s & Q & _). discriminate.
    - intros k v (s & Q & _). discriminate.
    - exists r. split; [exact R|]. destruct r as [m|s|]; [|exact Pr|exact Pr].
      destruct Pr as ((Wf & Sd) & _ & Cl).
      assert (St : forall p, In p (prods g) -> ~ bad (elements p) /\
                (forall k v, added (elements p) k v -> cm_rel m k v) /\
                (forall pre B v, elements p = pre ++ [NonTerm B] -> cm_rel m (p_head p) v -> cm_rel m B v)).
      { intros p Ip. destruct (Cl p Ip) as (s1 & s2 & (Wf1 & _) & [R1 _] & [R2 _] & E).
        unfold follows_step in E. pose proof (follows_pairs_spec (elements p) Unchanged s1 Wf1) as Q.
        destruct (follows_pairs firsts (elements p) Unchanged s1) as [[c m1]|s|]; cbn [obind] in E; try discriminate.
        destruct Q as (NB & Wfm & Rm & _ & _). split; [exact NB|].
        destruct (last_opt (elements p)) as [[t|B]|] eqn:L.
        - injection E as _ <-. split; [intros k v Ad; apply R2, Rm; auto|].
          intros pre B v E _. assert (X : last_opt (elements p) = Some (NonTerm B)) by (apply last_opt_iff; exists pre; exact E).
          congruence.
        - destruct (cm_insert_from_key_set m1 B (p_head p)) as [d m2] eqn:E2. injection E as _ <-.
          destruct (cm_insert_from_key_set_spec _ _ _ _ _ E2 Wfm) as (Wf2 & Oth & Pn & Rl & Ch).
          split.
          + intros k v Ad. apply R2. destruct (eqb_spec k B) as [->|Ne].
            * apply Rl. left. apply Rm. auto.
            * apply (cm_rel_get m1 m2 k v); [symmetry; apply Oth; exact Ne|]. apply Rm. auto.
          + intros pre B' v E Q. assert (X : last_opt (elements p) = Some (NonTerm B')) by (apply last_opt_iff; exists pre; exact E).
            rewrite L in X. injection X as <-. apply R2, Rl. right. apply Rm. left. apply R1. exact Q.
        - injection E as _ <-. split; [intros k v Ad; apply R2, Rm; auto|].
          intros pre B v E _. assert (X : last_opt (elements p) = Some (NonTerm B)) by (apply last_opt_iff; exists pre; exact E).
          congruence. }
      split; [|split; [exact Wf|]].
      + intros (p & Ip & Bp). apply (St p Ip). exact Bp.
      + intros A t. split; [apply Sd|]. intro F. induction F as [H' pre A e post t Pr F|H' pre A t Pr _ IH];
          destruct (rhs_prods g W _ _ Pr) as (p & Ip & <- & E); destruct (St p Ip) as (_ & S1 & S2).
        * apply S1. exists e. split; [exists pre, post; exact E|]. apply in_first_iff. exact F.
        * exact (S2 pre A t E IH).
  Qed.
End Follows.
