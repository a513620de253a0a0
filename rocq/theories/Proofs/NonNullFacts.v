(** Facts about [Model/NonNull.v]. *)
From Coq Require Import String List Arith Lia Bool NArith.
From Verif.Model Require Import Ord BTree Outcome Utils Grammar Nullable NonNull.
From Verif.Spec Require Import Reach Cfg BuildSpec NullSpec NonNullSpec.
From Verif.Proofs Require Import OrdFacts BTreeFacts LoopFacts UtilsFacts GrammarFacts NullableFacts NullableMore.
Import ListNotations.

Section NN.
  Context {T NT AK AV : Type} `{OrdEq NT}.
  Variable g : Grammar T NT AK AV.
  Hypothesis Acc : accepted g.
  Variable info : GrammarNullableInfo NT AK.
  Hypothesis Nul : forall A, is_nullable info A = true <-> derives_empty g A.
  Hypothesis NulP : forall A i p, nth_prod g A i p ->
          (is_prod_nullable info (Build_Prod A i p) = true <-> body_derives_empty g p).
  Hypothesis Tr : forall A t, get_nullable_action info A = Some t <-> null_tree g A t.

  Let W : rs_wf g := acc_wf g Acc.

  Lemma action_some A : (exists t, get_nullable_action info A = Some t) <-> derives_empty g A.
  Proof. rewrite <- Nul. unfold is_nullable, get_nullable_action. symmetry. apply bt_mem_get. Qed.

  (** The arguments recorded for the dropped elements. *)
  Definition nn_arg (a : btmap name (TreeNode (ProdKey NT AK) Void)) (e : ProdElement T NT) :=
    match pe_id e, pe_elem e with
    | Some id, NonTerm B =>
        match get_nullable_action info B with Some act => bt_insert id act a | None => a end
    | _, _ => a
    end.

  Lemma nn_fold_In s es S :
    In s (fold_left (nn_step info) es S) <->
    exists s0 fl k d, In s0 S /\ choice g es fl k d /\
      s = Build_ProdBuildState (bs_elems s0 ++ k) (bs_nullable_states s0 ++ fl)
            (fold_left nn_arg d (bs_action_args s0)).
  Proof.
    revert S. induction es as [|e es IH]; intro S; cbn [fold_left].
    - split.
      + intro I. exists s, [], [], []. split; [exact I|]. split; [constructor|].
        rewrite !app_nil_r. destruct s; reflexivity.
      + intros (s0 & fl & k & d & I & C & ->). inversion C; subst. rewrite !app_nil_r. destruct s0; exact I.
    - rewrite IH. split.
      + intros (s1 & fl & k & d & I & C & ->). unfold nn_step in I.
        destruct (pe_elem e) as [t|B] eqn:E.
        * apply in_map_iff in I. destruct I as (s0 & <- & I). exists s0, fl, (e :: k), d.
          split; [exact I|]. split; [apply ch_term with t; assumption|]. simpl. rewrite <- app_assoc. reflexivity.
        * assert (K : In s1 (map (nn_keep e) S) -> exists s0 fl0 k0 d0, In s0 S /\ choice g (e :: es) fl0 k0 d0 /\
             Build_ProdBuildState (bs_elems s1 ++ k) (bs_nullable_states s1 ++ fl) (fold_left nn_arg d (bs_action_args s1)) =
             Build_ProdBuildState (bs_elems s0 ++ k0) (bs_nullable_states s0 ++ fl0) (fold_left nn_arg d0 (bs_action_args s0))).
          { intro J. apply in_map_iff in J. destruct J as (s0 & <- & J). exists s0, (false :: fl), (e :: k), d.
            split; [exact J|]. split; [apply ch_keep with B; assumption|]. simpl. rewrite <- !app_assoc. reflexivity. }
          destruct (get_nullable_action info B) as [act|] eqn:G; [|exact (K I)].
          apply in_app_or in I. destruct I as [I|I]; [exact (K I)|].
          apply in_map_iff in I. destruct I as (s0 & <- & I). exists s0, (true :: fl), k, (e :: d).
          split; [exact I|]. split; [apply ch_drop with B; try assumption; apply action_some; exists act; exact G|].
          simpl. rewrite <- app_assoc. simpl. unfold nn_arg at 3. rewrite E, G.
          destruct (pe_id e); reflexivity.
      + intros (s0 & fl & k & d & I & C & ->). unfold nn_step.
        inversion C as [|e' t es' fl' k' d' E C'|e' B es' fl' k' d' E C'|e' B es' fl' k' d' E De C']; subst; rewrite E.
        * exists (nn_term e s0), fl, k', d. split; [apply in_map; exact I|]. split; [exact C'|].
          simpl. rewrite <- app_assoc. reflexivity.
        * exists (nn_keep e s0), fl', k', d. split.
          { destruct (get_nullable_action info B); [apply in_or_app; left|]; apply in_map; exact I. }
          split; [exact C'|]. simpl. rewrite <- !app_assoc. reflexivity.
        * apply action_some in De. destruct De as (act & G). rewrite G.
          exists (nn_drop e act s0), fl', k, d'. split; [apply in_or_app; right; apply in_map; exact I|].
          split; [exact C'|]. simpl. rewrite <- app_assoc. unfold nn_arg at 2. rewrite E, G.
          destruct (pe_id e); reflexivity.
  Qed.

  Lemma map_app_tail_NoDup (l : list (list bool)) b : NoDup l -> NoDup (map (fun x => x ++ [b]) l).
  Proof.
    intro N. induction N as [|x l NI N IH]; simpl; constructor; [|exact IH].
    intro I. apply in_map_iff in I. destruct I as (y & E & I). apply app_inj_tail in E. destruct E as [-> _].
    exact (NI I).
  Qed.

  Lemma NoDup_app_intro {A} (l1 l2 : list A) :
    NoDup l1 -> NoDup l2 -> (forall x, In x l1 -> ~ In x l2) -> NoDup (l1 ++ l2).
  Proof.
    intros N1 N2 D. induction N1 as [|x l NI N IH]; simpl; [exact N2|]. constructor.
    - intro I. apply in_app_or in I. destruct I as [I|I]; [exact (NI I)|]. exact (D x (or_introl eq_refl) I).
    - apply IH. intros y I. apply D. right. exact I.
  Qed.

  Lemma nn_fold_NoDup es S :
    NoDup (map bs_nullable_states S) ->
    NoDup (map (@bs_nullable_states T NT AK) (fold_left (nn_step info) es S)).
  Proof.
    revert S. induction es as [|e es IH]; intros S N; cbn [fold_left]; [exact N|]. apply IH.
    unfold nn_step. destruct (pe_elem e) as [t|B].
    - rewrite map_map. exact N.
    - assert (K : forall b (f : ProdBuildState T NT AK -> ProdBuildState T NT AK), (forall s : ProdBuildState T NT AK, bs_nullable_states (f s) = bs_nullable_states s ++ [b]) ->
        map bs_nullable_states (map f S) = map (fun x => x ++ [b]) (map bs_nullable_states S)).
      { intros b f F. rewrite !map_map. apply map_ext. exact F. }
      pose proof (K false (nn_keep e) (fun _ => eq_refl)) as Kf.
      destruct (get_nullable_action info B) as [act|].
      + rewrite map_app, Kf, (K true (nn_drop e act) (fun _ => eq_refl)).
        apply NoDup_app_intro; [apply map_app_tail_NoDup; exact N..|].
        intros x I J. apply in_map_iff in I, J. destruct I as (y & <- & _), J as (z & E & _).
        apply app_inj_tail in E. destruct E; discriminate.
      + rewrite Kf. apply map_app_tail_NoDup. exact N.
  Qed.

  Lemma nn_args_sorted d a : msorted a -> msorted (fold_left nn_arg d a).
  Proof.
    revert a. induction d as [|e d IH]; intros a S; simpl; [exact S|]. apply IH. unfold nn_arg.
    destruct (pe_id e); [|exact S]. destruct (pe_elem e); [exact S|].
    destruct (get_nullable_action info nt); [apply bt_insert_sorted|]; exact S.
  Qed.

  Lemma last_named_cons e d id (B : NT) : last_named (T := T) d id B -> last_named (e :: d) id B.
  Proof. intros (pre & post & -> & F). exists (e :: pre), post. auto. Qed.

  Lemma nn_args_get d a id :
    (forall e, In e d -> exists B, pe_elem e = NonTerm B /\ derives_empty g B) ->
    (exists B t, last_named d id B /\ get_nullable_action info B = Some t /\
                 bt_get id (fold_left nn_arg d a) = Some t) \/
    ((forall e, In e d -> pe_id e <> Some id) /\ bt_get id (fold_left nn_arg d a) = bt_get id a).
  Proof.
    revert a. induction d as [|e d IH]; intros a F; simpl; [right; split; [intros e []|reflexivity]|].
    destruct (IH (nn_arg a e)) as [(B & t & L & G & E)|[N E]].
    - intros e' I. apply F. right. exact I.
    - left. exists B, t. split; [apply last_named_cons; exact L|]. auto.
    - destruct (F e (or_introl eq_refl)) as (B & Ee & De). apply action_some in De. destruct De as (t & G).
      rewrite E. unfold nn_arg. rewrite Ee, G. destruct (pe_id e) as [id'|] eqn:Ei.
      + rewrite bt_get_insert. destruct (eqb_spec id id') as [<-|Ne].
        * left. exists B, t. split; [|split; [exact G|reflexivity]]. exists [], d. split.
          -- destruct e as [i el]; simpl in *; subst. reflexivity.
          -- exact N.
        * right. split; [|reflexivity]. intros e' [<-|I] X; [congruence|exact (N e' I X)].
      + right. split; [|reflexivity]. intros e' [<-|I] X; [congruence|exact (N e' I X)].
  Qed.

  Lemma choice_dropped es fl k d : choice g es fl k d ->
    forall e, In e d -> exists B, pe_elem e = NonTerm B /\ derives_empty g B.
  Proof.
    intro C. induction C as [|e t es fl k d E C IH|e B es fl k d E C IH|e B es fl k d E De C IH]; auto.
    - intros e [].
    - intros e' [<-|I]; [exists B; auto|auto].
  Qed.

  Lemma last_named_In d id (B : NT) : last_named (T := T) d id B ->
    In (Build_ProdElement (Some id) (NonTerm B)) d.
  Proof. intros (pre & post & -> & _). apply in_or_app. right. left. reflexivity. Qed.

  Lemma nn_args_spec es fl k d : choice g es fl k d ->
    forall id t, In (id, t) (fold_left nn_arg d []) <-> exists B, last_named d id B /\ null_tree g B t.
  Proof.
    intros C id t. rewrite <- bt_get_iff by (apply nn_args_sorted; constructor).
    destruct (nn_args_get d [] id (choice_dropped es fl k d C)) as [(B & u & L & G & E)|[N E]]; rewrite E.
    - split.
      + intro X. injection X as <-. exists B. split; [exact L|]. apply Tr. exact G.
      + intros (B' & L' & N'). rewrite (last_named_fun d id B' B L' L) in N'. apply Tr in N'. congruence.
    - split; [discriminate|]. intros (B & L & _). exfalso. exact (N _ (last_named_In d id B L) eq_refl).
  Qed.

  Lemma choice_fun es fl k d k' d' : choice g es fl k d -> choice g es fl k' d' -> k = k' /\ d = d'.
  Proof.
    intro C. revert k' d'.
    induction C as [|e t es fl k d E C IH|e B es fl k d E C IH|e B es fl k d E De C IH]; intros k' d' C'; inversion C'; subst;
      try congruence; auto; match goal with X : choice g es fl _ _ |- _ => destruct (IH _ _ X) as [-> ->] end; auto.
  Qed.

  Definition nn_prods (p : Prod T NT AK AV) : list (ProdInner T NT (NNActionKey AK) (NNActionValue NT AK AV)) :=
    map spec_prod (if is_prod_nullable info p then [] else build_nonnull_prods info p).

  Lemma nn_map_inj {X Y} (f : X -> Y) (l : list X) x y : NoDup (map f l) -> In x l -> In y l -> f x = f y -> x = y.
  Proof.
    induction l as [|a l IH]; simpl; intros N I J E; [destruct I|]. inversion N as [|? ? NI N']; subst.
    destruct I as [->|I], J as [->|J]; auto.
    - exfalso. apply NI. rewrite E. apply in_map. exact J.
    - exfalso. apply NI. rewrite <- E. apply in_map. exact I.
  Qed.

  Lemma nn_prods_variants A i p : nth_prod g A i p -> variants g p (nn_prods (Build_Prod A i p)).
  Proof.
    intro Np. pose proof (NulP A i p Np) as Q. unfold nn_prods, variants.
    destruct (is_prod_nullable info (Build_Prod A i p)).
    - left. split; [apply Q; reflexivity|reflexivity].
    - right. split; [intro X; apply Q in X; discriminate|].
      unfold build_nonnull_prods. rewrite map_map. simpl.
      change (prod_elements (Build_Prod A i p)) with (pi_elements p).
      change (action_key (Build_Prod A i p)) with (pi_action_key p).
      change (action_value (Build_Prod A i p)) with (pi_action_value p).
      set (L := fold_left (nn_step info) (pi_elements p) [Build_ProdBuildState [] [] []]).
      assert (IL : forall s, In s L <-> exists fl k d, choice g (pi_elements p) fl k d /\
         s = Build_ProdBuildState k fl (fold_left nn_arg d [])).
      { intro s. unfold L. rewrite nn_fold_In. split.
        - intros (s0 & fl & k & d & [<-|[]] & C & ->). exists fl, k, d. auto.
        - intros (fl & k & d & C & ->). exists (Build_ProdBuildState [] [] []), fl, k, d.
          split; [left; reflexivity|auto]. }
      assert (ND : NoDup (map bs_nullable_states L)).
      { apply nn_fold_NoDup. constructor; [intros []|constructor]. }
      match goal with |- NoDup (map ?f L) /\ _ => set (F := f) end.
      assert (NF : NoDup (map (fun q => nk_nullable_states (pi_action_key q)) (map F L))).
      { rewrite map_map. exact ND. }
      split; [exact (NoDup_map_inv _ _ NF)|]. split.
      + intros fl k d C. exists (F (Build_ProdBuildState k fl (fold_left nn_arg d []))).
        assert (I0 : In (F (Build_ProdBuildState k fl (fold_left nn_arg d []))) (map F L)).
        { apply in_map. apply IL. exists fl, k, d. auto. }
        split; [exact I0|]. split; [reflexivity|]. intros q' I E.
        apply (nn_map_inj (fun q => nk_nullable_states (pi_action_key q)) (map F L)); assumption.
      + intro q. rewrite in_map_iff. split.
        * intros (s & <- & I). apply IL in I. destruct I as (fl & k & d & C & ->).
          exists fl, k, d. split; [exact C|]. simpl. split; [reflexivity|]. split; [reflexivity|]. split; [reflexivity|].
          split; [apply nn_args_sorted; constructor|]. exact (nn_args_spec _ _ _ _ C).
        * intros (fl & k & d & C & E1 & E2 & E3 & Sd & E4).
          exists (Build_ProdBuildState k fl (fold_left nn_arg d [])). split; [|apply IL; exists fl, k, d; auto].
          destruct q as [qk [qv qa] qe]. simpl in *. subst. unfold F. simpl. f_equal. f_equal.
          apply msorted_ext; [apply nn_args_sorted; constructor|exact Sd|]. intro id.
          destruct (bt_get id qa) as [t|] eqn:G.
          -- apply bt_get_iff; [apply nn_args_sorted; constructor|]. apply (nn_args_spec _ _ _ _ C). apply E4.
             apply bt_get_In. exact G.
          -- destruct (bt_get id (fold_left nn_arg d [])) as [t|] eqn:G'; [|reflexivity]. apply bt_get_In in G'.
             apply (nn_args_spec _ _ _ _ C) in G'. apply E4 in G'. apply bt_get_iff in G'; [|exact Sd]. congruence.
  Qed.

  (** The rules given to [build]. *)
  Let calls := map (nn_rule_call (AV := AV) info) (rule_set g).
  Definition nn_rule (r : RuleInner T NT AK AV) : RuleInner T NT (NNActionKey AK) (NNActionValue NT AK AV) :=
    Build_RuleInner (r_head r) (flat_map nn_prods (rule_prods r)).

  Lemma nn_calls_prods r :
    map spec_prod (flat_map (fun prod => if is_prod_nullable info prod then [] else build_nonnull_prods info prod)
         (rule_prods r)) = flat_map nn_prods (rule_prods r).
  Proof.
    unfold nn_prods. induction (rule_prods r) as [|p ps IH]; [reflexivity|]. simpl. rewrite map_app, IH. reflexivity.
  Qed.

  Lemma nn_last A rcs : last_rule calls A rcs <-> exists r, In (A, r) (rule_set g) /\ AddRule A rcs = nn_rule_call info (A, r).
  Proof.
    unfold calls. split.
    - intros (pre & post & E & _).
      assert (I : In (AddRule A rcs) (map (nn_rule_call info) (rule_set g))).
      { rewrite E. apply in_or_app. right. left. reflexivity. }
      apply in_map_iff in I. destruct I as ([A' r] & E' & I). assert (A' = A) by (unfold nn_rule_call in E'; simpl in E'; congruence).
      subst A'. exists r. auto.
    - intros (r & I & E). pose proof (proj1 W) as Sd. apply in_split in I. destruct I as (l1 & l2 & S).
      rewrite S, map_app. simpl. rewrite <- E.
      exists (map (nn_rule_call info) l1), (map (nn_rule_call info) l2). split; [reflexivity|].
      intros rcs' I. apply in_map_iff in I. destruct I as ([A' r'] & E' & I).
      assert (A' = A) by (unfold nn_rule_call in E'; simpl in E'; congruence). subst A'.
      unfold msorted, bt_keys in Sd. rewrite S, map_app in Sd. apply sorted_NoDup in Sd. simpl in Sd.
      apply NoDup_remove_2 in Sd. apply Sd. apply in_or_app. right. apply (in_map fst) in I. exact I.
  Qed.

  Lemma nn_rule_set : rule_set (calls_grammar (start_symbol g) calls) =
    map (fun e => (fst e, nn_rule (snd e))) (rule_set g).
  Proof.
    assert (S2 : msorted (map (fun e => (fst e, nn_rule (snd e))) (rule_set g))).
    { unfold msorted, bt_keys. rewrite map_map. exact (proj1 W). }
    apply msorted_ext; [apply calls_rs_wf|exact S2|]. intro A.
    assert (X : forall r', bt_get A (rule_set (calls_grammar (start_symbol g) calls)) = Some r' <->
      bt_get A (map (fun e => (fst e, nn_rule (snd e))) (rule_set g)) = Some r').
    { intro r'. rewrite calls_get, (bt_get_iff A r' _ S2), in_map_iff. split.
      - intros (rcs & L & ->). apply nn_last in L. destruct L as (r & I & E). exists (A, r). split; [|exact I].
        simpl. unfold nn_rule. rewrite (proj2 W A r I). unfold nn_rule_call in E. injection E as ->. simpl.
        rewrite nn_calls_prods. reflexivity.
      - intros ([A' r] & E & I). simpl in E. injection E as -> <-.
        eexists. split; [apply nn_last; exists r; split; [exact I|reflexivity]|].
        unfold nn_rule. rewrite (proj2 W A r I). simpl. rewrite nn_calls_prods. reflexivity. }
    destruct (bt_get A (rule_set _)) as [r1|] eqn:E1.
    - symmetry. apply X. reflexivity.
    - destruct (bt_get A (map _ _)) as [r2|] eqn:E2; [|reflexivity]. apply X. reflexivity.
  Qed.

  Lemma number_prods_nth h i (ps : list (ProdInner T NT AK AV)) p :
    In p (number_prods (NT := NT) h i ps) -> In (p_inner p) ps.
  Proof. intro I. rewrite <- (number_prods_inner h i ps). apply in_map. exact I. Qed.

  Lemma rule_In_nth A r p : In (A, r) (rule_set g) -> In p (rule_prods r) ->
    p = Build_Prod A (p_ix p) (p_inner p) /\ nth_prod g A (p_ix p) (p_inner p).
  Proof.
    intros I J. apply rule_prods_In in J. destruct J as [E J]. rewrite (proj2 W A r I) in E. split.
    - destruct p; simpl in *; subst; reflexivity.
    - exists r. auto.
  Qed.

  (** Elements of the variants. *)
  Lemma choice_full es : exists fl, choice g es fl es [].
  Proof.
    induction es as [|e es (fl & IH)]; [exists []; constructor|]. destruct (pe_elem e) as [t|B] eqn:E.
    - exists fl. apply ch_term with t; assumption.
    - exists (false :: fl). apply ch_keep with B; assumption.
  Qed.
  Lemma choice_kept es fl k d : choice g es fl k d -> incl k es.
  Proof. intro C. induction C; intros x I; simpl in *; intuition. Qed.

  Lemma variants_full p qs : variants g p qs -> ~ body_derives_empty g p ->
    exists q, In q qs /\ pi_elements q = pi_elements p.
  Proof.
    intros [[X _]|(_ & _ & Ex & V)] N; [contradiction|]. destruct (choice_full (pi_elements p)) as (fl & C).
    destruct (Ex _ _ _ C) as (q & I & E & _). exists q. split; [exact I|]. apply V in I.
    destruct I as (fl' & k & d & C' & Ek & Ea & _). rewrite Ea in E. simpl in E. subst fl'.
    destruct (choice_fun _ _ _ _ _ _ C C') as [-> _]. exact Ek.
  Qed.

  Lemma nn_mentions A B : mentions calls A B <-> kept_mentions g A B.
  Proof.
    rewrite <- (calls_mentions (start_symbol g)). unfold gmentions. rewrite nn_rule_set. split.
    - intros (r & q & I & J & K). apply in_map_iff in I. destruct I as ([A' r0] & E & I). simpl in E. injection E as -> <-.
      simpl in J. apply in_flat_map in J. destruct J as (p & Ip & Iq).
      destruct (rule_In_nth A r0 p I Ip) as [Ep Np]. rewrite Ep in Iq.
      destruct (nn_prods_variants _ _ _ Np) as [[_ X]|(NE & _ & _ & V)]; [rewrite X in Iq; destruct Iq|].
      apply V in Iq. destruct Iq as (fl & k & d & C & Ek & _). exists (p_inner p).
      split; [apply prod_of_nth; exists (p_ix p); exact Np|]. split; [exact NE|].
      unfold elements_iter in K. rewrite Ek in K. apply in_map_iff in K. destruct K as (e & Ee & K).
      apply in_map_iff. exists e. split; [exact Ee|]. exact (choice_kept _ _ _ _ C e K).
    - intros (p & (r & I & J) & NE & K). apply In_nth_error in J. destruct J as (i & J).
      assert (Np : nth_prod g A i p) by (exists r; auto).
      destruct (variants_full p _ (nn_prods_variants A i p Np) NE) as (q & Iq & Eq).
      exists (nn_rule r), q. split; [apply in_map_iff; exists (A, r); auto|]. split.
      + simpl. apply in_flat_map. exists (Build_Prod A i p). split; [|exact Iq].
        apply rule_prods_In. simpl. rewrite (proj2 W A r I). auto.
      + unfold elements_iter. rewrite Eq. exact K.
  Qed.

  Lemma nn_defined A : defined calls A <-> gdefined g A.
  Proof.
    rewrite <- (calls_defined (start_symbol g)). unfold gdefined. rewrite nn_rule_set. unfold bt_keys.
    rewrite map_map. reflexivity.
  Qed.

  Lemma kept_gmentions A B : kept_mentions g A B -> gmentions g A B.
  Proof. intros (p & (r & I & J) & _ & K). exists r, p. auto. Qed.

  Lemma nn_no_prods A : err_no_prods calls A <->
    exists r, In (A, r) (rule_set g) /\ forall p, In p (r_prods r) -> body_derives_empty g p.
  Proof.
    unfold err_no_prods. rewrite nn_last. split.
    - intros (r & I & E). exists r. split; [exact I|]. intros p J. apply In_nth_error in J. destruct J as (i & J).
      assert (Np : nth_prod g A i p) by (exists r; auto).
      unfold nn_rule_call in E. simpl in E. injection E as E. symmetry in E.
      pose proof (nn_calls_prods r) as Q. rewrite E in Q. simpl in Q.
      apply (NulP A i p Np). destruct (is_prod_nullable info (Build_Prod A i p)) eqn:X; [reflexivity|].
      assert (Nn : ~ body_derives_empty g p) by (intro Y; apply (NulP A i p Np) in Y; congruence).
      destruct (variants_full p _ (nn_prods_variants A i p Np) Nn) as (q & Iq & _).
      assert (Z : In q (flat_map nn_prods (rule_prods r))); [|rewrite <- Q in Z; destruct Z].
      apply in_flat_map. exists (Build_Prod A i p). split; [|exact Iq].
      apply rule_prods_In. simpl. rewrite (proj2 W A r I). auto.
    - intros (r & I & F). exists r. split; [exact I|]. unfold nn_rule_call. simpl. f_equal.
      symmetry. rewrite flat_map_concat_map.
      assert (E : map (fun prod => if is_prod_nullable info prod then [] else build_nonnull_prods info prod) (rule_prods r)
                = map (fun _ => []) (rule_prods r)).
      { apply map_ext_in. intros p J. destruct (rule_In_nth A r p I J) as [Ep Np].
        rewrite Ep. replace (is_prod_nullable info _) with true; [reflexivity|]. symmetry. apply (NulP _ _ _ Np). apply F.
        apply (number_prods_nth _ _ _ _ J). }
      rewrite E. clear E. induction (rule_prods r); simpl; auto.
  Qed.

  Lemma nn_star A B : star (mentions calls) A B <-> star (kept_mentions g) A B.
  Proof. apply star_ext. exact nn_mentions. Qed.
  Lemma nn_plus A B : plus (mentions calls) A B <-> plus (kept_mentions g) A B.
  Proof. apply plus_ext. exact nn_mentions. Qed.

  Lemma kept_star_defined A : star (kept_mentions g) (start_symbol g) A -> gdefined g A.
  Proof.
    intro S. destruct S as [|y z S M]; [exact (acc_start g Acc)|]. exact (acc_mentioned g Acc _ _ (kept_gmentions _ _ M)).
  Qed.

  Lemma nn_build :
    (nonnull_rejected g /\ exists e, runs_to (build (start_symbol g) calls) (Ret (Err e))) \/
    (~ nonnull_rejected g /\ runs_to (build (start_symbol g) calls) (Ret (Ok (calls_grammar (start_symbol g) calls)))).
  Proof.
    destruct (build_spec (start_symbol g) calls) as (r & R & P). destruct r as [res|m|]; [| |destruct P].
    - destruct P as (_ & e & (_ & U) & (_ & D) & (_ & N) & C).
      assert (DN : nonterms_without_rules e = []).
      { apply nil_iff_none. intros B I. apply D in I. destruct I as [(A & M) X]. apply X. apply nn_defined.
        apply (acc_mentioned g Acc A). apply kept_gmentions. apply nn_mentions. exact M. }
      destruct C as [(-> & EU & _ & EN)|(-> & NC)].
      + right. split; [|exact R]. intros [(A & r & I & F)|(A & B & M & NP)].
        * assert (Z : In A (rules_without_prods e)); [|rewrite EN in Z; destruct Z].
          apply N. apply nn_no_prods. exists r. auto.
        * assert (Z : In B (unreachable_nonterms e)); [|rewrite EU in Z; destruct Z].
          apply U. split; [exists A; apply nn_mentions; exact M|]. rewrite nn_plus. exact NP.
      + left. split; [|exists e; exact R]. destruct (rules_without_prods e) as [|A l] eqn:EN.
        * destruct (unreachable_nonterms e) as [|B l'] eqn:EU; [exfalso; apply NC; auto|].
          right. destruct (proj1 (U B) (or_introl eq_refl)) as [(A & M) NP].
          exists A, B. split; [apply nn_mentions; exact M|]. rewrite <- nn_plus. exact NP.
        * left. destruct (proj1 (nn_no_prods A) (proj1 (N A) (or_introl eq_refl))) as (r & I & F). exists A, r. auto.
    - destruct P as (A & S & D). exfalso. apply D. apply nn_defined. apply kept_star_defined. apply nn_star. exact S.
  Qed.

  (** *** The language of the result *)
  Let g' : NonNullGrammar T NT AK AV := calls_grammar (start_symbol g) calls.

  Lemma nn_rhs A rhs : rhs_of g' A rhs <->
    exists p fl k d, prod_of g A p /\ ~ body_derives_empty g p /\ choice g (pi_elements p) fl k d /\ rhs = map pe_elem k.
  Proof.
    unfold rhs_of, prod_of at 1. unfold g'. rewrite nn_rule_set. split.
    - intros (q & (r & I & J) & ->). apply in_map_iff in I. destruct I as ([A' r0] & E & I). simpl in E. injection E as -> <-.
      simpl in J. apply in_flat_map in J. destruct J as (p & Ip & Iq).
      destruct (rule_In_nth A r0 p I Ip) as [Ep Np]. rewrite Ep in Iq.
      destruct (nn_prods_variants _ _ _ Np) as [[_ X]|(NE & _ & _ & V)]; [rewrite X in Iq; destruct Iq|].
      apply V in Iq. destruct Iq as (fl & k & d & C & Ek & _). exists (p_inner p), fl, k, d.
      split; [apply prod_of_nth; exists (p_ix p); exact Np|]. split; [exact NE|]. split; [exact C|].
      rewrite Ek. reflexivity.
    - intros (p & fl & k & d & (r & I & J) & NE & C & ->). apply In_nth_error in J. destruct J as (i & J).
      assert (Np : nth_prod g A i p) by (exists r; auto).
      destruct (nn_prods_variants A i p Np) as [[X _]|(_ & _ & Ex & V)]; [contradiction|].
      destruct (Ex _ _ _ C) as (q & Iq & Eq & _). pose proof Iq as Iq'. apply V in Iq'.
      destruct Iq' as (fl' & k' & d' & C' & Ek & Ea & _). rewrite Ea in Eq. simpl in Eq. subst fl'.
      destruct (choice_fun _ _ _ _ _ _ C C') as [-> _]. exists q. split; [|rewrite Ek; reflexivity].
      exists (nn_rule r). split; [apply in_map_iff; exists (A, r); auto|]. simpl. apply in_flat_map.
      exists (Build_Prod A i p). split; [|exact Iq]. apply rule_prods_In. simpl. rewrite (proj2 W A r I). auto.
  Qed.

  Lemma strict_gen es w : strict g es w -> gen (rhs_of g) es w.
  Proof.
    intro S. induction S as [|t es w S IH|A es w De S IH|A p es u w Pp NE Su IHu S IH].
    - constructor.
    - constructor. exact IH.
    - apply gen_cons_nt. exists [], w. auto.
    - apply gen_nonterm with (map pe_elem (pi_elements p)); [exists p; auto|assumption..].
  Qed.

  Lemma choice_strict es fl k d : choice g es fl k d -> forall w, strict g (map pe_elem k) w -> strict g (map pe_elem es) w.
  Proof.
    intro C. induction C as [|e t es fl k d E C IH|e B es fl k d E C IH|e B es fl k d E De C IH]; intros w S; simpl in *; auto.
    - rewrite E in *. inversion S; subst. constructor. auto.
    - rewrite E in *. inversion S; subst.
      + apply st_empty; auto.
      + apply st_node with p; auto.
    - rewrite E. apply st_empty; auto.
  Qed.

  Lemma gen'_strict es w : gen (rhs_of g') es w -> strict g es w.
  Proof.
    intro G. induction G as [|t es w G IH|A rhs es u w Pr Gu IHu G IH].
    - constructor.
    - constructor. exact IH.
    - apply nn_rhs in Pr. destruct Pr as (p & fl & k & d & Pp & NE & C & ->).
      apply st_node with p; try assumption. exact (choice_strict _ _ _ _ C _ IHu).
  Qed.

  Lemma gen'_nonempty A w : lang (rhs_of g') A w -> w <> [].
  Proof.
    intros L ->. apply lang_iff in L. destruct L as (rhs & Pr & G). apply nn_rhs in Pr.
    destruct Pr as (p & fl & k & d & Pp & NE & C & ->). apply NE. apply strict_gen.
    apply (choice_strict _ _ _ _ C). apply gen'_strict. exact G.
  Qed.

  (** Conversely a strict derivation of a body gives a choice of dropped elements. *)
  Lemma strict_choice es w : strict g es w ->
    forall pes, map pe_elem pes = es -> exists fl k d, choice g pes fl k d /\ gen (rhs_of g') (map pe_elem k) w.
  Proof.
    intro S. induction S as [|t es w S IH|A es w De S IH|A p es u w Pp NE Su IHu S IH]; intros pes E.
    - destruct pes; [|discriminate]. exists [], [], []. split; constructor.
    - destruct pes as [|e pes]; [discriminate|]. simpl in E. injection E as E1 E2.
      destruct (IH pes E2) as (fl & k & d & C & G). exists fl, (e :: k), d. split; [apply ch_term with t; assumption|].
      simpl. rewrite E1. constructor. exact G.
    - destruct pes as [|e pes]; [discriminate|]. simpl in E. injection E as E1 E2.
      destruct (IH pes E2) as (fl & k & d & C & G). exists (true :: fl), k, (e :: d).
      split; [apply ch_drop with A; assumption|exact G].
    - destruct pes as [|e pes]; [discriminate|]. simpl in E. injection E as E1 E2.
      destruct (IH pes E2) as (fl & k & d & C & G). exists (false :: fl), (e :: k), d.
      split; [apply ch_keep with A; assumption|]. simpl. rewrite E1.
      destruct (IHu (pi_elements p) eq_refl) as (fl' & k' & d' & C' & G').
      apply gen_nonterm with (map pe_elem k'); [|exact G'|exact G].
      apply nn_rhs. exists p, fl', k', d'. auto.
  Qed.

  Lemma nn_lang_exact A w : lang (rhs_of g') A w <-> w <> [] /\ strict g [NonTerm A] w.
  Proof.
    split.
    - intro L. split; [exact (gen'_nonempty A w L)|exact (gen'_strict _ _ L)].
    - intros [N S]. inversion S as [| |A' es w' De S'|A' p es u w' Pp NE Su S']; subst.
      + inversion S'; subst. congruence.
      + inversion S'; subst. rewrite app_nil_r.
        destruct (strict_choice _ _ Su (pi_elements p) eq_refl) as (fl & k & d & C & G).
        apply lang_iff. exists (map pe_elem k). split; [|exact G]. apply nn_rhs. exists p, fl, k, d. auto.
  Qed.

  Lemma pure_strict : null_prods_pure g -> forall es w, gen (rhs_of g) es w -> strict g es w.
  Proof.
    intros Pu es w G. induction G as [|t es w G IH|A rhs es u w Pr Gu IHu G IH].
    - constructor.
    - constructor. exact IH.
    - destruct Pr as (p & Pp & ->). apply prod_of_nth in Pp as Np. destruct Np as (i & Np).
      pose proof (NulP A i p Np) as Q. destruct (is_prod_nullable info (Build_Prod A i p)).
      + assert (u = []) as -> by (apply (Pu A p); [exact Pp|apply Q; reflexivity|exact Gu]).
        apply st_empty; [|exact IH]. apply lang_iff. exists (map pe_elem (pi_elements p)). split; [exists p; auto|exact Gu].
      + apply st_node with p; try assumption. intro X. apply Q in X. discriminate.
  Qed.

  Lemma nn_shape : Forall2 (fun e e' => fst e' = fst e /\ r_head (snd e') = fst e /\
      exists vss, Forall2 (variants g) (r_prods (snd e)) vss /\ r_prods (snd e') = concat vss)
    (rule_set g) (rule_set g').
  Proof.
    unfold g'. rewrite nn_rule_set. pose proof (proj2 W) as Wh.
    assert (G : forall l, incl l (rule_set g) -> Forall2 (fun e e' => fst e' = fst e /\ r_head (snd e') = fst e /\
      exists vss, Forall2 (variants g) (r_prods (snd e)) vss /\ r_prods (snd e') = concat vss)
      l (map (fun e => (fst e, nn_rule (snd e))) l)).
    { induction l as [|[A r] l IH]; intro I; simpl; constructor; [|apply IH; intros x J; apply I; right; exact J].
      assert (J : In (A, r) (rule_set g)) by (apply I; left; reflexivity).
      simpl. split; [reflexivity|]. split; [exact (Wh A r J)|].
      exists (map nn_prods (rule_prods r)). split; [|apply flat_map_concat_map].
      assert (F : forall p, In p (rule_prods r) -> variants g (p_inner p) (nn_prods p)).
      { intros p Ip. destruct (rule_In_nth A r p J Ip) as [Ep Np]. rewrite Ep at 2. apply nn_prods_variants. exact Np. }
      revert F. unfold rule_prods. generalize 0. generalize (r_prods r).
      induction l0 as [|p ps IHp]; intros n F; simpl; constructor.
      - exact (F _ (or_introl eq_refl)).
      - apply IHp. intros q Iq. apply F. right. exact Iq. }
    apply G. intros x I. exact I.
  Qed.
End NN.
