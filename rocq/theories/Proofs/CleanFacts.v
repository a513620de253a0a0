(** Cleaning a grammar works. *)
From Coq Require Import String List Arith Lia Bool.
From Verif.Model Require Import Ord BTree Outcome Utils Grammar Tokens Tree State.
From Verif.Spec Require Import Reach Cfg BuildSpec OrderSpec EarleySpec GrammarTestSpec CleanSpec.
From Verif.Proofs Require Import OrdFacts BTreeFacts LoopFacts UtilsFacts GrammarFacts BuildMore CfgFacts ExampleFacts NullableFacts
  OrderFacts EarleyMore GrammarTestFacts.
From Verif.Properties Require Import UtilsProps.
Import ListNotations.
Local Open Scope list_scope.

Section Clean.
  Context {T NT AK AV : Type} `{OrdEq T} `{OrdEq NT}.
  Variable g : Grammar T NT AK AV.
  Hypothesis Bg : built g.
  Local Notation P := (rhs_of g).
  Local Notation S0 := (start_nt g).
  Let W : rs_wf g := built_rs_wf g Bg.

  Definition words (es : list (Elem T NT)) : Prop := exists u, gen P es u.
  Lemma words_iff es : words es <-> forall B, In (NonTerm B) es -> exists u, lang P B u.
  Proof.
    split.
    - intros (u & G). revert u G. induction es as [|e es IH]; intros u G B I; [destruct I|]. destruct I as [->|I].
      + apply gen_nt_inv in G as (x & y & _ & L & _). exists x. exact L.
      + inversion G; subst; eapply IH; eauto.
    - induction es as [|e es IH]; intro A; [exists []; constructor|].
      destruct IH as (u & G); [intros B I; apply A; right; exact I|]. destruct e as [t|B].
      + exists (t :: u). constructor. exact G.
      + destruct (A B (or_introl eq_refl)) as (v & L). exists (v ++ u). apply gen_nt; assumption.
  Qed.
  Lemma words_app es es' : words (es ++ es') <-> words es /\ words es'.
  Proof.
    rewrite !words_iff. split.
    - intro A. split; intros B I; apply A; apply in_or_app; auto.
    - intros [A A'] B I. apply in_app_or in I as [I|I]; auto.
  Qed.
  Lemma prod_rhs A p : prod_of g A p -> P A (map pe_elem (pi_elements p)).
  Proof. intro X. exists p. auto. Qed.

  (** One step through a production that derives a word, and what it reaches. *)
  Definition step (A B : NT) : Prop := exists p, prod_of g A p /\ words (elements_iter p) /\ In (NonTerm B) (elements_iter p).
  Definition keep (A : NT) : Prop := star step S0 A.

  Section Some_word.
    Hypothesis Ne : exists u, lang P S0 u.
    Lemma keep_words A : keep A -> exists u, lang P A u.
    Proof. intros [|y z _ (p & _ & Wd & I)]; [exact Ne|]. exact (proj1 (words_iff _) Wd _ I). Qed.

    Lemma keep_form es : derives_form P [NonTerm S0] es -> words es -> forall A, In (NonTerm A) es -> keep A.
    Proof.
      induction 1 as [|es es' D IH E]; intros Wd A I.
      - destruct I as [[= <-]|[]]. constructor.
      - destruct E as [pre B rhs post Pr]. apply words_app in Wd as [W1 W2]. apply words_app in W2 as [W2 W3].
        assert (Wb : words (pre ++ NonTerm B :: post)).
        { apply words_app. split; [exact W1|]. change (NonTerm B :: post) with ([@NonTerm T NT B] ++ post). apply words_app. split; [|exact W3].
          destruct W2 as (u & G). exists u. exact (lang_intro _ _ _ _ Pr G). }
        specialize (IH Wb). apply in_app_or in I as [I|I]; [apply IH, in_or_app; auto|].
        apply in_app_or in I as [I|I]; [|apply IH, in_or_app; right; right; exact I].
        destruct Pr as (p & Ip & ->). apply (star_step _ _ B); [apply IH, in_elt|]. exists p. auto.
    Qed.
    Lemma form_keep A : keep A -> exists pre post, derives_form P [NonTerm S0] (pre ++ NonTerm A :: post) /\ words pre /\ words post.
    Proof.
      induction 1 as [|y z _ (pre & post & D & W1 & W3) (p & Ip & Wd & I)].
      - exists [], []. split; [constructor|]. split; exists []; constructor.
      - apply in_split in I as (l & r & E). unfold elements_iter in *. rewrite E in Wd. apply words_app in Wd as [Wl Wr].
        change (NonTerm z :: r) with ([@NonTerm T NT z] ++ r) in Wr. apply words_app in Wr as [_ Wr].
        exists (pre ++ l), (r ++ post). split; [|split; apply words_app; auto].
        apply (star_step _ _ (pre ++ NonTerm y :: post)); [exact D|].
        replace ((pre ++ l) ++ NonTerm z :: r ++ post) with (pre ++ (l ++ NonTerm z :: r) ++ post) by now rewrite <- !app_assoc.
        constructor. rewrite <- E. apply prod_rhs. exact Ip.
    Qed.
    Lemma used_iff A p : used g A p <-> prod_of g A p /\ keep A /\ words (elements_iter p).
    Proof.
      split.
      - intros (Ip & pre & post & u & D & G). split; [exact Ip|].
        assert (Wd : words (pre ++ elements_iter p ++ post)) by (exists u; exact G).
        pose proof Wd as Wd'. apply words_app in Wd' as [W1 W2]. apply words_app in W2 as [W2 W3]. split; [|exact W2].
        apply (keep_form _ D); [|apply in_elt]. apply words_app. split; [exact W1|].
        change (NonTerm A :: post) with ([@NonTerm T NT A] ++ post). apply words_app. split; [|exact W3].
        destruct W2 as (v & G2). exists v. exact (lang_intro _ _ _ _ (prod_rhs _ _ Ip) G2).
      - intros (Ip & Ka & Wd). split; [exact Ip|]. destruct (form_keep A Ka) as (pre & post & D & W1 & W3).
        assert (X : words (pre ++ elements_iter p ++ post)) by (apply words_app; split; [exact W1|apply words_app; auto]).
        destruct X as (u & G). exists pre, post, u. auto.
    Qed.

    (** The program. *)
    Variable s : btset NT.
    Hypothesis Us : forall A, In A s <-> exists u, lang P A u.
    Lemma kept_iff A r p : In (A, r) (rule_set g) ->
      (In p (map p_inner (kept_prods s r)) <-> In p (r_prods r) /\ words (elements_iter p)).
    Proof.
      intro I. unfold kept_prods. rewrite in_map_iff.
      assert (F : forall q : Prod T NT AK AV, forallb (fun B => bs_mem B s) (filter_map as_nonterm (elements q)) = true <-> words (elements_iter (p_inner q))).
      { intro q. rewrite words_iff, forallb_forall. unfold elements. split.
        - intros A' B J. apply Us. apply bs_mem_In_iff, A', filter_map_In. exists (NonTerm B). auto.
        - intros A' B J. apply bs_mem_In_iff, Us, A'. apply filter_map_In in J as (e & J & E). apply as_nonterm_Some in E. now subst. }
      split.
      - intros (q & <- & J). apply filter_In in J as [J K]. apply rule_prods_In in J as [_ J]. split; [exact (nth_error_In _ _ J)|now apply F].
      - intros [J Wd]. apply In_nth_error in J as (i & J). exists (Build_Prod (r_head r) i p). split; [reflexivity|].
        apply filter_In. split; [apply rule_prods_In; auto|now apply F].
    Qed.
    Lemma next_iff A B : In B (kept_next g s A) <-> step A B.
    Proof.
      unfold kept_next, try_get_rule. destruct (bt_get A (rule_set g)) as [r|] eqn:E.
      - apply (bt_get_iff A r _ (proj1 W)) in E. rewrite filter_map_In. split.
        + intros (e & I & E'). apply as_nonterm_Some in E'. subst e. apply in_flat_map in I as (q & I & J).
          apply (in_map p_inner) in I. apply (kept_iff A r _ E) in I as [I Wd]. exists (p_inner q). split; [exists r; auto|auto].
        + intros (p & (r' & I & J) & Wd & K). apply (bt_get_iff A r' _ (proj1 W)) in I. apply (bt_get_iff A r _ (proj1 W)) in E.
          assert (r' = r) as -> by congruence. apply (bt_get_iff A r _ (proj1 W)) in E.
          pose proof (proj2 (kept_iff A r p E) (conj J Wd)) as X. apply in_map_iff in X as (q & <- & X).
          exists (NonTerm B). split; [apply in_flat_map; exists q; auto|reflexivity].
      - split; [intros []|]. intros (p & (r' & I & _) & _). apply (bt_get_iff A r' _ (proj1 W)) in I. congruence.
    Qed.
    Lemma walk : exists k, runs_to (breadth_first_search [S0] (fun A => Ret (kept_next g s A))) (Ret k) /\ forall B, In B (bs_add S0 k) <-> keep B.
    Proof.
      destruct (proj2 (C22_bfs_terminates (kept_next g s) [S0])) as (k & R).
      { exists s. intros x y _ (z & _ & X). apply next_iff in X as (p & _ & Wd & I). apply Us. exact (proj1 (words_iff _) Wd _ I). }
      exists k. split; [exact R|]. destruct R as [_ [n R]]. pose proof (C22_bfs_result _ _ _ _ (R n (le_n n))) as [_ M].
      assert (St : forall A B, star (fun a b => In b (kept_next g s a)) A B <-> star step A B).
      { intros A B. split; (induction 1 as [|y z _ IH E]; [constructor|apply (star_step _ _ y); [exact IH|now apply next_iff]]). }
      intro B. rewrite bs_add_In, M. split.
      - intros [->|(x & [<-|[]] & y & X & E)]; [constructor|]. apply (star_step _ _ y); [now apply St|now apply next_iff].
      - intros [|y z X E]; [now left|]. right. exists S0. split; [now left|]. exists y. split; [now apply St|now apply next_iff].
    Qed.

    Variable k : btset NT.
    Hypothesis Uk : forall B, In B k <-> keep B.
    Local Notation calls := (kept_calls g s k).
    Lemma calls_last A rcs : last_rule calls A rcs <-> exists r, In (A, r) (rule_set g) /\ keep A /\ rcs = map kept_call (kept_prods s r).
    Proof.
      rewrite last_rule_nodup.
      - unfold kept_calls. rewrite in_map_iff. split.
        + intros (r & E & I). injection E as <- <-. apply filter_In in I as [I M]. apply bs_mem_In_iff in M. apply (rules_In g r W) in I.
          exists r. split; [exact I|]. split; [now apply Uk|reflexivity].
        + intros (r & I & Ka & ->). exists r. pose proof (proj2 W A r I) as <-. split; [reflexivity|]. apply filter_In.
          split; [now apply (rules_In g r W)|]. apply bs_mem_In_iff. now apply Uk.
      - unfold kept_calls. rewrite map_map. cbn. unfold rules, bt_values.
        assert (E : forall l : btmap NT (RuleInner T NT AK AV), (forall A r, In (A, r) l -> r_head r = A) -> NoDup (map fst l) ->
          NoDup (map (fun r => r_head r) (filter (fun r => bs_mem (r_head r) k) (map snd l)))).
        { induction l as [|[A0 r] l IH]; intros Hd N; cbn; [constructor|]. inversion N as [|? ? X Y]; subst.
          assert (IH' := IH (fun A' r' I => Hd A' r' (or_intror I)) Y). destruct (bs_mem (r_head r) k); [|exact IH'].
          cbn. constructor; [|exact IH']. intro J. apply X. rewrite <- (Hd A0 r (or_introl eq_refl)).
          apply in_map_iff in J as (r' & <- & J). apply filter_In in J as [J _]. apply in_map_iff in J as ([A' r2] & E & J). cbn in E. subst r2.
          rewrite (Hd A' r' (or_intror J)). exact (in_map fst _ _ J). }
        apply E; [exact (proj2 W)|]. apply sorted_NoDup. exact (proj1 W).
    Qed.
    Lemma spec_kept l : map spec_prod (map kept_call l) = map (@p_inner T NT AK AV) l.
    Proof. rewrite map_map. apply map_ext. intros [h i [ak av es]]. reflexivity. Qed.
    Lemma keep_rule A : keep A -> exists r p, In (A, r) (rule_set g) /\ In p (r_prods r) /\ words (elements_iter p).
    Proof.
      intro Ka. destruct (keep_words A Ka) as (u & L). destruct (lang_inv _ _ _ L) as (rhs & (p & (r & I & J) & ->) & G).
      exists r, p. split; [exact I|]. split; [exact J|]. exists u. exact G.
    Qed.
    Lemma calls_mention A B : mentions calls A B <-> keep A /\ step A B.
    Proof.
      split.
      - intros (rcs & c & L & I & J). apply calls_last in L as (r & Ir & Ka & ->). split; [exact Ka|].
        apply (in_map spec_prod) in I. rewrite spec_kept in I. apply (kept_iff A r _ Ir) in I as [I Wd].
        exists (spec_prod c). split; [exists r; auto|auto].
      - intros (Ka & p & (r & Ir & Ip) & Wd & J). pose proof (proj2 (kept_iff A r p Ir) (conj Ip Wd)) as X.
        rewrite <- spec_kept in X. apply in_map_iff in X as (c & <- & X).
        exists (map kept_call (kept_prods s r)), c. split; [apply calls_last; exists r; auto|auto].
    Qed.
    Lemma calls_defined A : defined calls A <-> keep A.
    Proof.
      split.
      - intros (rcs & L). now apply calls_last in L as (r & _ & Ka & _).
      - intro Ka. destruct (keep_rule A Ka) as (r & p & I & _). eexists. apply calls_last. exists r. auto.
    Qed.
    Lemma calls_reach A : keep A -> star (mentions calls) S0 A.
    Proof. induction 1 as [|y z X IH E]; [constructor|]. apply (star_step _ _ y); [exact IH|]. apply calls_mention. auto. Qed.
    Lemma calls_accepted : exists g', runs_to (build S0 calls) (Ret (Ok g')).
    Proof.
      apply reachable_accepted.
      - apply calls_defined. constructor.
      - intros A D. apply calls_reach. now apply calls_defined.
      - intros A B M. apply calls_mention in M as [Ka E]. apply calls_defined. exact (star_step _ _ _ _ Ka E).
      - intros A L. apply calls_last in L as (r & I & Ka & E). destruct (keep_rule A Ka) as (r' & p & I' & Ip & Wd).
        apply (bt_get_iff A r _ (proj1 W)) in I. apply (bt_get_iff A r' _ (proj1 W)) in I'. assert (r' = r) as -> by congruence.
        apply (bt_get_iff A r _ (proj1 W)) in I. pose proof (proj2 (kept_iff A r p I) (conj Ip Wd)) as X.
        symmetry in E. apply map_eq_nil in E. rewrite E in X. destruct X.
    Qed.

    Variable g' : Grammar T NT AK AV.
    Hypothesis R : runs_to (build S0 calls) (Ret (Ok g')).
    Lemma clean_start : start_nt g' = S0.
    Proof. exact (proj1 (build_content _ _ _ R)). Qed.
    Lemma clean_built : built g'.
    Proof. exists S0, calls. exact R. Qed.
    Lemma clean_rule A r' : In (A, r') (rule_set g') <-> exists r, In (A, r) (rule_set g) /\ keep A /\ r' = Build_RuleInner A (map p_inner (kept_prods s r)).
    Proof.
      pose proof (built_rs_wf g' clean_built) as W'. destruct (build_content _ _ _ R) as (_ & _ & C & _). split.
      - intro I. pose proof (proj2 W' A r' I) as E. subst A. apply (rules_In g' r' W') in I.
        destruct r' as [h ps]. cbn. apply C in I as (rcs & L & ->). apply calls_last in L as (r & I & Ka & ->).
        exists r. rewrite spec_kept. auto.
      - intros (r & I & Ka & ->). change A with (r_head (Build_RuleInner A (map p_inner (kept_prods s r)))) at 1. apply (rules_In g' _ W').
        apply C. exists (map kept_call (kept_prods s r)). rewrite spec_kept. split; [|reflexivity]. apply calls_last. exists r. auto.
    Qed.
    Lemma clean_prod A p : prod_of g' A p <-> used g A p.
    Proof.
      rewrite used_iff. split.
      - intros (r' & I & J). apply clean_rule in I as (r & I & Ka & ->). cbn in J. apply (kept_iff A r p I) in J as [J Wd].
        split; [exists r; auto|auto].
      - intros ((r & I & J) & Ka & Wd). eexists. split; [apply clean_rule; exists r; auto|]. cbn. apply (kept_iff A r p I). auto.
    Qed.
    Lemma clean_gen_sub es u : gen (rhs_of g') es u -> gen P es u.
    Proof.
      induction 1 as [|t es u G IH|A rhs es u v (p & X & ->) G1 IH1 G2 IH2]; [constructor|constructor; exact IH|].
      econstructor; [|exact IH1|exact IH2]. apply prod_rhs. apply clean_prod in X. exact (proj1 X).
    Qed.
    Lemma clean_gen es u : gen P es u -> (forall B, In (NonTerm B) es -> keep B) -> gen (rhs_of g') es u.
    Proof.
      induction 1 as [|t es u G IH|A rhs es u v (p & X & ->) G1 IH1 G2 IH2]; intro K; [constructor|constructor; apply IH; intros B I; apply K; right; exact I|].
      assert (Wd : words (elements_iter p)) by (exists u; exact G1). pose proof (K A (or_introl eq_refl)) as Ka.
      econstructor.
      - exists p. split; [|reflexivity]. apply clean_prod, used_iff. auto.
      - apply IH1. intros B I. apply (star_step _ _ A); [exact Ka|]. exists p. auto.
      - apply IH2. intros B I. apply K. right. exact I.
    Qed.
    Lemma clean_lang A u : keep A -> (lang (rhs_of g') A u <-> lang P A u).
    Proof. intro Ka. split; [apply clean_gen_sub|]. intro L. apply clean_gen; [exact L|]. intros B [[= <-]|[]]. exact Ka. Qed.

    Lemma dtree_words {V} :
      (forall e (ts : list (Token T V)) (tr : ptree T AK V), dtree g e ts tr -> words [e]) /\
      (forall es (ts : list (Token T V)) (trs : list (ptree T AK V)), dtrees g es ts trs -> words es).
    Proof.
      apply dtree_dtrees_ind.
      - intros t v. exists [t]. constructor. constructor.
      - intros A p ts cs Ip _ (u & G). exists u. exact (lang_intro _ _ _ _ (prod_rhs _ _ Ip) G).
      - exists []. constructor.
      - intros e es ts us c cs _ W1 _ W2. change (e :: es) with ([e] ++ es). apply words_app. auto.
    Qed.
    Lemma clean_dtree {V} :
      (forall e (ts : list (Token T V)) (tr : ptree T AK V), dtree g e ts tr -> (forall A, e = NonTerm A -> keep A) -> dtree g' e ts tr) /\
      (forall es (ts : list (Token T V)) (trs : list (ptree T AK V)), dtrees g es ts trs -> (forall A, In (NonTerm A) es -> keep A) -> dtrees g' es ts trs).
    Proof.
      apply dtree_dtrees_ind.
      - intros; constructor.
      - intros A p ts cs Ip D IH K. pose proof (K A eq_refl) as Ka. pose proof (proj2 dtree_words _ _ _ D) as Wd. constructor.
        + apply clean_prod, used_iff. auto.
        + apply IH. intros B I. apply (star_step _ _ A); [exact Ka|]. exists p. auto.
      - intros; constructor.
      - intros e es ts us c cs _ IH1 _ IH2 K. constructor; [apply IH1; intros A ->; apply K; now left|apply IH2; intros A I; apply K; now right].
    Qed.
    Lemma clean_dtree_sub {V} :
      (forall e (ts : list (Token T V)) (tr : ptree T AK V), dtree g' e ts tr -> dtree g e ts tr) /\
      (forall es (ts : list (Token T V)) (trs : list (ptree T AK V)), dtrees g' es ts trs -> dtrees g es ts trs).
    Proof.
      apply dtree_dtrees_ind; try (intros; constructor; assumption).
      intros A p ts cs Ip _ IH. constructor; [|exact IH]. apply clean_prod in Ip. exact (proj1 Ip).
    Qed.
    Lemma clean_keep A : star (fun X Y => exists rhs, rhs_of g' X rhs /\ In (NonTerm Y) rhs) S0 A <-> keep A.
    Proof.
      split.
      - induction 1 as [|y z _ IH (rhs & (p & X & ->) & I)]; [constructor|]. apply clean_prod, used_iff in X as (Ip & _ & Wd).
        apply (star_step _ _ y); [exact IH|]. exists p. auto.
      - induction 1 as [|y z X IH (p & Ip & Wd & I)]; [constructor|]. apply (star_step _ _ y); [exact IH|].
        exists (elements_iter p). split; [|exact I]. exists p. split; [|reflexivity]. apply clean_prod, used_iff. auto.
    Qed.
    Lemma clean_again A p : prod_of g' A p -> used g' A p.
    Proof.
      intro X. pose proof X as X0. apply clean_prod, used_iff in X as (Ip & Ka & Wd).
      assert (Wd' : forall q, words (elements_iter q) -> (forall B, In (NonTerm B) (elements_iter q) -> keep B) -> exists u, gen (rhs_of g') (elements_iter (q : ProdInner T NT AK AV)) u).
      { intros q (u & G) K. exists u. apply clean_gen; assumption. }
      assert (F : forall B, keep B -> exists pre post, derives_form (rhs_of g') [NonTerm S0] (pre ++ NonTerm B :: post) /\
        (exists u, gen (rhs_of g') pre u) /\ (exists u, gen (rhs_of g') post u)).
      { intros B Kb. induction Kb as [|y z Ky (pre & post & D & (u1 & G1) & (u3 & G3)) (q & Iq & Wq & I)].
        - exists [], []. split; [constructor|]. split; exists []; constructor.
        - assert (Kq : forall B, In (NonTerm B) (elements_iter q) -> keep B) by (intros B J; apply (star_step _ _ y); [exact Ky|exists q; auto]).
          destruct (Wd' q Wq Kq) as (u & G). apply in_split in I as (l & r & E). unfold elements_iter in *. rewrite E in G.
          apply NullableFacts.gen_app_inv in G as (a & b & -> & Ga & Gb). apply gen_nt_inv in Gb as (b1 & b2 & -> & _ & Gb).
          exists (pre ++ l), (r ++ post). split; [|split; eexists; apply NullableFacts.gen_app; eassumption].
          apply (star_step _ _ (pre ++ NonTerm y :: post)); [exact D|].
          replace ((pre ++ l) ++ NonTerm z :: r ++ post) with (pre ++ (l ++ NonTerm z :: r) ++ post) by now rewrite <- !app_assoc.
          constructor. rewrite <- E. exists q. split; [|reflexivity]. apply clean_prod, used_iff. auto. }
      destruct (F A Ka) as (pre & post & D & (u1 & G1) & (u3 & G3)).
      destruct (Wd' p Wd) as (u2 & G2); [intros B I; apply (star_step _ _ A); [exact Ka|exists p; auto]|].
      split; [exact X0|]. exists pre, post, (u1 ++ u2 ++ u3). split; [rewrite clean_start; exact D|].
      apply NullableFacts.gen_app; [exact G1|]. apply NullableFacts.gen_app; [exact G2|exact G3].
    Qed.
  End Some_word.

  (** The run as a whole. *)
  Lemma clean_runs : exists s, runs_to (usable g) (Ret s) /\ (forall A, In A s <-> exists u, lang P A u) /\
    ((~ (exists u, lang P S0 u) /\ runs_to (clean g) (Ret None)) \/
     exists k g', (exists u, lang P S0 u) /\ (forall B, In B k <-> keep B) /\
       runs_to (build S0 (kept_calls g s k)) (Ret (Ok g')) /\ runs_to (clean g) (Ret (Some (Ok g')))).
  Proof.
    destruct (usable_spec g Bg) as (s & Rs & Us). exists s. split; [exact Rs|]. split; [exact Us|].
    pose (rest := fun (fuel : nat) (s : btset NT) => if bs_mem S0 s then
      k <- breadth_first_search [S0] (fun A => Ret (kept_next g s A)) fuel ;;
      r <- build S0 (kept_calls g s (bs_add S0 k)) fuel ;; Ret (Some r) else Ret None).
    destruct (bs_mem S0 s) eqn:M.
    - right. pose proof (proj1 (Us S0) (proj1 (bs_mem_In_iff _ _) M)) as Ne.
      destruct (walk s Us) as (k & Rk & Uk). destruct (calls_accepted Ne s Us (bs_add S0 k) Uk) as (g' & Rb).
      exists (bs_add S0 k), g'. split; [exact Ne|]. split; [exact Uk|]. split; [exact Rb|].
      apply (runs_to_bind _ rest _ _ Rs). unfold rest. rewrite M.
      apply (runs_to_bind _ (fun fuel k => r <- build S0 (kept_calls g s (bs_add S0 k)) fuel ;; Ret (Some r)) _ _ Rk).
      exact (runs_to_bind _ (fun _ r => Ret (Some r)) _ _ Rb (runs_to_ret _)).
    - left. split.
      + intro Ne. apply Us, bs_mem_In_iff in Ne. congruence.
      + apply (runs_to_bind _ rest _ _ Rs). unfold rest. rewrite M. apply runs_to_ret.
  Qed.
End Clean.
