(** The predictive parser written with the passes. *)
From Coq Require Import String List Arith Lia.
From Verif.Model Require Import Ord BTree Outcome Utils Grammar StartGrammar Nullable Firsts Tokens Tree.
From Verif.Spec Require Import Reach Cfg BuildSpec NullSpec TreeSpec EarleySpec LL1Spec PredictSpec.
From Verif.Proofs Require Import OrdFacts BTreeFacts LoopFacts GrammarFacts CfgFacts NullableFacts NullableMore FirstsFacts FirstsMore
  EarleyItems EarleyMore LalrFacts LL1Facts.
Import ListNotations.

Section Predict.
  Context {T NT AK AV V : Type} `{OrdEq T} `{OrdEq NT}.
  Variable g : Grammar T NT AK AV.
  Hypothesis Bg : built g.
  Variable info : GrammarNullableInfo NT AK.
  Variable m : btmap NT (btset T).
  Variable follows : NT -> T -> bool.
  Local Notation P := (rhs_of g).
  Hypothesis Nu : forall A, is_nullable info A = true <-> derives_empty g A.
  Hypothesis Np : forall A i p, nth_prod g A i p -> (is_prod_nullable info (Build_Prod A i p) = true <-> body_derives_empty g p).
  Hypothesis Fi : forall A t, (exists s, firsts_get m A = Some s /\ In t s) <-> first_of P A t.
  Local Notation run := (predict (V := V) g info m follows).
  Local Notation can := (can_start info m).
  Local Notation fit := (fits info m follows).

  Lemma can_iff es t : can es t = true <-> firstS P es t.
  Proof.
    induction es as [|[a|B] es IH]; cbn [can_start].
    - split; [discriminate|intro X; destruct (firstS_nil _ _ X)].
    - rewrite firstS_cons. cbn [firstE]. split.
      + intro E. left. destruct (cmp t a) eqn:C; try discriminate. apply cmp_eq_iff in C. congruence.
      + intros [->|[G _]]; [|inversion G]. destruct (cmp_eq_iff t t) as [_ X]. rewrite (X eq_refl). reflexivity.
    - rewrite Bool.orb_true_iff, Bool.andb_true_iff, IH, Nu, firstS_cons. cbn [firstE]. rewrite <- first_of_iff, <- Fi. unfold derives_empty, lang.
      split; (intros [X|X]; [left|right; exact X]).
      + destruct (firsts_get m B) as [s|]; [|discriminate]. exists s. split; [reflexivity|]. apply bs_mem_In_iff. exact X.
      + destruct X as (s & -> & I). apply bs_mem_In_iff. exact I.
  Qed.
  (** The symbols on the stack are known. *)
  Definition known (es : list (Elem T NT)) : Prop := forall A, In (NonTerm A) es -> gdefined g A.
  Lemma known_body A i p rest : nth_prod g A i p -> known rest -> known (body p ++ rest).
  Proof.
    intros N K B I. apply in_app_iff in I. destruct I as [I|I]; [|exact (K B I)].
    destruct (built_accepted g Bg) as [_ _ Mn _ _]. apply (Mn A B). destruct N as (r & Ir & Nr). exists r, p.
    split; [exact Ir|]. split; [exact (nth_error_In _ _ Nr)|exact I].
  Qed.
  Lemma known_tl e es : known (e :: es) -> known es.
  Proof. intros K A I. apply K. right. exact I. Qed.

  (** One step at a nonterminal. *)
  Definition chosen A (w : list (Token T V)) (o : option (Prod T NT AK AV)) : Prop :=
    exists r, get_rule g A = Ret r /\ find (fun p => fit p (next_kind w)) (rule_prods r) = o /\
      forall p, In p (rule_prods r) <-> In p (prods g) /\ p_head p = A.
  Lemma choose A w : gdefined g A -> exists o, chosen A w o.
  Proof. intro D. destruct (get_rule_prods g Bg A D) as (r & E & R). exists (find (fun p => fit p (next_kind w)) (rule_prods r)), r. auto. Qed.
  Lemma chosen_fits A w p : chosen A w (Some p) -> p_head p = A /\ nth_prod g A (p_ix p) (p_inner p) /\ fit p (next_kind w) = true.
  Proof.
    intros (r & _ & F & R). apply find_some in F. destruct F as [I F]. apply R in I. destruct I as [I E]. split; [exact E|].
    apply (prods_In g (built_rs_wf g Bg)) in I. rewrite E in I. auto.
  Qed.
  Lemma nth_in A i p : nth_prod g A i p -> In (Build_Prod A i p) (prods g).
  Proof. intro N. apply (prods_In g (built_rs_wf g Bg)). exact N. Qed.
  Lemma chosen_none A w i p : chosen A w None -> nth_prod g A i p -> fit (Build_Prod A i p) (next_kind w) = false.
  Proof.
    intros (r & _ & F & R) N. apply (find_none _ _ F (Build_Prod A i p)). apply R. split; [exact (nth_in _ _ _ N)|reflexivity].
  Qed.
  Lemma step_none A rest w fuel : chosen A w None -> run (S fuel) (NonTerm A :: rest) w = Ret None.
  Proof. intros (r & E & F & _). cbn [predict]. rewrite E. cbn [obind]. rewrite F. reflexivity. Qed.
  Lemma step_some A rest w fuel p : chosen A w (Some p) -> run (S fuel) (NonTerm A :: rest) w =
    obind (run fuel (elements p ++ rest) w) (fun r => Ret (option_map (fun cs => PBranch (action_key p) (firstn (num_elements p) cs) :: skipn (num_elements p) cs) r)).
  Proof. intros (r & E & F & _). cbn [predict]. rewrite E. cbn [obind]. rewrite F. reflexivity. Qed.

  Lemma run_mono : forall n k stack w, n <= k -> run n stack w <> NoFuel -> run k stack w = run n stack w.
  Proof.
    induction n as [|n IH]; intros k stack w L N; [destruct (N eq_refl)|]. destruct k as [|k]; [lia|].
    destruct stack as [|[a|A] rest]; cbn [predict] in *; [reflexivity| |].
    - destruct w as [|x w]; [reflexivity|]. destruct (cmp a (tk_kind x)); try reflexivity.
      rewrite (IH k); [reflexivity|lia|]. intro E. rewrite E in N. cbn in N. congruence.
    - destruct (get_rule g A) as [r|msg|]; try reflexivity. cbn [obind] in *. destruct (find _ _); [|reflexivity].
      rewrite (IH k); [reflexivity|lia|]. intro E. rewrite E in N. cbn in N. congruence.
  Qed.

  (** There is no panic. *)
  Lemma run_no_panic : forall n stack w, known stack -> forall msg, run n stack w <> Panic msg.
  Proof.
    induction n as [|n IH]; intros stack w K msg; [discriminate|]. destruct stack as [|[a|A] rest].
    - discriminate.
    - cbn [predict]. destruct w as [|x w]; [discriminate|]. destruct (cmp a (tk_kind x)); try discriminate.
      specialize (IH rest w (known_tl _ _ K)). destruct (run n rest w) as [r|m0|]; [discriminate|destruct (IH m0 eq_refl)|discriminate].
    - destruct (choose A w (K A (or_introl eq_refl))) as ([p|] & C); [|rewrite (step_none _ _ _ _ C); discriminate].
      rewrite (step_some _ _ _ _ _ C). destruct (chosen_fits _ _ _ C) as (_ & N & _).
      specialize (IH _ w (known_body _ _ _ rest N (known_tl _ _ K))). unfold elements, elements_iter.
      change (map pe_elem (pi_elements (p_inner p))) with (body (p_inner p)).
      destruct (run n (body (p_inner p) ++ rest) w) as [r|m0|]; [discriminate|destruct (IH m0 eq_refl)|discriminate].
  Qed.

  Lemma dtrees_split es fs : forall ts (cs : list (ptree T AK V)), dtrees g (es ++ fs) ts cs ->
    exists us vs, ts = us ++ vs /\ dtrees g es us (firstn (length es) cs) /\ dtrees g fs vs (skipn (length es) cs).
  Proof.
    induction es as [|e es IH]; intros ts cs D; cbn [app length firstn skipn] in *.
    - exists [], ts. split; [reflexivity|]. split; [constructor|exact D].
    - inversion D as [|e' es' us ws c cs' D1 D2 E1 E2 E3]; subst. destruct (IH _ _ D2) as (u & v & -> & Du & Dv).
      exists (us ++ u), v. split; [apply app_assoc|]. cbn [firstn skipn]. split; [constructor; assumption|exact Dv].
  Qed.
  Lemma token_eta (x : Token T V) : Build_Token (tk_kind x) (tk_value x) = x.
  Proof. destruct x; reflexivity. Qed.
  (** What is returned is a derivation. *)
  Lemma run_sound : forall n stack w cs, known stack -> run n stack w = Ret (Some cs) -> dtrees g stack w cs.
  Proof.
    induction n as [|n IH]; intros stack w cs K E; [discriminate|]. destruct stack as [|[a|A] rest].
    - cbn in E. destruct w; [|discriminate]. injection E as <-. constructor.
    - cbn [predict] in E. destruct w as [|x w]; [discriminate|]. destruct (cmp a (tk_kind x)) eqn:C; try discriminate.
      apply cmp_eq_iff in C. subst a. destruct (run n rest w) as [[r|]|m0|] eqn:R; try discriminate. injection E as <-.
      change (x :: w) with ([x] ++ w). constructor; [rewrite <- (token_eta x) at 2; constructor|]. exact (IH _ _ _ (known_tl _ _ K) R).
    - destruct (choose A w (K A (or_introl eq_refl))) as ([p|] & C); [|rewrite (step_none _ _ _ _ C) in E; discriminate].
      rewrite (step_some _ _ _ _ _ C) in E. destruct (chosen_fits _ _ _ C) as (_ & N & _).
      destruct (run n (elements p ++ rest) w) as [[r|]|m0|] eqn:R; try discriminate. injection E as <-.
      apply IH in R; [|exact (known_body _ _ _ rest N (known_tl _ _ K))]. destruct (dtrees_split _ _ _ _ R) as (us & vs & -> & D1 & D2).
      unfold num_elements. unfold elements, elements_iter in D1, D2. rewrite map_length in D1, D2. constructor; [|exact D2].
      constructor; [|exact D1]. apply prod_of_nth. eauto.
  Qed.

  Section Right.
    Hypothesis NC : no_conflict g info m follows.
    Hypothesis KF : knows_follows g follows.
    (** The stack ends a sentential form. *)
    Definition viable (es : list (Elem T NT)) : Prop := exists B u, derives_form P [NonTerm B] (u ++ es).
    Lemma viable_tl e es : viable (e :: es) -> viable es.
    Proof. intros (B & u & D). exists B, (u ++ [e]). rewrite <- app_assoc. exact D. Qed.
    Lemma viable_app a es : viable (a ++ es) -> viable es.
    Proof. induction a as [|e a IH]; [exact (fun x => x)|]. intro X. exact (IH (viable_tl _ _ X)). Qed.
    Lemma viable_body A i p rest : nth_prod g A i p -> viable (NonTerm A :: rest) -> viable (body p ++ rest).
    Proof.
      intros N (B & u & D). exists B, u. refine (df_trans _ _ _ _ D _). apply df_step. constructor.
      exists p. split; [apply prod_of_nth; eauto|reflexivity].
    Qed.
    Lemma viable_follow B rest t : viable (NonTerm B :: rest) -> firstS P rest t -> exists H, follow_from P H B t.
    Proof.
      intros (A & u & D) F. destruct (firstS_sound _ _ _ F) as (r' & D'). exists A, u, r'. refine (df_trans _ _ _ _ D _).
      pose proof (df_ctx P (u ++ [NonTerm B]) rest (Term t :: r') [] D') as X. rewrite !app_nil_r, <- !app_assoc in X. exact X.
    Qed.
    Lemma chosen_is A w i p : nth_prod g A i p -> fit (Build_Prod A i p) (next_kind w) = true -> gdefined g A -> chosen A w (Some (Build_Prod A i p)).
    Proof.
      intros N F D. destruct (choose A w D) as ([q|] & C).
      - destruct (chosen_fits _ _ _ C) as (E & Nq & Fq). assert (Ei : i = p_ix q).
        { apply (NC A i (p_ix q) p (p_inner q) (next_kind w) N Nq F). rewrite <- E. destruct q; exact Fq. }
        subst i. pose proof (nth_prod_fun g (built_rs_wf g Bg) _ _ _ _ N Nq) as ->. destruct q as [h ix pi]. cbn in *. subst h. exact C.
      - rewrite (chosen_none _ _ _ _ C N) in F. discriminate.
    Qed.
    Lemma fit_start A i p t : nth_prod g A i p -> firstS P (body p) t -> fit (Build_Prod A i p) (Some t) = true.
    Proof. intros N F. cbn. apply Bool.orb_true_iff. left. apply can_iff. exact F. Qed.
    Lemma fit_null A i p t : nth_prod g A i p -> body_derives_empty g p -> follows A t = true -> fit (Build_Prod A i p) (Some t) = true.
    Proof. intros N F E. cbn. apply Bool.orb_true_iff. right. rewrite E, (proj2 (Np _ _ _ N) F). reflexivity. Qed.
    Lemma null_prod A : derives_empty g A -> exists i p, nth_prod g A i p /\ body_derives_empty g p.
    Proof.
      intro D. apply (lang_iff P) in D. destruct D as (rhs & (p & Pp & ->) & G). apply prod_of_nth in Pp. destruct Pp as (i & N). exists i, p. split; assumption.
    Qed.
    Lemma rhs_nth A rhs : P A rhs -> exists i p, nth_prod g A i p /\ rhs = body p.
    Proof. intros (p & Pp & ->). apply prod_of_nth in Pp. destruct Pp as (i & N). exists i, p. split; [exact N|reflexivity]. Qed.

    (** What may be empty cannot begin with what may follow it. *)
    Lemma disjoint A t : firstR P A t -> forall B, derives_empty g A -> ~ follow_from P B A t.
    Proof.
      induction 1 as [A pre t post Pr G|A pre C post t Pr G F IH]; intros B D Fo.
      - destruct (null_prod A D) as (j & q & Nq & Dq). destruct (rhs_nth _ _ Pr) as (i & p & N & E).
        assert (Ei : i = j).
        { apply (NC A i j p q (Some t) N Nq); [|exact (fit_null _ _ _ _ Nq Dq (KF _ _ _ D Fo))]. apply fit_start; [exact N|].
          rewrite <- E. exists pre, (Term t), post. split; [reflexivity|]. split; [exact G|reflexivity]. }
        subst j. pose proof (nth_prod_fun g (built_rs_wf g Bg) _ _ _ _ N Nq) as <-. unfold body_derives_empty in Dq.
        change (map pe_elem (pi_elements p)) with (body p) in Dq. rewrite <- E in Dq. apply gen_app_inv in Dq.
        destruct Dq as (x & y & Exy & _ & Gy). symmetry in Exy. apply app_eq_nil in Exy. destruct Exy as [-> ->]. inversion Gy.
      - destruct (null_prod A D) as (j & q & Nq & Dq). destruct (rhs_nth _ _ Pr) as (i & p & N & E).
        assert (Ei : i = j).
        { apply (NC A i j p q (Some t) N Nq); [|exact (fit_null _ _ _ _ Nq Dq (KF _ _ _ D Fo))]. apply fit_start; [exact N|].
          rewrite <- E. exists pre, (NonTerm C), post. split; [reflexivity|]. split; [exact G|exact F]. }
        subst j. pose proof (nth_prod_fun g (built_rs_wf g Bg) _ _ _ _ N Nq) as <-. unfold body_derives_empty in Dq.
        change (map pe_elem (pi_elements p)) with (body p) in Dq. rewrite <- E in Dq. apply gen_app_inv in Dq.
        destruct Dq as (x & y & Exy & _ & Gy). symmetry in Exy. apply app_eq_nil in Exy. destruct Exy as [-> ->].
        change (NonTerm C :: post) with ([NonTerm C] ++ post) in Gy. apply gen_app_inv in Gy. destruct Gy as (x & y & Exy & Gc & Gp).
        symmetry in Exy. apply app_eq_nil in Exy. destruct Exy as [-> ->]. apply (IH B Gc).
        destruct Fo as (u & v & Du). exists (u ++ pre), v. refine (df_trans _ _ _ _ Du _).
        refine (df_trans P _ (u ++ (pre ++ NonTerm C :: post) ++ Term t :: v) _ (CfgFacts.df_step P _ _ (sstep_intro P u A _ (Term t :: v) Pr)) _).
        pose proof (df_ctx P (u ++ pre ++ [NonTerm C]) post [] (Term t :: v) (CfgFacts.gen_derives P _ _ Gp)) as X.
        rewrite <- !app_assoc in X. rewrite <- !app_assoc. exact X.
    Qed.

    (** ** The right answer is found *)
    Definition answers stack w (o : option (list (ptree T AK V))) : Prop := exists n, run n stack w = Ret o.
    Lemma answers_nonterm A i p rest w cs : gdefined g A -> nth_prod g A i p -> fit (Build_Prod A i p) (next_kind w) = true ->
      answers (body p ++ rest) w (Some cs) ->
      answers (NonTerm A :: rest) w (Some (PBranch (pi_action_key p) (firstn (length (pi_elements p)) cs) :: skipn (length (pi_elements p)) cs)).
    Proof.
      intros D N F (n & R). exists (S n). rewrite (step_some _ _ _ _ _ (chosen_is A w i p N F D)). cbn [elements p_inner].
      unfold elements, elements_iter. cbn [p_inner]. change (map pe_elem (pi_elements p)) with (body p). rewrite R. reflexivity.
    Qed.
    Lemma dtrees_len es ts (cs : list (ptree T AK V)) : dtrees g es ts cs -> length cs = length es.
    Proof. induction 1 as [|e es ts us c cs D1 D2 IH]; cbn; congruence. Qed.

    Lemma complete :
      (forall e ts (c : ptree T AK V), dtree g e ts c -> forall st us cs, known (e :: st) -> viable (e :: st) -> dtrees g st us cs ->
         answers st us (Some cs) -> answers (e :: st) (ts ++ us) (Some (c :: cs))) /\
      (forall es ts (cs0 : list (ptree T AK V)), dtrees g es ts cs0 -> forall st us cs, known (es ++ st) -> viable (es ++ st) -> dtrees g st us cs ->
         answers st us (Some cs) -> answers (es ++ st) (ts ++ us) (Some (cs0 ++ cs))).
    Proof.
      apply dtree_dtrees_ind.
      - intros k v st us cs _ _ _ (n & R). exists (S n). cbn. destruct (cmp_eq_iff k k) as [_ X]. rewrite (X eq_refl), R. reflexivity.
      - intros A p ts cs Pp D IH st us cs' K Vi Ds An. apply prod_of_nth in Pp. destruct Pp as (i & N).
        assert (Len : length (pi_elements p) = length cs) by (rewrite (dtrees_len _ _ _ D), map_length; reflexivity).
        assert (X : answers (NonTerm A :: st) (ts ++ us) (Some (PBranch (pi_action_key p) (firstn (length (pi_elements p)) (cs ++ cs')) :: skipn (length (pi_elements p)) (cs ++ cs')))).
        { apply (answers_nonterm A i p); [apply K; left; reflexivity|exact N| |].
          - pose proof (proj2 (dtree_gen g) _ _ _ D) as G. destruct ts as [|x ts].
            + cbn [app]. destruct us as [|y us]; cbn [next_kind hd_error option_map].
              * exact (proj2 (Np _ _ _ N) G).
              * apply fit_null; [exact N|exact G|].
                assert (De : derives_empty g A) by (apply (lang_iff P); exists (body p); split; [exists p; split; [apply prod_of_nth; eauto|reflexivity]|exact G]).
                destruct (viable_follow A st (tk_kind y) Vi) as (B & Fo); [|exact (KF _ _ _ De Fo)].
                apply begins_first. exact (gen_begins g _ _ _ (proj2 (dtree_gen g) _ _ _ Ds)).
            + cbn [app next_kind hd_error option_map]. apply fit_start; [exact N|]. apply begins_first. exact (gen_begins g _ _ _ G).
          - change (map pe_elem (pi_elements p)) with (body p) in *. apply (IH st us cs'); [exact (known_body _ _ _ _ N (known_tl _ _ K))|exact (viable_body _ _ _ _ N Vi)|exact Ds|exact An]. }
        rewrite Len, firstn_app, firstn_all, Nat.sub_diag, skipn_app, skipn_all, Nat.sub_diag in X. cbn [firstn skipn] in X. rewrite app_nil_r in X. exact X.
      - intros st us cs _ _ _ An. exact An.
      - intros e es ts us c cs D1 IH1 D2 IH2 st vs cs' K Vi Ds An. cbn [app] in *. rewrite <- app_assoc. apply IH1; [exact K|exact Vi| |].
        + clear - D2 Ds. induction D2 as [|e es ts us c cs D1 D2 IH]; [exact Ds|]. cbn [app]. rewrite <- app_assoc. constructor; [exact D1|exact IH].
        + apply IH2; [exact (known_tl _ _ K)|exact (viable_tl _ _ Vi)|exact Ds|exact An].
    Qed.

    (** ** There is an answer *)
    Definition ends stack (w : list (Token T V)) : Prop := exists o, answers stack w o.
    Lemma ends_nonterm A rest w p : chosen A w (Some p) -> ends (body (p_inner p) ++ rest) w -> ends (NonTerm A :: rest) w.
    Proof.
      intros C (o & n & R). eexists. exists (S n). rewrite (step_some _ _ _ _ _ C). unfold elements, elements_iter.
      change (map pe_elem (pi_elements (p_inner p))) with (body (p_inner p)). rewrite R. reflexivity.
    Qed.
    Lemma ends_none A rest w : chosen A w None -> ends (NonTerm A :: rest) w.
    Proof. intro C. exists None, 1. exact (step_none _ _ _ _ C). Qed.
    (** Past symbols that are empty and do not begin with the next token. *)
    Lemma ends_skip w es : gen P es [] -> (forall B t, next_kind w = Some t -> In (NonTerm B) es -> ~ firstR P B t) ->
      forall st, known (es ++ st) -> ends st w -> ends (es ++ st) w.
    Proof.
      intro G. remember [] as e eqn:Ee. induction G as [|t es u G IH|A rhs es u v Pr G1 IH1 G2 IH2]; intros Nf st K En; [exact En|discriminate|].
      apply app_eq_nil in Ee. destruct Ee as [-> ->]. specialize (IH1 eq_refl). specialize (IH2 eq_refl). cbn [app] in *.
      assert (En' : ends (es ++ st) w).
      { apply IH2; [intros B t E I; apply (Nf B t E); right; exact I|exact (known_tl _ _ K)|exact En]. }
      destruct (choose A w (K A (or_introl eq_refl))) as ([q|] & C); [|exact (ends_none _ _ _ C)].
      apply (ends_nonterm _ _ _ _ C). destruct (chosen_fits _ _ _ C) as (Eh & Nq & Fq). destruct (rhs_nth _ _ Pr) as (i & p & N & E).
      assert (X : body (p_inner q) = rhs).
      { subst rhs. assert (Ei : i = p_ix q); [|subst i; rewrite (nth_prod_fun g (built_rs_wf g Bg) _ _ _ _ N Nq); reflexivity].
        apply (NC A i (p_ix q) p (p_inner q) (next_kind w) N Nq); [|rewrite <- Eh; destruct q; exact Fq].
        destruct (next_kind w) as [t|] eqn:Ek; [|exact (proj2 (Np _ _ _ N) G1)]. cbn in Fq. apply Bool.orb_true_iff in Fq. destruct Fq as [Fq|Fq].
        - exfalso. apply can_iff in Fq. apply (Nf A t eq_refl (or_introl eq_refl)). apply firstR_iff. exists (elements q). split; [|exact Fq].
          exists (p_inner q). split; [apply prod_of_nth; eauto|reflexivity].
        - apply Bool.andb_true_iff in Fq. rewrite Eh in Fq. exact (fit_null _ _ _ _ N G1 (proj2 Fq)). }
      rewrite X. apply IH1; [|rewrite <- X; exact (known_body _ _ _ _ Nq (known_tl _ _ K))|exact En'].
      intros B t Ek I Fb. apply (Nf A t Ek (or_introl eq_refl)). apply firstR_iff. exists rhs. split; [exact Pr|].
      apply in_split in I. destruct I as (a & b & Eb). exists a, (NonTerm B), b. split; [exact Eb|]. split; [|exact Fb].
      rewrite Eb in G1. apply gen_app_inv in G1. destruct G1 as (x & y & Exy & Ga & _). symmetry in Exy. apply app_eq_nil in Exy. destruct Exy as [-> _]. exact Ga.
    Qed.
    (** To the next token. *)
    Lemma ends_first A t : firstR P A t -> forall st x w, tk_kind x = t -> known (NonTerm A :: st) -> viable (NonTerm A :: st) ->
      (forall st', known st' -> viable st' -> ends st' w) -> ends (NonTerm A :: st) (x :: w).
    Proof.
      induction 1 as [A pre t post Pr G|A pre C post t Pr G F IH]; intros st x w Ex K Vi En;
        destruct (rhs_nth _ _ Pr) as (i & p & N & E);
        (assert (Fp : firstS P (body p) t) by (rewrite <- E; eexists _, _, _; split; [reflexivity|]; split; [exact G|cbn; auto]));
        (assert (Ch : chosen A (x :: w) (Some (Build_Prod A i p))) by
          (apply chosen_is; [exact N|cbn [next_kind hd_error option_map]; rewrite Ex; exact (fit_start _ _ _ _ N Fp)|apply K; left; reflexivity]));
        apply (ends_nonterm _ _ _ _ Ch); cbn [p_inner];
        pose proof (known_body _ _ _ _ N (known_tl _ _ K)) as Kb; pose proof (viable_body _ _ _ _ N Vi) as Vb; rewrite <- E in Kb, Vb |- *;
        rewrite <- app_assoc in Kb, Vb |- *; cbn [app] in Kb, Vb |- *.
      - apply ends_skip; [exact G| |exact Kb|].
        + intros B t' Ek I Fb. cbn in Ek. injection Ek as <-. rewrite Ex in Fb. apply in_split in I. destruct I as (a & b & ->).
          assert (Gb : gen P [NonTerm B] [] /\ gen P b []).
          { apply gen_app_inv in G. destruct G as (u & v & Euv & _ & G). symmetry in Euv. apply app_eq_nil in Euv. destruct Euv as [-> ->].
            change (NonTerm B :: b) with ([NonTerm B] ++ b) in G. apply gen_app_inv in G. destruct G as (u & v & Euv & G & G').
            symmetry in Euv. apply app_eq_nil in Euv. destruct Euv as [-> ->]. auto. }
          rewrite <- app_assoc in Vb. apply viable_app in Vb. cbn [app] in Vb.
          destruct (viable_follow _ _ t Vb) as (Z & Fo); [|exact (disjoint _ _ Fb Z (proj1 Gb) Fo)].
          exists b, (Term t), (post ++ st). split; [reflexivity|]. split; [apply Gb|reflexivity].
        + destruct (En (post ++ st)) as (o & n & R).
          * intros B I. apply Kb. apply in_app_iff. right. right. exact I.
          * exact (viable_tl _ _ (viable_app _ _ Vb)).
          * eexists. exists (S n). cbn [predict]. destruct (cmp_eq_iff t (tk_kind x)) as [_ X]. rewrite (X (eq_sym Ex)), R. reflexivity.
      - apply ends_skip; [exact G| |exact Kb|].
        + intros B t' Ek I Fb. cbn in Ek. injection Ek as <-. rewrite Ex in Fb. apply in_split in I. destruct I as (a & b & ->).
          assert (Gb : gen P [NonTerm B] [] /\ gen P b []).
          { apply gen_app_inv in G. destruct G as (u & v & Euv & _ & G). symmetry in Euv. apply app_eq_nil in Euv. destruct Euv as [-> ->].
            change (NonTerm B :: b) with ([NonTerm B] ++ b) in G. apply gen_app_inv in G. destruct G as (u & v & Euv & G & G').
            symmetry in Euv. apply app_eq_nil in Euv. destruct Euv as [-> ->]. auto. }
          rewrite <- app_assoc in Vb. apply viable_app in Vb. cbn [app] in Vb.
          destruct (viable_follow _ _ t Vb) as (Z & Fo); [|exact (disjoint _ _ Fb Z (proj1 Gb) Fo)].
          exists b, (NonTerm C), (post ++ st). split; [reflexivity|]. split; [apply Gb|exact F].
        + apply IH; [exact Ex| |exact (viable_app _ _ Vb)|exact En].
          intros B I. apply Kb. apply in_app_iff. right. exact I.
    Qed.

    Lemma all_end : forall w stack, known stack -> viable stack -> ends stack w.
    Proof.
      induction w as [|x w IHw]; intros stack; induction stack as [|[a|A] st IHs]; intros K Vi.
      - exists (Some []), 1. reflexivity.
      - exists None, 1. reflexivity.
      - pose proof (IHs (known_tl _ _ K) (viable_tl _ _ Vi)) as En.
        destruct (is_nullable info A) eqn:Na.
        + apply Nu in Na. apply (ends_skip [] [NonTerm A] Na); [discriminate|exact K|exact En].
        + destruct (choose A [] (K A (or_introl eq_refl))) as ([q|] & C); [|exact (ends_none _ _ _ C)].
          exfalso. destruct (chosen_fits _ _ _ C) as (Eh & Nq & Fq). cbn in Fq. assert (D : derives_empty g A); [|apply Nu in D; congruence].
          apply (lang_iff P). exists (body (p_inner q)). split; [exists (p_inner q); split; [apply prod_of_nth; eauto|reflexivity]|].
          apply (Np _ _ _ Nq). rewrite <- Eh. destruct q; exact Fq.
      - exists None, 1. reflexivity.
      - destruct (cmp a (tk_kind x)) eqn:C; [|exists None, 1; cbn; rewrite C; reflexivity|exists None, 1; cbn; rewrite C; reflexivity].
        destruct (IHw st (known_tl _ _ K) (viable_tl _ _ Vi)) as (o & n & R). eexists. exists (S n). cbn [predict]. rewrite C, R. reflexivity.
      - destruct (can [NonTerm A] (tk_kind x)) eqn:Ca.
        + apply can_iff, firstS_single in Ca. exact (ends_first A _ Ca st x w eq_refl K Vi (fun st' K' V' => IHw st' K' V')).
        + assert (Nf : ~ firstR P A (tk_kind x)) by (intro F; assert (X : can [NonTerm A] (tk_kind x) = true) by (apply can_iff, firstS_single; exact F); congruence).
          pose proof (IHs (known_tl _ _ K) (viable_tl _ _ Vi)) as En. destruct (is_nullable info A) eqn:Na.
          * apply Nu in Na. apply (ends_skip (x :: w) [NonTerm A] Na); [|exact K|exact En].
            intros B t Ek I. cbn in Ek. injection Ek as <-. destruct I as [[= <-]|[]]. exact Nf.
          * destruct (choose A (x :: w) (K A (or_introl eq_refl))) as ([q|] & C); [|exact (ends_none _ _ _ C)].
            exfalso. destruct (chosen_fits _ _ _ C) as (Eh & Nq & Fq). cbn in Fq. apply Bool.orb_true_iff in Fq.
            assert (Pq : P A (body (p_inner q))) by (exists (p_inner q); split; [apply prod_of_nth; eauto|reflexivity]). destruct Fq as [Fq|Fq].
            -- apply can_iff in Fq. apply Nf. apply firstR_iff. exists (body (p_inner q)). split; [exact Pq|exact Fq].
            -- apply Bool.andb_true_iff in Fq. assert (D : derives_empty g A); [|apply Nu in D; congruence].
               apply (lang_iff P). exists (body (p_inner q)). split; [exact Pq|]. apply (Np _ _ _ Nq). rewrite <- Eh. destruct q; exact (proj1 Fq).
    Qed.
  End Right.
End Predict.
