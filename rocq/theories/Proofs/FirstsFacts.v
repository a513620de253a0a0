(** Facts about [Model/Firsts.v]. *)
From Coq Require Import String List Arith Lia Bool NArith.
From Verif.Model Require Import Ord BTree Outcome Utils Grammar Nullable Firsts.
From Verif.Spec Require Import Reach Cfg BuildSpec NullSpec.
From Verif.Proofs Require Import OrdFacts BTreeFacts LoopFacts UtilsFacts GrammarFacts NullableFacts NullableMore CfgFacts.
Import ListNotations.

(** ** Saturation of a [CollectMap] *)
Section CmSat.
  Context {K V : Type} `{OrdEq K} `{OrdEq V}.

  Definition cm_relb (m : btmap K (btset V)) (kv : K * V) : bool :=
    match bt_get (fst kv) m with Some s => bs_mem (snd kv) s | None => false end.
  Lemma cm_relb_iff m k v : cm_relb m (k, v) = true <-> cm_rel m k v.
  Proof.
    unfold cm_relb, cm_rel. simpl. destruct (bt_get k m) as [s|].
    - rewrite bs_mem_In_iff. split; [intro I; exists s; auto|]. intros (s' & E & I). injection E as <-. exact I.
    - split; [discriminate|]. intros (s' & E & _). discriminate.
  Qed.
  Lemma cm_rel_dec (m : btmap K (btset V)) k v : cm_rel m k v \/ ~ cm_rel m k v.
  Proof.
    destruct (cm_relb m (k, v)) eqn:E; [left; apply cm_relb_iff; exact E|right].
    intro R. apply cm_relb_iff in R. congruence.
  Qed.

  Definition cm_same (m m' : btmap K (btset V)) : Prop :=
    (forall k v, cm_rel m k v <-> cm_rel m' k v) /\
    (forall k, bt_get k m <> None -> bt_get k m' <> None).

  Context {I : Type}.
  Variable func : I -> btmap K (btset V) -> outcome (WasChanged * btmap K (btset V)).
  Variable l : list I.
  Variable Inv : btmap K (btset V) -> Prop.
  Variable univ : list (K * V).
  Variable PP : string -> Prop.
  Hypothesis step : forall x m, In x l -> Inv m ->
    match func x m with
    | Ret (c, m') => Inv m' /\ (forall k v, cm_rel m k v -> cm_rel m' k v) /\
        (forall k v, cm_rel m' k v -> cm_rel m k v \/ In (k, v) univ) /\
        (forall k, bt_get k m <> None -> bt_get k m' <> None) /\
        (c = Changed <-> exists k v, cm_rel m' k v /\ ~ cm_rel m k v)
    | Panic s => PP s
    | NoFuel => False
    end.

  Definition cm_mu (m : btmap K (btset V)) : nat := length (filter (fun kv => negb (cm_relb m kv)) univ).
  Lemma cm_sat_step x m : In x l -> (Inv m /\ forall k v, cm_rel m k v -> In (k, v) univ) ->
    match func x m with
    | Ret (c, m') => (Inv m' /\ forall k v, cm_rel m' k v -> In (k, v) univ) /\ cm_mu m' <= cm_mu m /\
        match c with Changed => cm_mu m' < cm_mu m | Unchanged => cm_same m m' end
    | Panic s => PP s
    | NoFuel => False
    end.
  Proof.
    intros Ix [Im Um]. pose proof (step x m Ix Im) as S.
    destruct (func x m) as [[c m']|s|]; [|exact S|exact S].
    destruct S as (I' & M1 & M2 & Kk & C).
    assert (U' : forall k v, cm_rel m' k v -> In (k, v) univ).
    { intros k v R. destruct (M2 k v R); auto. }
    assert (Mb : forall kv, In kv univ -> negb (cm_relb m' kv) = true -> negb (cm_relb m kv) = true).
    { intros [k v] _. rewrite !negb_true_iff. intro Q. destruct (cm_relb m (k, v)) eqn:Q'; [|reflexivity].
      apply cm_relb_iff, M1, cm_relb_iff in Q'. congruence. }
    split; [auto|]. split; [apply filter_length_le; exact Mb|].
    destruct c.
    + destruct (proj1 C eq_refl) as (k & v & R' & NR).
      apply (filter_length_lt _ _ _ (k, v)); [exact Mb|exact (U' k v R')| |].
      * apply negb_false_iff, cm_relb_iff. exact R'.
      * apply negb_true_iff. apply not_true_iff_false. rewrite cm_relb_iff. exact NR.
    + split; [|exact Kk]. intros k v. split; [apply M1|]. intro R'.
      destruct (cm_rel_dec m k v) as [R|NR]; [exact R|]. exfalso.
      assert (X : Unchanged = Changed) by (apply C; exists k, v; auto). discriminate.
  Qed.

  Lemma cm_saturate m0 : Inv m0 ->
    (forall k v, cm_rel m0 k v -> In (k, v) univ) ->
    exists r, runs_to (fun n => change_loop (change_iter func l) n m0) r /\
      match r with
      | Ret m => Inv m /\ (forall k v, cm_rel m k v -> In (k, v) univ) /\ forall x, In x l ->
          exists s1 s2, Inv s1 /\ cm_same s1 m /\ cm_same s2 m /\ func x s1 = Ret (Unchanged, s2)
      | Panic s => PP s
      | NoFuel => False
      end.
  Proof.
    intros I0 U0.
    destruct (saturate func l (fun m => Inv m /\ forall k v, cm_rel m k v -> In (k, v) univ) cm_mu cm_same PP)
      with (s := m0) as (r & R & Pr).
    - intro m. split; [tauto|auto].
    - intros a b c [E1 F1] [E2 F2]. split; [|auto]. intros k v. rewrite E1. apply E2.
    - exact cm_sat_step.
    - auto.
    - exists r. split; [exact R|]. destruct r as [m|s|]; [|exact Pr|exact Pr].
      destruct Pr as [[Im Um] Cl]. split; [exact Im|]. split; [exact Um|]. intros x Ix.
      destruct (Cl x Ix) as (s1 & s2 & [I1 _] & R1 & R2 & F). exists s1, s2. auto.
  Qed.
  (** The number of rounds. *)
  Lemma cm_saturate_bound m0 : Inv m0 -> (forall k v, cm_rel m0 k v -> In (k, v) univ) ->
    forall n, length univ < n -> change_loop (change_iter func l) n m0 <> NoFuel.
  Proof.
    intros I0 U0 n L.
    apply (saturate_bound func l (fun m => Inv m /\ forall k v, cm_rel m k v -> In (k, v) univ) cm_mu cm_same PP).
    - intro m. split; [tauto|auto].
    - intros a b c [E1 F1] [E2 F2]. split; [|auto]. intros k v. rewrite E1. apply E2.
    - exact cm_sat_step.
    - auto.
    - unfold cm_mu. assert (X : forall l', length (filter (fun kv => negb (cm_relb m0 kv)) l') <= length l')
        by (induction l' as [|y l' IH]; simpl; [lia|]; destruct (negb (cm_relb m0 y)); simpl; lia).
      specialize (X univ). lia.
  Qed.
End CmSat.

Section Firsts.
  Context {T NT AK AV : Type} `{OrdEq T} `{OrdEq NT}.
  Variable info : GrammarNullableInfo NT AK.

  (** [e] is visited when the loop goes through [es]. *)
  Definition visited (es : list (Elem T NT)) (e : Elem T NT) : Prop :=
    exists pre post, es = pre ++ e :: post /\
      forall x, In x pre -> exists B, x = NonTerm B /\ is_nullable info B = true.

  Lemma visited_cons x es e : visited (x :: es) e <->
    e = x \/ ((exists B, x = NonTerm B /\ is_nullable info B = true) /\ visited es e).
  Proof.
    split.
    - intros (pre & post & E & F). destruct pre as [|y pre]; simpl in E; injection E as -> ->.
      + left. reflexivity.
      + right. split; [apply F; left; reflexivity|]. exists pre, post. split; [reflexivity|].
        intros z I. apply F. right. exact I.
    - intros [->|(N & pre & post & -> & F)].
      + exists [], es. split; [reflexivity|intros y []].
      + exists (x :: pre), post. split; [reflexivity|]. intros y [<-|I]; [exact N|apply F; exact I].
  Qed.

  Lemma forall_visited_dec es head :
    (forall e, visited es e -> e = NonTerm head) \/ exists e, visited es e /\ e <> NonTerm head.
  Proof.
    induction es as [|x es IH].
    - left. intros e (pre & post & E & _). destruct pre; discriminate.
    - destruct x as [t|B].
      + right. exists (Term t). split; [apply visited_cons; auto|discriminate].
      + destruct (eqb_spec B head) as [->|Ne].
        * destruct (is_nullable info head) eqn:N.
          -- destruct IH as [F|(e & Ve & Ne)].
             ++ left. intros e Ve. apply visited_cons in Ve. destruct Ve as [->|[_ Ve]]; auto.
             ++ right. exists e. split; [|exact Ne]. apply visited_cons. right. split; [|exact Ve]. exists head. auto.
          -- left. intros e Ve. apply visited_cons in Ve. destruct Ve as [->|[(X & Q & N') _]]; [reflexivity|].
             injection Q as <-. congruence.
        * right. exists (NonTerm B). split; [apply visited_cons; auto|congruence].
  Qed.

  Definition contributes (m : btmap NT (btset T)) (es : list (Elem T NT)) (v : T) : Prop :=
    exists e, visited es e /\ match e with Term t => t = v | NonTerm B => cm_rel m B v end.

  Lemma cm_rel_get (m m' : btmap NT (btset T)) k v : bt_get k m = bt_get k m' -> (cm_rel m k v <-> cm_rel m' k v).
  Proof. intro E. unfold cm_rel. rewrite E. tauto. Qed.

  Lemma firsts_elems_spec head es c m c' m' :
    firsts_elems info head es c m = (c', m') -> cm_wf m ->
    cm_wf m' /\
    (forall k, k <> head -> bt_get k m' = bt_get k m) /\
    (bt_get head m' = None <-> bt_get head m = None /\ forall e, visited es e -> e = NonTerm head) /\
    (forall v, cm_rel m' head v <-> cm_rel m head v \/ contributes m es v) /\
    (c' = Changed <-> c = Changed \/ exists v, cm_rel m' head v /\ ~ cm_rel m head v).
  Proof.
    revert c m. induction es as [|x es IH]; intros c m E Wf; cbn [firsts_elems] in E.
    - injection E as <- <-. split; [exact Wf|]. split; [reflexivity|]. split; [|split].
      + split; [|tauto]. intro N. split; [exact N|]. intros e (pre & post & Q & _). destruct pre; discriminate.
      + intro v. split; [auto|]. intros [R|(e & (pre & post & Q & _) & _)]; [exact R|]. destruct pre; discriminate.
      + split; [auto|]. intros [Q|(v & R & NR)]; [exact Q|contradiction].
    - destruct x as [t|B].
      + destruct (cm_insert m head t) as [d m1] eqn:E1. injection E as <- <-.
        destruct (cm_insert_spec _ _ _ _ _ E1 Wf) as (Wf1 & Oth & (s & Gs & Ms) & Ch).
        assert (V : forall e, visited (Term t :: es) e <-> e = Term t).
        { intro e. rewrite visited_cons. split; [|auto]. intros [Q|((B & Q & _) & _)]; [exact Q|discriminate]. }
        assert (Rv : forall v, cm_rel m1 head v <-> cm_rel m head v \/ contributes m (Term t :: es) v).
        { intro v. unfold cm_rel at 1. rewrite Gs. split.
          - intros (s' & Q & I). injection Q as <-. apply Ms in I. destruct I as [R| ->]; [auto|].
            right. exists (Term t). split; [apply V; reflexivity|reflexivity].
          - intro Q. exists s. split; [reflexivity|]. apply Ms. destruct Q as [R|(e & Ve & Q)]; [auto|].
            apply V in Ve. subst e. auto. }
        split; [exact Wf1|]. split; [exact Oth|]. split; [|split; [exact Rv|]].
        * rewrite Gs. split; [discriminate|]. intros [_ F].
          assert (Q : Term t = NonTerm head) by (apply F, V; reflexivity). discriminate.
        * unfold wc_merge. rewrite wc_join_Changed, Ch. split.
          -- intros [Q|NR]; [auto|]. right. exists t. split; [|exact NR]. apply Rv. right.
             exists (Term t). split; [apply V; reflexivity|reflexivity].
          -- intros [Q|(v & R & NR)]; [auto|]. right. apply Rv in R. destruct R as [R|(e & Ve & Q)]; [contradiction|].
             apply V in Ve. subst e. simpl in Q. subst v. exact NR.
      + destruct (cm_insert_from_key_set m head B) as [d m1] eqn:E1.
        destruct (cm_insert_from_key_set_spec _ _ _ _ _ E1 Wf) as (Wf1 & Oth & Pn & Rl & Ch).
        destruct (is_nullable info B) eqn:NB; cbn [negb] in E.
        * destruct (IH _ _ E Wf1) as (Wf' & Oth' & Pn' & Rl' & Ch').
          assert (V : forall e, visited (NonTerm B :: es) e <-> e = NonTerm B \/ visited es e).
          { intro e. rewrite visited_cons. split; [tauto|]. intros [Q|Q]; [auto|]. right. split; [|exact Q].
            exists B. auto. }
          assert (Cn : forall v, contributes m1 es v -> cm_rel m head v \/ contributes m (NonTerm B :: es) v).
          { intros v (e & Ve & Q). destruct e as [t|X].
            - right. exists (Term t). split; [apply V; auto|exact Q].
            - destruct (eqb_spec X head) as [->|Ne].
              + apply Rl in Q. destruct Q as [Q|Q]; [auto|]. right. exists (NonTerm B). split; [apply V; auto|exact Q].
              + right. exists (NonTerm X). split; [apply V; auto|].
                apply (cm_rel_get m m1); [symmetry; apply Oth; exact Ne|exact Q]. }
          assert (Rv : forall v, cm_rel m' head v <-> cm_rel m head v \/ contributes m (NonTerm B :: es) v).
          { intro v. rewrite Rl', Rl. split.
            - intros [[R|R]|R]; [auto| |apply Cn; exact R].
              right. exists (NonTerm B). split; [apply V; auto|exact R].
            - intros [R|(e & Ve & Q)]; [auto|]. apply V in Ve. destruct Ve as [->|Ve]; [auto|].
              destruct e as [t|X].
              + right. exists (Term t). auto.
              + destruct (eqb_spec X head) as [->|Ne]; [auto|]. right. exists (NonTerm X).
                split; [exact Ve|]. apply (cm_rel_get m m1); [symmetry; apply Oth; exact Ne|exact Q]. }
          split; [exact Wf'|]. split; [intros k Ne; rewrite Oth' by exact Ne; apply Oth; exact Ne|].
          split; [|split; [exact Rv|]].
          -- rewrite Pn', Pn. split.
             ++ intros [[Q ->] F]. split; [exact Q|]. intros e Ve. apply V in Ve. destruct Ve as [->|Ve]; auto.
             ++ intros [Q F]. split; [split; [exact Q|]|].
                ** assert (X : NonTerm B = NonTerm (T := T) head) by (apply F, V; auto). congruence.
                ** intros e Ve. apply F, V. auto.
          -- rewrite Ch'. unfold wc_merge. rewrite wc_join_Changed, Ch. split.
             ++ intros [[Q|(v & R & NR)]|(v & R & NR)]; [auto| |].
                ** right. exists v. split; [|exact NR]. apply Rv. right. exists (NonTerm B).
                   split; [apply V; auto|exact R].
                ** right. exists v. split; [exact R|]. intro Q. apply NR. apply Rl. auto.
             ++ intros [Q|(v & R & NR)]; [auto|].
                destruct (cm_rel_dec m1 head v) as [R1|NR1].
                ** left. right. exists v. split; [|exact NR]. apply Rl in R1. tauto.
                ** right. exists v. auto.
        * injection E as <- <-.
          assert (V : forall e, visited (NonTerm B :: es) e <-> e = NonTerm B).
          { intro e. rewrite visited_cons. split; [|auto]. intros [Q|((X & Q & N) & _)]; [exact Q|].
            injection Q as <-. congruence. }
          assert (Rv : forall v, cm_rel m1 head v <-> cm_rel m head v \/ contributes m (NonTerm B :: es) v).
          { intro v. rewrite Rl. split; intros [R|R]; auto.
            - right. exists (NonTerm B). split; [apply V; reflexivity|exact R].
            - destruct R as (e & Ve & Q). apply V in Ve. subst e. auto. }
          split; [exact Wf1|]. split; [exact Oth|]. split; [|split; [exact Rv|]].
          -- rewrite Pn. split.
             ++ intros [Q ->]. split; [exact Q|]. intros e Ve. apply V. exact Ve.
             ++ intros [Q F]. split; [exact Q|].
                assert (X : NonTerm B = NonTerm (T := T) head) by (apply F, V; reflexivity). congruence.
          -- unfold wc_merge. rewrite wc_join_Changed, Ch. split.
             ++ intros [Q|(v & R & NR)]; [auto|]. right. exists v. split; [|exact NR]. apply Rl. auto.
             ++ intros [Q|(v & R & NR)]; [auto|]. right. exists v. split; [|exact NR]. apply Rl in R. tauto.
  Qed.

  Variable g : Grammar T NT AK AV.
  Hypothesis W : rs_wf g.
  Hypothesis Nul : forall A, is_nullable info A = true <-> lang (rhs_of g) A [].

  Lemma visited_iff es e : visited es e <-> exists pre post, es = pre ++ e :: post /\ gen (rhs_of g) pre [].
  Proof.
    split; intros (pre & post & E & F); exists pre, post; (split; [exact E|]).
    - apply gen_empty. intros x I. destruct (F x I) as (B & -> & N). exists B. split; [reflexivity|]. apply Nul. exact N.
    - intros x I. destruct (proj1 (gen_empty _ _) F x I) as (B & -> & L). exists B.
      split; [reflexivity|]. apply Nul. exact L.
  Qed.

  Definition heads : list NT := map (fun p => p_head p) (prods g).
  Definition terms : list T := get_terminals g.

  Lemma term_in_terms p t : In p (prods g) -> In (Term t) (elements p) -> In t terms.
  Proof.
    intros Ip It. apply filter_map_In. exists (Term t). split; [|reflexivity].
    unfold get_elements. unfold prods in Ip. apply in_flat_map in Ip. destruct Ip as (r & Ir & Ip).
    apply rule_prods_In in Ip. destruct Ip as [_ Ip]. apply in_flat_map. exists (p_inner p).
    split; [|exact It]. apply in_flat_map. exists r. split; [exact Ir|]. exact (nth_error_In _ _ Ip).
  Qed.

  Definition finv (m : btmap NT (btset T)) : Prop :=
    cm_wf m /\ (forall k v, cm_rel m k v -> firstR (rhs_of g) k v) /\
    (forall k, bt_get k m <> None -> exists p e, In p (prods g) /\ p_head p = k /\ visited (elements p) e /\ e <> NonTerm k).

  Lemma firstR_univ k v : firstR (rhs_of g) k v -> In (k, v) (list_prod heads terms).
  Proof.
    intro F. apply in_prod.
    - destruct F as [A pre t post Pr _|A pre B post t Pr _ _];
        destruct (rhs_prods g W _ _ Pr) as (p & Ip & <- & _); unfold heads;
        apply (in_map (fun p => p_head p)); exact Ip.
    - induction F as [A pre t post Pr _|A pre B post t Pr _ _ IH]; [|exact IH].
      destruct (rhs_prods g W _ _ Pr) as (p & Ip & _ & E). apply (term_in_terms p); [exact Ip|].
      rewrite E. apply in_or_app. right. left. reflexivity.
  Qed.

  Lemma firsts_loop_step univ : (forall k v, firstR (rhs_of g) k v -> In (k, v) univ) ->
    forall p m, In p (prods g) -> finv m ->
    match firsts_step info p m with
    | Ret (c, m') => finv m' /\ (forall k v, cm_rel m k v -> cm_rel m' k v) /\
        (forall k v, cm_rel m' k v -> cm_rel m k v \/ In (k, v) univ) /\
        (forall k, bt_get k m <> None -> bt_get k m' <> None) /\
        (c = Changed <-> exists k v, cm_rel m' k v /\ ~ cm_rel m k v)
    | Panic s => False
    | NoFuel => False
    end.
  Proof.
    intros Hu.
  intros p m Ip (Wf & Sd & Kk). unfold firsts_step.
    destruct (firsts_elems info (p_head p) (elements p) Unchanged m) as [c m'] eqn:E.
    destruct (firsts_elems_spec _ _ _ _ _ _ E Wf) as (Wf' & Oth & Pn & Rl & Ch).
    assert (Sd' : forall k v, cm_rel m' k v -> firstR (rhs_of g) k v).
    { intros k v Q. destruct (eqb_spec k (p_head p)) as [->|Ne].
      - apply Rl in Q. destruct Q as [Q|(e & Ve & Q)]; [apply Sd; exact Q|].
        apply visited_iff in Ve. destruct Ve as (pre & post & Ee & G).
        apply firstR_iff. exists (elements p). split; [apply prods_rhs; assumption|].
        exists pre, e, post. split; [exact Ee|]. split; [exact G|].
        destruct e as [t|B]; simpl in *; [exact Q|apply Sd; exact Q].
      - apply Sd. apply (cm_rel_get m m'); [symmetry; apply Oth; exact Ne|exact Q]. }
    split; [split; [exact Wf'|split; [exact Sd'|]]|split; [|split; [|split]]].
    + intros k Q. destruct (bt_get k m) as [s|] eqn:G.
      * apply Kk. congruence.
      * destruct (eqb_spec k (p_head p)) as [->|Ne].
        -- destruct (forall_visited_dec (elements p) (p_head p)) as [F|(e & Ve & Ne)].
           ++ exfalso. apply Q. apply Pn. auto.
           ++ exists p, e. auto.
        -- rewrite Oth in Q by exact Ne. contradiction.
    + intros k v Q. destruct (eqb_spec k (p_head p)) as [->|Ne].
      * apply Rl. auto.
      * apply (cm_rel_get m m'); [symmetry; apply Oth; exact Ne|exact Q].
    + intros k v Q. right. apply Hu, Sd'. exact Q.
    + intros k Q. destruct (eqb_spec k (p_head p)) as [->|Ne].
      * rewrite Pn. tauto.
      * rewrite Oth by exact Ne. exact Q.
    + rewrite Ch. split.
      * intros [Q|(v & X)]; [discriminate|]. exists (p_head p), v. exact X.
      * intros (k & v & Q & NQ). right. destruct (eqb_spec k (p_head p)) as [->|Ne].
        -- exists v. auto.
        -- exfalso. apply NQ. apply (cm_rel_get m m'); [symmetry; apply Oth; exact Ne|exact Q].
  Qed.
  Lemma finv_nil : finv [].
  Proof.
    split; [apply cm_wf_nil|]. split.
    - intros k v (s & Q & _). discriminate.
    - intros k Q. simpl in Q. congruence.
  Qed.
  Lemma firsts_rounds univ : (forall k v, firstR (rhs_of g) k v -> In (k, v) univ) ->
    forall n, length univ < n -> change_loop (change_iter (firsts_step info) (prods g)) n cm_new <> NoFuel.
  Proof.
    intros Hu n L. apply (cm_saturate_bound (firsts_step info) (prods g) finv univ (fun _ => False)); [apply firsts_loop_step; exact Hu|exact finv_nil| |exact L].
    intros k v (s & Q & _). discriminate.
  Qed.

  Lemma calculate_firsts_loop :
    exists m, runs_to (fun n => change_loop (change_iter (firsts_step info) (prods g)) n cm_new) (Ret m) /\
      cm_wf m /\ (forall A t, cm_rel m A t <-> firstR (rhs_of g) A t) /\
      (forall A, bt_get A m = None <-> forall p e, In p (prods g) -> p_head p = A -> visited (elements p) e -> e = NonTerm A).
  Proof.
    destruct (cm_saturate (firsts_step info) (prods g) finv (list_prod heads terms) (fun _ => False))
      with (m0 := @nil (NT * btset T)) as (r & R & Pr).
    - apply firsts_loop_step. exact firstR_univ.
    - split; [apply cm_wf_nil|]. split.
      + intros k v (s & Q & _). discriminate.
      + intros k Q. simpl in Q. congruence.
    - intros k v (s & Q & _). discriminate.
    - destruct r as [m|s|]; [|destruct Pr|destruct Pr]. destruct Pr as ((Wf & Sd & Kk) & _ & Cl).
      exists m. split; [exact R|]. split; [exact Wf|]. split.
      + intros A t. split; [apply Sd|]. intro F.
        assert (Clo : forall p e v, In p (prods g) -> visited (elements p) e ->
                  match e with Term t => t = v | NonTerm B => cm_rel m B v end -> cm_rel m (p_head p) v).
        { intros p e v Ip Ve Q. destruct (Cl p Ip) as (s1 & s2 & (Wf1 & _) & [R1 _] & [R2 _] & E).
          unfold firsts_step in E. injection E as E.
          destruct (firsts_elems_spec _ _ _ _ _ _ E Wf1) as (_ & _ & _ & Rl & _).
          apply R2, Rl. right. exists e. split; [exact Ve|]. destruct e as [t'|B]; [exact Q|apply R1; exact Q]. }
        induction F as [A pre t post Pr G|A pre B post t Pr G _ IH];
          destruct (rhs_prods g W _ _ Pr) as (p & Ip & <- & E).
        * apply (Clo p (Term t) t Ip); [|reflexivity]. apply visited_iff. exists pre, post. auto.
        * apply (Clo p (NonTerm B) t Ip); [|exact IH]. apply visited_iff. exists pre, post. auto.
      + intro A. split.
        * intros N p e Ip <- Ve. destruct (Cl p Ip) as (s1 & s2 & (Wf1 & _) & _ & [_ K2] & E).
          unfold firsts_step in E. injection E as E.
          destruct (firsts_elems_spec _ _ _ _ _ _ E Wf1) as (_ & _ & Pn & _ & _).
          destruct (bt_get (p_head p) s2) as [s|] eqn:G2.
          -- exfalso. apply (K2 (p_head p)); congruence.
          -- apply Pn; [reflexivity|exact Ve].
        * intro F. destruct (bt_get A m) as [s|] eqn:G; [|reflexivity]. exfalso.
          destruct (Kk A) as (p & e & Ip & Eh & Ve & Ne); [congruence|]. exact (Ne (F p e Ip Eh Ve)).
  Qed.
End Firsts.
