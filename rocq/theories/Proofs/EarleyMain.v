(** What the Earley parser returns: recognition, panics, and the forest. *)
From Coq Require Import String List Arith NArith Lia Bool.
From Verif.Model Require Import Ord BTree Outcome Utils Grammar StartGrammar Tokens Tree State Earley.
From Verif.Spec Require Import Reach Cfg BuildSpec NullSpec EarleySpec.
From Verif.Proofs Require Import OrdFacts BTreeFacts LoopFacts GrammarFacts StartFacts NullableFacts TreeFacts TreeHist EarleyItems EarleyRun EarleyParse.
Import ListNotations.

Section Main.
  Context {T NT AK AV V : Type} `{OrdEq T} `{OrdEq NT} `{OrdEq AK} `{OrdEq V}.
  Variable g : Grammar T NT AK AV.
  Hypothesis Bg : accepted g.
  Local Notation SP := (Prod (StreamTerminal T) (StartNonTerminal NT) (StartActionKey AK) (StartActionValue AV)).
  Local Notation sg := (wrapg g).
  Local Notation tree := (Inner T AK V).
  Local Notation P := (rhs_of g).
  Local Notation S0 := (start_nt g).
  Variable lay : layout (StartNonTerminal NT).
  Hypothesis Inj : lay_inj sg lay.
  Variable w : list (Token T V).
  Local Notation kw := (map tk_kind w).
  Variable t0 : tree.
  Hypothesis T0 : TInv t0.

  Lemma final_item {Lb} (lfl : SP * nat * nat -> nat -> Token T V -> Lb) brl :
    (exists ls, item g w lfl brl (length w) (p0 g) 1 0 ls) <-> lang P S0 kw.
  Proof.
    rewrite (item_iff g Bg w lfl brl). unfold item_spec, lang.
    assert (Es : seg kw 0 (length w) = kw) by (rewrite <- (map_length tk_kind w); apply seg_all).
    split.
    - intros (_ & _ & [(_ & _ & [(E & _)|(_ & G)])|(A & ix & q & E & _)]); [discriminate| |discriminate]. rewrite Es in G. exact G.
    - intro G. split; [lia|]. split; [lia|]. left. split; [reflexivity|]. split; [reflexivity|]. right. rewrite Es. auto.
  Qed.
  (** [stuck j]: nothing can come of the first [j] tokens, or two keys are confused there. *)
  Definition stuck j : Prop :=
    ~ viable P S0 (firstn j kw) \/ two_places P S0 kw j \/ (j = 0 /\ lang P S0 []).
  Lemma bad_stuck {Lb} (lfl : SP * nat * nat -> nat -> Token T V -> Lb) brl j : j <= length w -> (bad g w lfl brl j <-> stuck j).
  Proof.
    intro L. unfold bad, stuck. rewrite (collision_iff g Bg w lfl brl), (item_viable g Bg w lfl brl j L), seg_0. reflexivity.
  Qed.
  Lemma ulab_fun k p d i ls ls' : item g w ulf ubr k p d i ls -> item g w ulf ubr k p d i ls' -> ls = ls'.
  Proof.
    intros I1 I2. apply (item_facts g Bg w) in I1. apply (item_facts g Bg w) in I2.
    assert (E : length ls = length ls') by (destruct I1 as (_ & _ & _ & E1 & _), I2 as (_ & _ & _ & E2 & _); congruence).
    clear - E. revert ls' E. induction ls as [|[] ls IH]; intros [|[] ls'] E; try discriminate; [reflexivity|]. f_equal. apply IH. simpl in E. lia.
  Qed.

  (** What is untouched. *)
  Lemma ext_untouched {Lb} t (lab : nat -> option Lb) : ext t0 (fun _ => None) t lab ->
    (forall n, node_ok t0 n -> (node_ok t n /\ nalts t n = nalts t0 n) /\ lab n = None) /\ tmono t0 t.
  Proof.
    intro X. split.
    - intros n O. destruct (ex_old _ _ _ _ X n O eq_refl) as [L N]. pose proof (proj1 (ex_tle _ _ _ _ X)) as Le. unfold node_ok in *. repeat split; auto. lia.
    - exact (ext_tmono _ _ _ _ X).
  Qed.

  Theorem parse_main : exists r, runs_to (fun fuel => parse lay sg w t0 fuel) r /\
    match r with
    | Ret (o, t) => (forall j, j <= length w -> ~ stuck j) /\ TInv t /\ tmono t0 t /\
        (forall n, node_ok t0 n -> node_ok t n /\ nalts t n = nalts t0 n) /\
        match o with
        | Some m => lang P S0 kw /\ node_ok t m /\ ~ node_ok t0 m /\ forall tr, dtree g (NonTerm S0) w tr -> reads t m tr
        | None => ~ lang P S0 kw
        end
    | Panic m => exists j, j <= length w /\ stuck j /\ (forall i, i < j -> ~ stuck i) /\
        ((m = "assertion failed: !new_state.is_empty()"%string /\ ~ viable P S0 (firstn j kw)) \/
         (m = "assertion failed: `(left == right)`"%string /\ viable P S0 (firstn j kw)))
    | NoFuel => False
    end.
  Proof.
    destruct (parse_labelled g Bg lay Inj w ulf ubr ulab_fun t0 T0) as (r & Rr & Pr). exists r. split; [exact Rr|].
    destruct r as [[o t]|m|]; [| |exact Pr].
    - destruct Pr as (NB & lab & L & X & Po). destruct (ext_untouched t lab X) as [Un Tm].
      split; [intros j Lj St; apply (NB j Lj); apply bad_stuck; assumption|]. split; [exact (li_t _ _ _ _ _ _ L)|]. split; [exact Tm|].
      split; [intros n O; apply (Un n O)|]. destruct o as [m|].
      + destruct Po as (l & It & El & Rd). split; [apply (final_item ulf ubr); eauto|]. split; [exact (li_ok _ _ _ _ _ _ L _ _ El)|]. split.
        * intro O. destruct (Un m O) as [_ E]. congruence.
        * intros tr D. assert (exists dflt : AK, True) as (dflt & _) by (inversion D as [|A p ts cs Pq Dq]; subst; exists (pi_action_key p); exact I).
          apply (Rd dflt). apply dtree_item; assumption.
      + intro G. apply (final_item ulf ubr) in G. destruct G as (ls & It). exact (Po ls It).
    - destruct Pr as (j & Lj & B & Mn). exists j. split; [exact Lj|]. split; [|split].
      + apply (bad_stuck ulf ubr); [exact Lj|]. destruct B as [[_ B]|[_ B]]; [left|right]; exact B.
      + intros i Li St. apply (Mn i Li). apply bad_stuck; [lia|exact St].
      + pose proof (item_viable g Bg w ulf ubr j Lj) as Vi. rewrite seg_0 in Vi. destruct B as [[-> B]|[-> (p & d & d' & i & ls & ls' & It & _)]]; [left|right]; (split; [reflexivity|]).
        * intro X. apply B. apply Vi. exact X.
        * apply Vi. eauto.
  Qed.

  (** ** Trees read off a forest use the grammar correctly *)
  Definition unwrap_nt (A : StartNonTerminal NT) : NT := match A with NTerm A => A | Start => S0 end.
  Definition elf (_ : SP * nat * nat) (_ : nat) (tok : Token T V) : Elem T NT := Term (tk_kind tok).
  Definition ebr (_ : SP * nat * nat) (p : SP) (_ _ : nat) (_ : list (Elem T NT)) : Elem T NT := NonTerm (unwrap_nt (p_head p)).
  Lemma elab k p d i ls : item g w elf ebr k p d i ls -> map wrap_sym ls = firstn d (elements p).
  Proof.
    intro I. induction I as [|k q d i ls p Iq IH N Ip|k q d i ls tok Iq IH N E|j q d i ls k p ls' Iq IH1 N Ic IH2]; try reflexivity.
    - rewrite (firstn_S_nth _ _ _ N), map_app, IH. reflexivity.
    - rewrite (firstn_S_nth _ _ _ N), map_app, IH1. do 2 f_equal. simpl. do 2 f_equal. unfold unwrap_nt.
      destruct (p_head p) as [|B] eqn:E; [|reflexivity]. exfalso.
      destruct (sprod_inv g Bg q) as [->|(A & ix & q0 & -> & _)].
      + apply (item_facts g Bg w) in Iq. tauto.
      + destruct d as [|[|[|d]]]; simpl in N; discriminate.
      + rewrite wP_elements, nth_error_map in N. destruct (nth_error (elements_iter q0) d) as [[?|?]|]; discriminate.
  Qed.
  Lemma map_wrap_inj (l l' : list (Elem T NT)) : map wrap_sym l = map wrap_sym l' -> l = l'.
  Proof.
    revert l'. induction l as [|e l IH]; intros [|e' l'] E; try discriminate; [reflexivity|]. simpl in E. injection E as E1 E2.
    apply wrap_sym_inj in E1. subst. f_equal. auto.
  Qed.
  Lemma elab_fun k p d i ls ls' : item g w elf ebr k p d i ls -> item g w elf ebr k p d i ls' -> ls = ls'.
  Proof. intros I1 I2. apply elab in I1. apply elab in I2. apply map_wrap_inj. congruence. Qed.
  (** A complete production with a key of the grammar. *)
  Lemma complete_prod {Lb} (lfl : SP * nat * nat -> nat -> Token T V -> Lb) brl k p i ls ak : item g w lfl brl k p (length (elements p)) i ls -> action_key p = ActionKey ak ->
    exists A ix q, p = wP A ix q /\ nth_prod g A ix q /\ ak = pi_action_key q /\ prod_of g A q.
  Proof.
    intros It Ak. destruct (item_facts g Bg w lfl brl _ _ _ _ _ It) as (_ & _ & _ & _ & Ip).
    destruct (sprod_inv g Bg p Ip) as [->|(A & ix & q & -> & Nq)]; [discriminate|].
    exists A, ix, q. split; [reflexivity|]. split; [exact Nq|]. split; [injection Ak; auto|]. apply prod_of_nth. eauto.
  Qed.
  Lemma conform t lab : LInv g w elf ebr t lab ->
    (forall n tr, reads t n tr -> forall e, lab n = Some e -> exists ts, dtree g e ts tr) /\
    (forall ns trs, reads_all t ns trs -> forall es, labs lab ns es -> exists ts, dtrees g es ts trs).
  Proof.
    intro L. apply reads_reads_all_ind.
    - intros n s a k v Gn Ia Ga e E. destruct (li_alt _ _ _ _ _ _ L n e a E (get_node_In _ _ _ _ Gn Ia)) as (c & Ec & Ok).
      apply get_alt_acont in Ga. rewrite Ga in Ec. injection Ec as <-. destruct Ok as (j & ? & ? & ? & ? & _ & -> & _). eexists. constructor.
    - intros n s a x ns cs Gn Ia Ga _ IH e E. destruct (li_alt _ _ _ _ _ _ L n e a E (get_node_In _ _ _ _ Gn Ia)) as (c & Ec & Ok).
      apply get_alt_acont in Ga. rewrite Ga in Ec. injection Ec as <-. destruct Ok as (p & i & k & ls & It & Ak & Fl & ? & ? & ? & ? & -> & _).
      destruct (complete_prod _ _ _ _ _ _ _ It Ak) as (A & ix & q & -> & Nq & -> & Pq).
      destruct (IH ls Fl) as (ts & D). exists ts. unfold ebr. simpl.
      apply (dtree_branch g A q ts cs Pq). apply elab in It. rewrite firstn_all, wP_elements in It. apply map_wrap_inj in It. subst ls. exact D.
    - intros es F. inversion F; subst. eexists. constructor.
    - intros n ns c cs _ IH1 _ IH2 es F. inversion F as [|n0 e ns0 es0 E F']; subst.
      destruct (IH1 e E) as (t1 & D1). destruct (IH2 es0 F') as (t2 & D2). eexists. constructor; eassumption.
  Qed.
  Theorem parse_conforms m t : runs_to (fun fuel => parse lay sg w t0 fuel) (Ret (Some m, t)) ->
    forall tr, reads t m tr -> exists ts, dtree g (NonTerm S0) ts tr.
  Proof.
    intros R tr Rd. destruct (parse_labelled g Bg lay Inj w elf ebr elab_fun t0 T0) as (r & Rr & Pr).
    rewrite (runs_to_fun _ _ _ Rr R) in Pr. destruct Pr as (_ & lab & L & _ & (l & It & El & _)).
    apply elab in It. simpl in It. injection It as It. change (NonTerm (NTerm S0)) with (@wrap_sym T NT (NonTerm S0)) in It.
    apply wrap_sym_inj in It. subst l. exact (proj1 (conform t lab L) m tr Rd _ El).
  Qed.

  (** ** The forest is exact when every piece is cut in one way only *)
  Section Exact.
    Hypothesis UC : unique_cuts P S0 kw.
    Local Notation span := (Elem T NT * nat * nat)%type.
    Definition slf (_ : SP * nat * nat) (j : nat) (tok : Token T V) : span := (Term (tk_kind tok), j, S j).
    Definition sbr (_ : SP * nat * nat) (p : SP) (i k : nat) (_ : list span) : span := (NonTerm (unwrap_nt (p_head p)), i, k).
    (** Adjacent spans from [i] to [k], each derived by its symbol. *)
    Inductive spans : list span -> nat -> nat -> Prop :=
    | sp_nil i : spans [] i i
    | sp_snoc ls e i j k : spans ls i j -> j <= k -> k <= length w -> gen P [e] (seg kw j k) -> spans (ls ++ [(e, j, k)]) i k.
    Lemma slab k p d i ls : item g w slf sbr k p d i ls -> map wrap_sym (map (fun s => fst (fst s)) ls) = firstn d (elements p) /\ spans ls i k.
    Proof.
      intro I. induction I as [|k q d i ls p Iq IH N Ip|k q d i ls tok Iq IH N E|j q d i ls k p ls' Iq IH1 N Ic IH2]; try (split; [reflexivity|constructor]).
      - destruct IH as [IH Sp]. split.
        + rewrite (firstn_S_nth _ _ _ N), !map_app, IH. reflexivity.
        + assert (Lk : k < length w) by (apply nth_error_Some; congruence).
          apply (sp_snoc ls (Term (tk_kind tok)) i k (S k) Sp); [lia|lia|].
          rewrite (seg_one _ k (tk_kind tok)) by (rewrite nth_error_map, E; reflexivity). constructor. constructor.
      - destruct IH1 as [IH1 Sp].
        assert (X : exists B, p_head p = NTerm B).
        { destruct (p_head p) as [|B] eqn:E; [|eauto]. exfalso.
          destruct (sprod_inv g Bg q) as [->|(A & ix & q0 & -> & _)].
          + apply (item_facts g Bg w) in Iq. tauto.
          + destruct d as [|[|[|d]]]; simpl in N; discriminate.
          + rewrite wP_elements, nth_error_map in N. destruct (nth_error (elements_iter q0) d) as [[?|?]|]; discriminate. }
        destruct X as (B & EB). split.
        + rewrite (firstn_S_nth _ _ _ N), !map_app, IH1. do 2 f_equal. simpl. rewrite EB. reflexivity.
        + destruct (item_facts g Bg w slf sbr _ _ _ _ _ Ic) as (L1 & L2 & _). unfold sbr. rewrite EB. simpl.
          apply sp_snoc with (1 := Sp); [exact L1|exact L2|]. apply (item_sound g Bg w) in Ic.
          destruct Ic as (_ & _ & [(-> & _)|(A & ix & q1 & -> & Nq & _ & _ & G)]); [discriminate|].
          simpl in EB. injection EB as ->. apply lang_iff. exists (elements_iter q1). split; [exact (nth_prod_rhs g _ _ _ Nq)|].
          rewrite wP_elements, map_length, firstn_all in G. exact G.
    Qed.
    Lemma cuts_snoc es i j cs e k : cuts P kw es i j cs -> j <= k -> k <= length kw -> gen P [e] (seg kw j k) -> cuts P kw (es ++ [e]) i k (cs ++ [k]).
    Proof.
      intros C L1 L2 G. induction C as [i|e' es i j' k' cs L3 L4 G' C' IH]; simpl.
      - constructor; [exact L1|exact L2|exact G|constructor].
      - constructor; [exact L3|exact L4|exact G'|]. apply IH; assumption.
    Qed.
    Lemma spans_cuts ls i k : spans ls i k -> cuts P kw (map (fun s => fst (fst s)) ls) i k (map snd ls).
    Proof.
      intro S. induction S as [i|ls e i j k _ IH L1 L2 G]; [constructor|]. rewrite !map_app.
      simpl. apply (cuts_snoc _ _ j); [exact IH|exact L1|rewrite map_length; exact L2|exact G].
    Qed.
    (** The starts follow from the ends. *)
    Lemma spans_eq ls i k : spans ls i k -> forall ls', spans ls' i k -> map (fun s => fst (fst s)) ls = map (fun s => fst (fst s)) ls' ->
      map snd ls = map snd ls' -> ls = ls'.
    Proof.
      intro S. induction S as [i|ls e i j k S IH L1 L2 G]; intros ls' S' E1 E2.
      - destruct ls'; [reflexivity|discriminate].
      - inversion S' as [i' Ei Ek|ls1 e1 i1 j1 k1 S1 L3 L4 G1]; subst.
        + rewrite map_app in E1. destruct ls; discriminate.
        + rewrite !map_app in E1, E2. simpl in E1, E2. apply app_inj_tail in E1. apply app_inj_tail in E2.
          destruct E1 as [E1 ->]. destruct E2 as [E2 _].
          assert (j1 = j) as ->.
          { assert (X : forall l a b, spans l a b -> b = last (map snd l) a).
            { clear. intros l a b S. destruct S; [reflexivity|]. rewrite map_app. simpl. rewrite last_last. reflexivity. }
            rewrite (X _ _ _ S), (X _ _ _ S1), E2. reflexivity. }
          rewrite (IH ls1 S1 E1 E2). reflexivity.
    Qed.
    Lemma slab_fun k p d i ls ls' : item g w slf sbr k p d i ls -> item g w slf sbr k p d i ls' -> ls = ls'.
    Proof.
      intros I1 I2. destruct (slab _ _ _ _ _ I1) as [E1 S1]. destruct (slab _ _ _ _ _ I2) as [E2 S2].
      assert (E : map (fun s : span => fst (fst s)) ls = map (fun s : span => fst (fst s)) ls') by (apply map_wrap_inj; congruence).
      apply (spans_eq _ _ _ S1 _ S2 E).
      destruct (item_facts g Bg w slf sbr _ _ _ _ _ I1) as (_ & _ & _ & Ll & Ip). apply (item_sound g Bg w) in I1.
      destruct I1 as (_ & _ & [(-> & -> & [(-> & ->)|(-> & _)])|(A & ix & q & -> & Nq & Pr & Ld & _)]).
      - destruct ls, ls'; try discriminate. reflexivity.
      - destruct ls as [|[[e1 a1] b1] [|]]; try discriminate. destruct ls' as [|[[e2 a2] b2] [|]]; try discriminate.
        assert (X : forall e a b, spans [(e, a, b)] 0 k -> b = k).
        { clear. intros e a b S. inversion S as [|ls e' i j k' S' L1 L2 G Ea]; subst.
          destruct ls as [|x [|]]; try discriminate. injection Ea as -> -> ->. reflexivity. }
        simpl. rewrite (X _ _ _ S1), (X _ _ _ S2). reflexivity.
      - apply (UC i A (firstn d (elements_iter q)) (skipn d (elements_iter q)) k); [exact Pr| | |].
        + rewrite firstn_skipn. exact (nth_prod_rhs g _ _ _ Nq).
        + rewrite wP_elements, firstn_map in E1. apply map_wrap_inj in E1. rewrite <- E1. apply spans_cuts. exact S1.
        + rewrite wP_elements, firstn_map in E2. apply map_wrap_inj in E2. rewrite <- E2. apply spans_cuts. exact S2.
    Qed.
    Lemma spans_dtrees ls i k : spans ls i k -> forall trs,
      Forall2 (fun (s : span) tr => dtree g (fst (fst s)) (seg w (snd (fst s)) (snd s)) tr) ls trs ->
      i <= k /\ dtrees g (map (fun s => fst (fst s)) ls) (seg w i k) trs.
    Proof.
      intro S. induction S as [i|ls e i j k S IH L1 L2 G]; intros trs F.
      - inversion F; subst. split; [lia|]. rewrite seg_same. constructor.
      - apply Forall2_app_inv_l in F. destruct F as (t1 & t2 & F1 & F2 & ->). inversion F2 as [|x c y z D F3]; subst. inversion F3; subst.
        destruct (IH t1 F1) as [L D1]. split; [lia|]. rewrite map_app, (seg_app _ i j k) by lia. simpl in *.
        clear - D D1. induction D1 as [|e' es ts us c' cs D' _ IH]; simpl.
        + rewrite <- (app_nil_r (seg w j k)). constructor; [exact D|constructor].
        + rewrite <- app_assoc. constructor; [exact D'|exact IH].
    Qed.
    Lemma exact_sound t lab : LInv g w slf sbr t lab ->
      (forall n tr, reads t n tr -> forall s, lab n = Some s -> dtree g (fst (fst s)) (seg w (snd (fst s)) (snd s)) tr) /\
      (forall ns trs, reads_all t ns trs -> forall ss, labs lab ns ss -> Forall2 (fun s tr => dtree g (fst (fst s)) (seg w (snd (fst s)) (snd s)) tr) ss trs).
    Proof.
      intro L. apply reads_reads_all_ind.
      - intros n s a k v Gn Ia Ga e E. destruct (li_alt _ _ _ _ _ _ L n e a E (get_node_In _ _ _ _ Gn Ia)) as (c & Ec & Ok).
        apply get_alt_acont in Ga. rewrite Ga in Ec. injection Ec as <-. destruct Ok as (j & ? & ? & ? & ? & Ej & -> & _). simpl.
        rewrite (seg_one _ _ _ Ej). constructor.
      - intros n s a x ns cs Gn Ia Ga _ IH e E. destruct (li_alt _ _ _ _ _ _ L n e a E (get_node_In _ _ _ _ Gn Ia)) as (c & Ec & Ok).
        apply get_alt_acont in Ga. rewrite Ga in Ec. injection Ec as <-. destruct Ok as (p & i & k & ls & It & Ak & Fl & ? & ? & ? & ? & -> & _).
        destruct (complete_prod _ _ _ _ _ _ _ It Ak) as (A & ix & q & -> & Nq & -> & Pq).
        simpl. apply (dtree_branch g A q _ cs Pq). destruct (slab _ _ _ _ _ It) as [El Sl].
        rewrite firstn_all, wP_elements in El. apply map_wrap_inj in El.
        destruct (spans_dtrees _ _ _ Sl cs (IH ls Fl)) as [_ D]. rewrite El in D. exact D.
      - intros es F. inversion F; subst. constructor.
      - intros n ns c cs _ IH1 _ IH2 es F. inversion F as [|n0 e ns0 es0 E F']; subst. constructor; auto.
    Qed.
    Theorem parse_exact m t : runs_to (fun fuel => parse lay sg w t0 fuel) (Ret (Some m, t)) ->
      forall tr, reads t m tr -> dtree g (NonTerm S0) w tr.
    Proof.
      intros R tr Rd. destruct (parse_labelled g Bg lay Inj w slf sbr slab_fun t0 T0) as (r & Rr & Pr).
      rewrite (runs_to_fun _ _ _ Rr R) in Pr. destruct Pr as (_ & lab & L & _ & ([[e i] k] & It & El & _)).
      destruct (slab _ _ _ _ _ It) as [E S]. simpl in E. injection E as E. change (NonTerm (NTerm S0)) with (@wrap_sym T NT (NonTerm S0)) in E.
      apply wrap_sym_inj in E. subst e. pose proof (proj1 (exact_sound t lab L) m tr Rd _ El) as D. simpl in D.
      assert (X : forall e a b k, spans [(e, a, b)] 0 k -> a = 0 /\ b = k).
      { clear. intros e a b k S. inversion S as [|ls e' i' j k' S' L1 L2 G Ea]; subst. destruct ls as [|x [|]]; try discriminate.
        injection Ea as -> -> ->. split; [|reflexivity]. inversion S' as [j' E1|l1 e1 i1 j1 k1 S1 M1 M2 M3 E1]; subst; [reflexivity|destruct l1; discriminate]. }
      destruct (X _ _ _ _ S) as [-> ->].
      rewrite seg_all in D. exact D.
    Qed.
  End Exact.
End Main.
