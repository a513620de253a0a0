(** The test for grammars with optional parts is right. *)
From Coq Require Import String List Arith NArith Lia Bool.
From Verif.Model Require Import Ord BTree Outcome Utils Grammar Nullable NonNull Firsts.
From Verif.Spec Require Import Reach Cfg BuildSpec NullSpec NonNullSpec EarleySpec LL1Spec GrammarTestSpec OptionalTestSpec.
From Verif.Proofs Require Import OrdFacts BTreeFacts LoopFacts UtilsFacts GrammarFacts BuildMore CfgFacts ExampleFacts NullableFacts NullableMore GrammarTestFacts.
From Verif.Properties Require Import NullableProps.
Import ListNotations.
Local Open Scope list_scope.

Section Lasting.
  Context {T NT AK AV : Type} `{OrdEq T} `{OrdEq NT} `{OrdEq AK}.
  Variable g : Grammar T NT AK AV.
  Hypothesis Bg : built g.
  Local Notation P := (rhs_of g).
  Let W : rs_wf g := built_rs_wf g Bg.
  Local Notation heads := (map p_head (prods g)).

  (** The nonterminals of a body that derives a word derive words, and if the word is not empty so is one of theirs. *)
  Lemma parts es u : gen P es u -> forall B, In (NonTerm B) es -> exists v, lang P B v.
  Proof.
    induction 1 as [|t es w X IH|A rhs es u w Pr X1 IH1 X2 IH2]; intros B I.
    - destruct I.
    - destruct I as [I|I]; [discriminate|exact (IH B I)].
    - destruct I as [[= <-]|I]; [exists u; apply (lang_intro _ _ rhs); assumption|exact (IH2 B I)].
  Qed.
  Lemma empty_parts es : gen P es [] -> forall e, In e es -> exists B, e = NonTerm B /\ lang P B [].
  Proof.
    intro G. remember [] as u eqn:E. induction G as [|t es w X IH|A rhs es u w Pr X1 IH1 X2 IH2]; intros e I; [destruct I|discriminate|].
    apply app_eq_nil in E as [-> ->]. destruct I as [<-|I]; [exists A; split; [reflexivity|apply (lang_intro _ _ rhs); assumption]|exact (IH2 eq_refl e I)].
  Qed.
  Definition long (B : NT) : Prop := exists v, v <> [] /\ lang P B v.
  Definition lasts_p (e : Elem T NT) : Prop := match e with Term _ => True | NonTerm B => long B end.
  Lemma make_long es e : In e es -> lasts_p e -> (forall B, In (NonTerm B) es -> exists v, lang P B v) -> exists u, u <> [] /\ gen P es u.
  Proof.
    intros I Le A. apply in_split in I as (l1 & l2 & ->).
    assert (Wo : forall l, (forall B, In (NonTerm B) l -> exists v, lang P B v) -> exists u, gen P l u).
    { clear. induction l as [|e l IH]; intro A; [exists []; constructor|].
      destruct IH as (u & G); [intros B I; apply A; right; exact I|]. destruct e as [t|B]; [exists (t :: u); constructor; exact G|].
      destruct (A B (or_introl eq_refl)) as (v & L). exists (v ++ u). apply gen_nt; assumption. }
    destruct (Wo l1) as (u1 & G1); [intros B I; apply A; apply in_or_app; left; exact I|].
    destruct (Wo l2) as (u2 & G2); [intros B I; apply A; apply in_or_app; right; right; exact I|].
    destruct e as [t|B].
    - exists (u1 ++ t :: u2). split; [destruct u1; discriminate|]. apply gen_app; [exact G1|constructor; exact G2].
    - destruct Le as (v & Nv & L). exists (u1 ++ v ++ u2). split; [destruct u1, v; try discriminate; congruence|].
      apply gen_app; [exact G1|apply gen_nt; assumption].
  Qed.

  Variable us : btset NT.
  Hypothesis Us : forall A, In A us <-> exists u, lang P A u.
  Local Notation step := (lasting_step us).
  Definition fine (s : btset NT) : Prop := sorted s /\ incl s heads /\ forall A, In A s -> long A.
  Definition ready (p : Prod T NT AK AV) (s : btset NT) : Prop :=
    (forall B, In (NonTerm B) (elements p) -> exists u, lang P B u) /\ exists e, In e (elements p) /\ lasts s e = true.

  Lemma ready_iff p s : forallb (fun B => bs_mem B us) (filter_map as_nonterm (elements p)) && existsb (lasts s) (elements p) = true <-> ready p s.
  Proof.
    rewrite andb_true_iff, (all_in_iff p us), existsb_exists. unfold all_in, ready. split; intros [A E]; (split; [|exact E]); intros B I.
    - apply Us. exact (A B I).
    - apply Us. exact (A B I).
  Qed.
  Lemma lasts_long s e : fine s -> lasts s e = true -> lasts_p e.
  Proof. intros (_ & _ & L) X. destruct e as [t|B]; [exact I|]. apply L. apply bs_mem_In_iff. exact X. Qed.

  Lemma lasting_iter : forall ps c s, incl ps (prods g) -> fine s ->
    exists c' s', change_iter_from step c ps s = Ret (c', s') /\ fine s' /\ length s <= length s' /\
      (c' = Unchanged -> c = Unchanged /\ s' = s /\ forall p, In p ps -> ready p s -> In (p_head p) s) /\
      (c' = Changed -> c = Changed \/ length s < length s').
  Proof.
    induction ps as [|p ps IH]; intros c s Ip G; cbn [change_iter_from].
    - exists c, s. split; [reflexivity|]. split; [exact G|]. split; [lia|]. split; [|auto]. intros E. split; [exact E|]. split; [reflexivity|]. intros p [].
    - assert (Ip' : incl ps (prods g)) by (intros q I; apply Ip; right; exact I).
      pose proof (Ip p (or_introl eq_refl)) as Ipp.
      unfold lasting_step at 1. destruct (forallb _ _ && existsb _ _) eqn:E; cbn [obind].
      + apply ready_iff in E.
        assert (G' : fine (bs_add (p_head p) s)).
        { pose proof G as G0. destruct G as (So & Ic & L). split; [apply bs_add_sorted; exact So|]. split.
          - intros A I. apply bs_add_In in I. destruct I as [-> |I]; [apply in_map; exact Ipp|exact (Ic A I)].
          - intros A I. apply bs_add_In in I. destruct I as [-> |I]; [|exact (L A I)].
            destruct E as (A1 & e & Ie & Le). destruct (make_long (elements p) e Ie (lasts_long s e G0 Le) A1) as (u & Nu & Gu).
            exists u. split; [exact Nu|]. apply (lang_intro _ _ (elements p)); [apply (prods_rhs g Bg); exact Ipp|exact Gu]. }
        destruct (bs_mem (p_head p) s) eqn:M; cbn [negb from_changed].
        * rewrite (bs_add_mem_id _ _ (proj1 G) M). destruct (IH (wc_join c Unchanged) s Ip' G) as (c' & s' & R & G1 & Ln & U & C).
          assert (J : wc_join c Unchanged = c) by (destruct c; reflexivity). rewrite J in *.
          exists c', s'. split; [exact R|]. split; [exact G1|]. split; [exact Ln|]. split; [|exact C].
          intro X. destruct (U X) as (U1 & U2 & U3). split; [exact U1|]. split; [exact U2|].
          intros q [<-|I] A; [apply bs_mem_In_iff; exact M|exact (U3 q I A)].
        * destruct (IH (wc_join c Changed) _ Ip' G') as (c' & s' & R & G1 & Ln & U & C).
          rewrite (bs_add_length_new _ _ M) in Ln.
          exists c', s'. split; [exact R|]. split; [exact G1|]. split; [lia|]. split.
          -- intro X. destruct (U X) as (U1 & _). destruct c; discriminate.
          -- intro X. right. lia.
      + destruct (IH (wc_join c Unchanged) s Ip' G) as (c' & s' & R & G1 & Ln & U & C).
        assert (J : wc_join c Unchanged = c) by (destruct c; reflexivity). rewrite J in *.
        exists c', s'. split; [exact R|]. split; [exact G1|]. split; [exact Ln|]. split; [|exact C].
        intro X. destruct (U X) as (U1 & U2 & U3). split; [exact U1|]. split; [exact U2|].
        intros q [<-|I] A; [|exact (U3 q I A)]. apply ready_iff in A. congruence.
  Qed.

  Lemma lasting_loop : exists s, runs_to (fun fuel => change_loop (change_iter step (prods g)) fuel []) (Ret s) /\
    (forall A, In A s <-> long A) /\ forall es u, gen P es u -> u <> [] -> exists e, In e es /\ lasts s e = true.
  Proof.
    destruct (change_loop_measure (change_iter step (prods g)) fine (fun s => length heads - length s)
      (fun s => fine s /\ forall p, In p (prods g) -> ready p s -> In (p_head p) s)) with (s := @nil NT) as (s & R & G & Cl).
    - intros s G. destruct (lasting_iter (prods g) Unchanged s (incl_refl _) G) as (c & s' & R & G' & Ln & U & C).
      exists c, s'. split; [exact R|]. destruct c.
      + split; [exact G'|]. destruct (C eq_refl) as [X|X]; [discriminate|].
        pose proof (NoDup_incl_length (sorted_NoDup _ (proj1 G')) (proj1 (proj2 G'))). lia.
      + destruct (U eq_refl) as (_ & -> & Cl). auto.
    - split; [constructor|]. split; [intros A []|]. intros A [].
    - assert (K : forall es u, gen P es u -> u <> [] -> exists e, In e es /\ lasts s e = true).
      { induction 1 as [|t es w X IH|B rhs es u w Pr X1 IH1 X2 IH2]; intro Nu.
        - destruct (Nu eq_refl).
        - exists (Term t). split; [left; reflexivity|reflexivity].
        - destruct u as [|t u].
          + destruct (IH2 Nu) as (e & I & Le). exists e. split; [right; exact I|exact Le].
          + destruct IH1 as (e & I & Le); [discriminate|]. destruct (rhs_prods g Bg _ _ Pr) as (p & Ip & <- & <-).
            exists (NonTerm (p_head p)). split; [left; reflexivity|]. cbn. apply bs_mem_In_iff. apply (Cl p Ip). split; [exact (parts _ _ X1)|].
            exists e. auto. }
      exists s. split; [exact R|]. split; [|exact K]. intro A. split; [exact (proj2 (proj2 G) A)|].
      intros (u & Nu & L). destruct (K _ _ L Nu) as (e & [<-|[]] & Le). apply bs_mem_In_iff. exact Le.
  Qed.
End Lasting.

Section Pure.
  Context {T NT AK AV : Type} `{OrdEq T} `{OrdEq NT} `{OrdEq AK}.
  Variable g : Grammar T NT AK AV.
  Hypothesis Bg : built g.
  Local Notation P := (rhs_of g).
  Let W : rs_wf g := built_rs_wf g Bg.

  Lemma lasting_spec : exists s, runs_to (lasting g) (Ret s) /\ (forall A, In A s <-> long g A) /\
    forall es u, gen P es u -> u <> [] -> exists e, In e es /\ lasts s e = true.
  Proof.
    destruct (usable_spec g Bg) as (us & Ru & Us). destruct (lasting_loop g Bg us Us) as (s & Rs & Ps).
    exists s. split; [|exact Ps]. exact (runs_to_bind _ (fun fuel u => change_loop (change_iter (lasting_step u) (prods g)) fuel []) _ _ Ru Rs).
  Qed.
  Lemma pure_spec (info : GrammarNullableInfo NT AK) s :
    (forall A i p, nth_prod g A i p -> (is_prod_nullable info (Build_Prod A i p) = true <-> body_derives_empty g p)) ->
    (forall A, In A s <-> long g A) -> (forall es u, gen P es u -> u <> [] -> exists e, In e es /\ lasts s e = true) ->
    (pure g info s = true <-> null_prods_pure g).
  Proof.
    intros Nf Ls K. unfold pure. rewrite forallb_forall. split.
    - intros F A p w Pp D G. destruct w as [|t w]; [reflexivity|exfalso].
      apply (prod_of_nth g A p) in Pp as (i & N).
      assert (I : In (Build_Prod A i p) (prods g)) by (apply (prods_In g W); exact N).
      specialize (F _ I). apply negb_true_iff, andb_false_iff in F. destruct F as [F|F].
      + rewrite (proj2 (Nf A i p N) D) in F. discriminate.
      + destruct (K _ _ G ltac:(discriminate)) as (e & Ie & Le).
        assert (X : existsb (lasts s) (elements (Build_Prod A i p)) = true) by (apply existsb_exists; exists e; split; [exact Ie|exact Le]).
        rewrite X in F. discriminate.
    - intros Pu p I. apply negb_true_iff, andb_false_iff. destruct (is_prod_nullable info p) eqn:E; [right|left; reflexivity].
      destruct (existsb (lasts s) (elements p)) eqn:X; [exfalso|reflexivity].
      apply (prods_In g W) in I. destruct p as [A i p]. cbn [p_head p_ix p_inner] in I. apply (Nf A i p I) in E.
      apply existsb_exists in X as (e & Ie & Le). change (In e (map pe_elem (pi_elements p))) in Ie.
      destruct (empty_parts g _ E e Ie) as (B & -> & _). cbn in Le. apply bs_mem_In_iff, Ls in Le.
      destruct (make_long g (map pe_elem (pi_elements p)) (NonTerm B) Ie Le) as (u & Nu & G).
      + intros C J. destruct (empty_parts g _ E _ J) as (C' & [= <-] & L). exists []. exact L.
      + apply Nu. apply (Pu A p u); [apply prod_of_nth; exists i; exact I|exact E|exact G].
  Qed.
End Pure.
