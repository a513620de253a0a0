(** The grammar test is right. *)
From Coq Require Import String List Arith NArith Lia Bool.
From Verif.Model Require Import Ord BTree Outcome Utils Grammar Nullable Firsts.
From Verif.Spec Require Import Reach Cfg BuildSpec NullSpec EarleySpec LL1Spec GrammarTestSpec.
From Verif.Proofs Require Import OrdFacts BTreeFacts LoopFacts UtilsFacts GrammarFacts BuildMore CfgFacts ExampleFacts NullableFacts.
Import ListNotations.
Local Open Scope list_scope.

Section Usable.
  Context {T NT AK AV : Type} `{OrdEq T} `{OrdEq NT}.
  Variable g : Grammar T NT AK AV.
  Hypothesis Bg : built g.
  Local Notation P := (rhs_of g).
  Local Notation S0 := (start_nt g).
  Let W : rs_wf g := built_rs_wf g Bg.
  Local Notation heads := (map p_head (prods g)).

  Definition good (s : btset NT) : Prop := sorted s /\ incl s heads /\ forall A, In A s -> exists u, lang P A u.
  Definition all_in (p : Prod T NT AK AV) (s : btset NT) : Prop := forall B, In (NonTerm B) (elements p) -> In B s.

  Lemma all_in_iff p s : forallb (fun B => bs_mem B s) (filter_map as_nonterm (elements p)) = true <-> all_in p s.
  Proof.
    rewrite forallb_forall. split.
    - intros F B I. apply bs_mem_In_iff. apply F. apply filter_map_In. exists (NonTerm B). auto.
    - intros A B I. apply filter_map_In in I as (e & I & E). apply as_nonterm_Some in E. subst. apply bs_mem_In_iff. exact (A B I).
  Qed.
  Lemma prods_rhs p : In p (prods g) -> P (p_head p) (elements p).
  Proof.
    intro I. apply (prods_In g W) in I. destruct I as (r & I & N). exists (p_inner p). split; [|reflexivity].
    exists r. split; [exact I|]. exact (nth_error_In _ _ N).
  Qed.
  Lemma rhs_prods A rhs : P A rhs -> exists p, In p (prods g) /\ p_head p = A /\ elements p = rhs.
  Proof.
    intros (q & (r & I & J) & ->). apply In_nth_error in J as (i & J). exists (Build_Prod A i q). split; [|auto].
    apply (prods_In g W). exists r. auto.
  Qed.
  Lemma words_of es s : (forall B, In (NonTerm B) es -> In B s) -> (forall A, In A s -> exists u, lang P A u) -> exists u, gen P es u.
  Proof.
    intros A G. induction es as [|e es IH]; [exists []; constructor|].
    destruct IH as (u & IH); [intros B I; apply A; right; exact I|]. destruct e as [t|B].
    - exists (t :: u). constructor. exact IH.
    - destruct (G B (A B (or_introl eq_refl))) as (v & L). exists (v ++ u). apply gen_nt; assumption.
  Qed.

  Lemma usable_iter : forall ps c s, incl ps (prods g) -> good s ->
    exists c' s', change_iter_from usable_step c ps s = Ret (c', s') /\ good s' /\ length s <= length s' /\
      (c' = Unchanged -> c = Unchanged /\ s' = s /\ forall p, In p ps -> all_in p s -> In (p_head p) s) /\
      (c' = Changed -> c = Changed \/ length s < length s').
  Proof.
    induction ps as [|p ps IH]; intros c s Ip G; cbn [change_iter_from].
    - exists c, s. split; [reflexivity|]. split; [exact G|]. split; [lia|]. split; [|auto]. intros E. split; [exact E|]. split; [reflexivity|]. intros p [].
    - assert (Ip' : incl ps (prods g)) by (intros q I; apply Ip; right; exact I).
      pose proof (Ip p (or_introl eq_refl)) as Ipp.
      unfold usable_step at 1. destruct (forallb _ _) eqn:E; cbn [obind].
      + apply all_in_iff in E.
        assert (G' : good (bs_add (p_head p) s)).
        { destruct G as (So & Ic & L). split; [apply bs_add_sorted; exact So|]. split.
          - intros A I. apply bs_add_In in I. destruct I as [-> |I]; [apply in_map; exact Ipp|exact (Ic A I)].
          - intros A I. apply bs_add_In in I. destruct I as [-> |I]; [|exact (L A I)].
            destruct (words_of (elements p) s E L) as (u & Gu). exists u. apply (lang_intro _ _ (elements p)); [apply prods_rhs; exact Ipp|exact Gu]. }
        destruct (bs_mem (p_head p) s) eqn:M; cbn [negb from_changed].
        * rewrite (bs_add_mem_id _ _ (proj1 G) M). destruct (IH (wc_join c Unchanged) s Ip' G) as (c' & s' & R & G1 & Ln & U & C).
          assert (J : wc_join c Unchanged = c) by (destruct c; reflexivity). rewrite J in *.
          exists c', s'. split; [exact R|]. split; [exact G1|]. split; [exact Ln|]. split; [|exact C].
          intro X. destruct (U X) as (U1 & U2 & U3). split; [exact U1|]. split; [exact U2|].
          intros q [<-|I] A; [apply bs_mem_In_iff; exact M|exact (U3 q I A)].
        * destruct (IH (wc_join c Changed) _ Ip' G') as (c' & s' & R & G1 & Ln & U & C).
          rewrite (bs_add_length_new _ _ M) in Ln.
          exists c', s'. split; [exact R|]. split; [exact G1|]. split; [lia|]. split.
          -- intro X. destruct (U X) as (U1 & _). destruct c; discriminate.
          -- intro X. right. lia.
      + destruct (IH (wc_join c Unchanged) s Ip' G) as (c' & s' & R & G1 & Ln & U & C).
        assert (J : wc_join c Unchanged = c) by (destruct c; reflexivity). rewrite J in *.
        exists c', s'. split; [exact R|]. split; [exact G1|]. split; [exact Ln|]. split; [|exact C].
        intro X. destruct (U X) as (U1 & U2 & U3). split; [exact U1|]. split; [exact U2|].
        intros q [<-|I] A; [|exact (U3 q I A)]. apply all_in_iff in A. congruence.
  Qed.

  Lemma usable_spec : exists s, runs_to (usable g) (Ret s) /\ forall A, In A s <-> exists u, lang P A u.
  Proof.
    destruct (change_loop_measure (change_iter usable_step (prods g)) good (fun s => length heads - length s)
      (fun s => good s /\ forall p, In p (prods g) -> all_in p s -> In (p_head p) s)) with (s := @nil NT) as (s & R & G & Cl).
    - intros s G. destruct (usable_iter (prods g) Unchanged s (incl_refl _) G) as (c & s' & R & G' & Ln & U & C).
      exists c, s'. split; [exact R|]. destruct c.
      + split; [exact G'|]. destruct (C eq_refl) as [X|X]; [discriminate|].
        pose proof (NoDup_incl_length (sorted_NoDup _ (proj1 G')) (proj1 (proj2 G'))). lia.
      + destruct (U eq_refl) as (_ & -> & Cl). auto.
    - split; [constructor|]. split; [intros A []|]. intros A [].
    - exists s. split; [exact R|]. intro A. split; [exact (proj2 (proj2 G) A)|].
      assert (K : forall es u, gen P es u -> forall B, In (NonTerm B) es -> In B s).
      { induction 1 as [|t es w X IH|B rhs es u w Pr X1 IH1 X2 IH2]; intros C I.
        - destruct I.
        - destruct I as [I|I]; [discriminate|exact (IH C I)].
        - destruct I as [[= <-]|I]; [|exact (IH2 C I)]. destruct (rhs_prods _ _ Pr) as (p & Ip & <- & <-). exact (Cl p Ip IH1). }
      intros (u & L). exact (K _ _ L A (or_introl eq_refl)).
  Qed.

  Lemma mentions_rhs A B : gmentions g A B <-> exists rhs, P A rhs /\ In (NonTerm B) rhs.
  Proof.
    split.
    - intros (r & p & I & J & K). exists (elements_iter p). split; [|exact K]. exists p. split; [exists r; auto|reflexivity].
    - intros (rhs & (p & (r & I & J) & ->) & K). exists r, p. auto.
  Qed.
  Lemma star_rhs A B : star (gmentions g) A B <-> star (fun X Y => exists rhs, P X rhs /\ In (NonTerm Y) rhs) A B.
  Proof. split; (induction 1 as [|y z _ IH E]; [constructor|apply (star_step _ _ y); [exact IH|apply mentions_rhs; exact E]]). Qed.

  Lemma all_useful_spec : exists b, runs_to (all_useful g) (Ret b) /\ (b = true <-> productive P S0).
  Proof.
    destruct usable_spec as (s & Rs & Us). destruct (find_reachable_spec g W) as (r & Rr & Pr).
    assert (Dom : forall A, star (gmentions g) S0 A -> gdefined g A).
    { intros A St. destruct (accepted_closed g A Bg) as (r0 & E & _).
      - destruct St as [|y z St E]; [left; reflexivity|right]. apply mentions_rhs in E as (rhs & X & Y). exists y, rhs. auto.
      - unfold gdefined. apply bt_keys_In. unfold get_rule, try_get_rule in E. destruct (bt_get A (rule_set g)) as [r1|]; [exists r1; reflexivity|discriminate]. }
    destruct r as [l|msg|]; [|destruct Pr as (A & St & N); destruct (N (Dom A St))|destruct Pr].
    exists (bs_mem S0 s && forallb (fun A => bs_mem A s) l). split.
    - apply (runs_to_bind _ (fun fuel s => r <- find_reachable_nonterms g fuel ;; Ret (bs_mem S0 s && forallb (fun A => bs_mem A s) r)) _ _ Rs).
      exact (runs_to_bind _ (fun _ r => Ret (bs_mem S0 s && forallb (fun A => bs_mem A s) r)) _ _ Rr (runs_to_ret _)).
    - rewrite andb_true_iff, bs_mem_In_iff, forallb_forall. destruct Pr as (_ & Pl & _). split.
      + intros [M F] A St. apply Us. apply star_rhs in St. destruct St as [|y z St E]; [exact M|].
        apply bs_mem_In_iff. apply F. apply Pl. exists y. auto.
      + intro Pd. split; [apply Us; apply Pd; constructor|]. intros A I. apply bs_mem_In_iff. apply Us. apply Pd. apply star_rhs.
        apply Pl in I as (y & St & E). apply (star_step _ _ y); assumption.
  Qed.

  Lemma disjoint_iff (l l' : list T) : disjoint l l' = true <-> forall t, In t l -> ~ In t l'.
  Proof.
    unfold disjoint. rewrite forallb_forall. split.
    - intros F t I J. specialize (F t I). rewrite forallb_forall in F. specialize (F t J). rewrite cmp_refl in F. discriminate.
    - intros D t I. apply forallb_forall. intros t' J. destruct (cmp t t') eqn:E; try reflexivity. apply cmp_eq in E. subst t'. destruct (D t I J).
  Qed.
  Lemma pairs_differ_iff m (ps : list (ProdInner T NT AK AV)) : pairs_differ m ps = true <->
    forall i j p q t, nth_error ps i = Some p -> nth_error ps j = Some q -> i <> j ->
      In t (starts_with m (body p)) -> ~ In t (starts_with m (body q)).
  Proof.
    induction ps as [|p0 ps IH]; cbn [pairs_differ].
    - split; [|reflexivity]. intros _ i j p q t E. destruct i; discriminate.
    - rewrite andb_true_iff, IH, forallb_forall. split.
      + intros [D F] i j p q t Ei Ej N Ip Iq. destruct i as [|i], j as [|j]; cbn [nth_error] in Ei, Ej.
        * congruence.
        * injection Ei as ->. apply (proj1 (disjoint_iff _ _) (D q (nth_error_In _ _ Ej)) t Ip Iq).
        * injection Ej as ->. apply (proj1 (disjoint_iff _ _) (D p (nth_error_In _ _ Ei)) t Iq Ip).
        * exact (F i j p q t Ei Ej ltac:(congruence) Ip Iq).
      + intro F. split.
        * intros q I. apply disjoint_iff. intros t It Iq. apply In_nth_error in I as (j & J).
          exact (F 0 (S j) p0 q t eq_refl J ltac:(lia) It Iq).
        * intros i j p q t Ei Ej N. apply (F (S i) (S j) p q t Ei Ej). lia.
  Qed.
  Lemma starts_differ_iff m : forallb (fun r => pairs_differ m (r_prods r)) (rules g) = true <-> starts_differ g m.
  Proof.
    rewrite forallb_forall. split.
    - intros F A i j p q t (r & I & Ei) (r' & I' & Ej) N. assert (r' = r) as ->.
      { destruct W as [So _]. apply (bt_get_iff A r' _ So) in I'. apply (bt_get_iff A r _ So) in I. congruence. }
      refine (proj1 (pairs_differ_iff m (r_prods r)) _ i j p q t Ei Ej N). apply F. apply (rules_In g r W).
      rewrite (proj2 W A r I). exact I.
    - intros D r I. apply (rules_In g r W) in I. apply pairs_differ_iff. intros i j p q t Ei Ej N.
      exact (D (r_head r) i j p q t (ex_intro _ r (conj I Ei)) (ex_intro _ r (conj I Ej)) N).
  Qed.
End Usable.
