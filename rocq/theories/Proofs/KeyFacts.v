From Coq Require Import String List Arith NArith Lia Bool.
From Verif.Model Require Import Ord BTree Outcome Utils Grammar StartGrammar Tokens Tree.
From Verif.Spec Require Import Reach Cfg BuildSpec EarleySpec KeySpec.
From Verif.Proofs Require Import OrdFacts BTreeFacts LoopFacts GrammarFacts StartFacts BuildMore.
Import ListNotations.

Section Der.
  Context {T NT AK AV V : Type} `{OrdEq NT}.
  Variable g : Grammar T NT AK AV.
  Hypothesis W : rs_wf g.

  Lemma get_rules A r : try_get_rule g A = Some r <-> In r (rules g) /\ r_head r = A.
  Proof.
    rewrite (rules_In g r W). unfold try_get_rule. rewrite bt_get_iff by apply W. split.
    - intro I. pose proof (proj2 W A r I) as E. subst A. auto.
    - intros [I <-]. exact I.
  Qed.

  Scheme der_mut := Induction for der Sort Prop with ders_mut := Induction for ders Sort Prop.
  Combined Scheme der_ders_ind from der_mut, ders_mut.
  Scheme dt_mut := Induction for dtree Sort Prop with dts_mut := Induction for dtrees Sort Prop.
  Combined Scheme dt_dts_ind from dt_mut, dts_mut.

  Lemma der_dtree : (forall e (ts : list (Token T V)) d t, der g e ts d t -> dtree g e ts t) /\
    (forall es (ts : list (Token T V)) ds cs, ders g es ts ds cs -> dtrees g es ts cs).
  Proof.
    apply der_ders_ind.
    - constructor.
    - intros A r i p ts ds cs G N _ IH. constructor; [|exact IH]. exists r. split.
      + apply bt_get_iff; [apply W | exact G].
      + apply (nth_error_In _ _ N).
    - constructor.
    - intros. constructor; assumption.
  Qed.
  Lemma dtree_der : (forall e (ts : list (Token T V)) t, dtree g e ts t -> exists d, der g e ts d t) /\
    (forall es (ts : list (Token T V)) cs, dtrees g es ts cs -> exists ds, ders g es ts ds cs).
  Proof.
    apply dt_dts_ind.
    - intros k v. exists (DLeaf k v). constructor.
    - intros A p ts cs (r & I & J) _ [ds D]. apply In_nth_error in J as [i N]. exists (DNode A i ds).
      apply (der_node g A r i p ts ds cs); [apply bt_get_iff; [apply W | exact I] | exact N | exact D].
    - exists []. constructor.
    - intros e es ts us c cs _ [d D] _ [ds Ds]. exists (d :: ds). constructor; assumption.
  Qed.

  Hypothesis K : keys_distinct g.
  Lemma key_ix A r i j p q : try_get_rule g A = Some r -> nth_error (r_prods r) i = Some p -> nth_error (r_prods r) j = Some q ->
    pi_action_key p = pi_action_key q -> i = j.
  Proof.
    intros G Ni Nj E. apply get_rules in G as [I _]. apply (proj1 (NoDup_nth_error _) (K r I)).
    - rewrite map_length. apply nth_error_Some. congruence.
    - rewrite !nth_error_map, Ni, Nj. simpl. congruence.
  Qed.
  Lemma der_unique : (forall e (ts : list (Token T V)) d t, der g e ts d t -> forall ts' d', der g e ts' d' t -> d' = d /\ ts' = ts) /\
    (forall es (ts : list (Token T V)) ds cs, ders g es ts ds cs -> forall ts' ds', ders g es ts' ds' cs -> ds' = ds /\ ts' = ts).
  Proof.
    apply der_ders_ind.
    - intros k v ts' d' D. inversion D; subst. auto.
    - intros A r i p ts ds cs G N _ IH ts' d' D. inversion D as [|A' r' j q ts2 ds2 cs2 G' N' Ds EA Ets Ed Et]. subst.
      assert (r' = r) as -> by congruence.
      assert (j = i) as -> by (match goal with E : pi_action_key _ = pi_action_key _ |- _ => exact (key_ix A r _ _ _ _ G N' N E) end).
      assert (q = p) as -> by congruence. destruct (IH _ _ Ds) as [-> ->]. auto.
    - intros ts' ds' D. inversion D; subst. auto.
    - intros e es ts us d ds c cs _ IH1 _ IH2 ts' ds' D. inversion D as [|e' es' ts1 us1 d1 ds1 c1 cs1 D1 D2]; subst.
      destruct (IH1 _ _ D1) as [-> ->]. destruct (IH2 _ _ D2) as [-> ->]. auto.
  Qed.
End Der.

Section Relabel.
  Context {T NT AK AV AK' AV' : Type} `{OrdEq NT}.
  Variable fk : AK -> AK'.
  Variable fv : AV -> AV'.
  Local Notation rel := (map (relabel_rule fk fv)).

  Lemma relabel_elems (c : rb_call T NT AK AV) : pi_elements (spec_prod (relabel_prod fk fv c)) = pi_elements (spec_prod c).
  Proof. destruct c; reflexivity. Qed.
  Lemma last_relabel (calls : list (gb_call T NT AK AV)) A rcs' :
    last_rule (rel calls) A rcs' <-> exists rcs, rcs' = map (relabel_prod fk fv) rcs /\ last_rule calls A rcs.
  Proof.
    split.
    - intros (pre' & post' & E & N). apply map_eq_app in E as (pre & l & -> & <- & E).
      apply map_eq_cons in E as ([A0 rcs] & post & -> & E & <-). simpl in E. injection E as -> <-.
      exists rcs. split; [reflexivity|]. exists pre, post. split; [reflexivity|].
      intros rcs' I. apply (N (map (relabel_prod fk fv) rcs')). apply in_map_iff. exists (AddRule A rcs'). auto.
    - intros (rcs & -> & pre & post & -> & N). exists (rel pre), (rel post). rewrite map_app. split; [reflexivity|].
      intros rcs' I. apply in_map_iff in I as ([A0 rcs0] & E & I). simpl in E. injection E as -> _. exact (N rcs0 I).
  Qed.
  Lemma mentions_relabel (calls : list (gb_call T NT AK AV)) A B : mentions (rel calls) A B <-> mentions calls A B.
  Proof.
    split.
    - intros (rcs' & c' & L & I & J). apply last_relabel in L as (rcs & -> & L). apply in_map_iff in I as (c & <- & I).
      rewrite relabel_elems in J. exists rcs, c. auto.
    - intros (rcs & c & L & I & J). exists (map (relabel_prod fk fv) rcs), (relabel_prod fk fv c).
      split; [apply last_relabel; eauto|]. split; [apply in_map; exact I|]. rewrite relabel_elems. exact J.
  Qed.
  Lemma defined_relabel (calls : list (gb_call T NT AK AV)) A : defined (rel calls) A <-> defined calls A.
  Proof.
    split.
    - intros [rcs' L]. apply last_relabel in L as (rcs & _ & L). exists rcs. exact L.
    - intros [rcs L]. exists (map (relabel_prod fk fv) rcs). apply last_relabel. eauto.
  Qed.
End Relabel.

Section Order.
  Context {T NT AK AV : Type} `{OrdEq NT}.
  Definition before (p q : Prod T NT AK AV) : Prop := cmp (p_head p) (p_head q) = Lt \/ (p_head p = p_head q /\ p_ix p < p_ix q).
  Fixpoint ordered (l : list (Prod T NT AK AV)) : Prop :=
    match l with [] => True | p :: l' => Forall (before p) l' /\ ordered l' end.
  Lemma ordered_app l1 l2 : ordered l1 -> ordered l2 -> (forall p q, In p l1 -> In q l2 -> before p q) -> ordered (l1 ++ l2).
  Proof.
    induction l1 as [|p l1 IH]; intros O1 O2 C; [exact O2|]. destruct O1 as [F O1]. simpl. split.
    - apply Forall_app. split; [exact F|]. apply Forall_forall. intros q I. apply C; [left; reflexivity | exact I].
    - apply IH; [exact O1 | exact O2|]. intros x y I J. apply C; [right; exact I | exact J].
  Qed.
  Lemma number_ordered h (ps : list (ProdInner T NT AK AV)) : forall i, ordered (number_prods h i ps).
  Proof.
    induction ps as [|p ps IH]; intro i; simpl; [exact I|]. split; [|apply IH]. apply Forall_forall. intros q J.
    apply number_prods_In in J as (E & L & _). right. simpl. split; [symmetry; exact E | lia].
  Qed.
  Lemma rules_ordered (rs : list (RuleInner T NT AK AV)) : sorted (map r_head rs) -> ordered (flat_map rule_prods rs).
  Proof.
    induction rs as [|r rs IH]; intro S; [exact I|]. simpl in S. destruct (sorted_inv _ _ S) as [S' F]. simpl.
    apply ordered_app; [apply number_ordered | apply IH; exact S'|]. intros p q I J.
    apply in_flat_map in J as (r' & J & J'). apply rule_prods_In in I as [E _]. apply rule_prods_In in J' as [E' _].
    left. rewrite E, E'. rewrite Forall_forall in F. apply F. apply in_map. exact J.
  Qed.
  Lemma before_irr p : ~ before p p.
  Proof. intros [L|[_ L]]; [exact (cmp_lt_irrefl _ L) | lia]. Qed.
  Lemma ordered_nodup l : ordered l -> NoDup l.
  Proof.
    induction l as [|p l IH]; intro O; [constructor|]. destruct O as [F O]. constructor; [|apply IH; exact O].
    intro I. rewrite Forall_forall in F. exact (before_irr p (F p I)).
  Qed.
  Lemma ordered_nth l : ordered l -> forall i j p q, nth_error l i = Some p -> nth_error l j = Some q -> i < j -> before p q.
  Proof.
    induction l as [|x l IH]; intros O i j p q Ni Nj L; [destruct i; discriminate|]. destruct O as [F O].
    destruct j as [|j]; [lia|]. simpl in Nj. destruct i as [|i].
    - simpl in Ni. injection Ni as <-. rewrite Forall_forall in F. apply F. apply (nth_error_In _ _ Nj).
    - simpl in Ni. exact (IH O i j p q Ni Nj ltac:(lia)).
  Qed.
  Lemma prods_In (g : Grammar T NT AK AV) (W : rs_wf g) p :
    In p (prods g) <-> exists r, try_get_rule g (p_head p) = Some r /\ nth_error (r_prods r) (p_ix p) = Some (p_inner p).
  Proof.
    unfold prods. rewrite in_flat_map. split.
    - intros (r & I & J). apply rule_prods_In in J as [E N]. exists r. split; [|exact N]. apply get_rules; auto.
    - intros (r & G & N). apply get_rules in G as [I E]; [|exact W]. exists r. split; [exact I|]. apply rule_prods_In. auto.
  Qed.
End Order.
