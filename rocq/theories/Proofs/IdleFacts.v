(** The transformation on a grammar without nullable nonterminals. *)
From Coq Require Import List Sorted.
From Verif.Model Require Import Ord BTree Outcome Grammar Nullable NonNull.
From Verif.Spec Require Import Reach Cfg BuildSpec NullSpec NonNullSpec.
From Verif.Proofs Require Import OrdFacts BTreeFacts LoopFacts GrammarFacts BuildMore NullableFacts NullableMore NonNullFacts NonNullMore.
Import ListNotations.

Section S.
  Context {T NT AK AV : Type} `{OrdEq NT}.
  Variable lay : layout NT.
  Variable g : Grammar T NT AK AV.
  Hypothesis Inj : lay_inj g lay.
  Hypothesis B : built g.
  Hypothesis NN : forall A, ~ derives_empty g A.
  Notation relabelled := (@relabelled T NT AK AV).

  Lemma idle_choice es fl k d : choice g es fl k d -> fl = map (fun _ => false) (filter_map as_nonterm (map pe_elem es)) /\ k = es /\ d = [].
  Proof.
    induction 1 as [|e t es fl k d E C IH|e X es fl k d E C IH|e X es fl k d E De C IH]; [auto|..].
    - destruct IH as (-> & -> & ->). cbn [map filter_map]. rewrite E. cbn. auto.
    - destruct IH as (-> & -> & ->). cbn [map filter_map]. rewrite E. cbn. auto.
    - destruct (NN X De).
  Qed.
  Lemma idle_body A p : prod_of g A p -> ~ body_derives_empty g p.
  Proof. intros Pp E. apply (NN A). apply lang_iff. exists (map pe_elem (pi_elements p)). split; [exists p; auto|exact E]. Qed.
  Lemma idle_variant p q : is_variant g p q -> relabelled p q.
  Proof.
    intros (fl & k & d & C & E1 & E2 & E3 & So & Ar). destruct (idle_choice _ _ _ _ C) as (-> & -> & ->).
    split; [exact E1|]. split; [exact E2|]. split; [exact E3|].
    destruct (nv_nullable_arguments (pi_action_value q)) as [|[id t] l] eqn:En; [reflexivity|]. exfalso.
    destruct (proj1 (Ar id t) (or_introl eq_refl)) as (X & (pre & post & Es & _) & _). destruct pre; discriminate.
  Qed.
  Lemma idle_variants A p qs : prod_of g A p -> variants g p qs -> exists q, qs = [q] /\ relabelled p q.
  Proof.
    intros Pp [[E _]|(_ & Nd & Ex & V)]; [destruct (idle_body A p Pp E)|].
    destruct (choice_full g (pi_elements p)) as (fl & C). destruct (Ex fl _ _ C) as (q & Iq & Ef & U).
    assert (X : forall q', In q' qs -> q' = q).
    { intros q' I'. apply U; [exact I'|]. destruct (proj1 (V q') I') as (fl' & k' & d' & C' & _ & E2 & _). rewrite E2. cbn.
      destruct (idle_choice _ _ _ _ C) as (-> & _). destruct (idle_choice _ _ _ _ C') as (-> & _). reflexivity. }
    exists q. split; [|apply idle_variant; now apply V].
    destruct qs as [|a [|b qs]]; [destruct Iq|rewrite (X a (or_introl eq_refl)); reflexivity|].
    exfalso. inversion Nd as [|? ? Na _]; subst. apply Na. rewrite (X a (or_introl eq_refl)), <- (X b (or_intror (or_introl eq_refl))). now left.
  Qed.

  Lemma idle_transform : exists g', runs_to (transform_to_nonnull lay g) (Ret (Ok g')) /\
    start_symbol g' = start_symbol g /\
    Forall2 (fun e e' => fst e' = fst e /\ r_head (snd e') = r_head (snd e) /\ Forall2 relabelled (r_prods (snd e)) (r_prods (snd e'))) (rule_set g) (rule_set g').
  Proof.
    pose proof (built_accepted g B) as Acc.
    destruct (transform_verdict lay g Inj B) as [[Am _]|[(_ & Rj & _)|(_ & _ & g' & R)]].
    - exfalso. destruct Am as (A & i & j & p & q & (r & I & Hn) & _ & _ & Ep & _). apply (idle_body A p); [|exact Ep].
      exists r. split; [exact I|]. exact (nth_error_In _ _ Hn).
    - exfalso. destruct Rj as [(A & r & I & F)|(A & X & M & N)].
      + destruct (r_prods r) as [|p ps] eqn:E; [exact (acc_prods g Acc A r I E)|].
        apply (idle_body A p); [exists r; rewrite E; split; [exact I|now left]|apply F; now left].
      + apply N. assert (Eq : forall Y Z, kept_mentions g Y Z <-> gmentions g Y Z).
        { intros Y Z. split.
          - intros (p & (r & I & J) & _ & K). exists r, p. auto.
          - intros (r & p & I & J & K). exists p. split; [exists r; auto|]. split; [|exact K]. apply (idle_body Y). exists r. auto. }
        apply (plus_ext _ _ _ _ Eq). apply (acc_reach g Acc A). apply Eq. exact M.
    - exists g'. split; [exact R|]. destruct (transform_shape lay g Inj B g' R) as [E F]. split; [exact E|].
      assert (Sub : forall A r, In (A, r) (rule_set g) -> r_head r = A /\ forall p, In p (r_prods r) -> prod_of g A p).
      { intros A r I. split; [exact (proj2 (acc_wf g Acc) A r I)|]. intros p J. exists r. auto. }
      clear -F Sub NN. induction F as [|[A r] [A' r'] l l' (E1 & E2 & vss & Fv & E3) F IH]; [constructor|]. cbn [fst snd] in *. constructor.
      + cbn [fst snd]. destruct (Sub A r (or_introl eq_refl)) as [Hd Pp]. rewrite E2, Hd. split; [exact E1|]. split; [reflexivity|].
        rewrite E3. clear -Fv Pp NN. induction Fv as [|p qs ps vss V Fv IHv]; [constructor|].
        destruct (idle_variants A p qs (Pp p (or_introl eq_refl)) V) as (q & -> & Q). cbn [concat app]. constructor; [exact Q|].
        apply IHv. intros x I. apply Pp. now right.
      + apply IH. intros C x I. apply Sub. now right.
  Qed.
End S.
