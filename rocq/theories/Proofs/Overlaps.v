(** Grammars on whose words the parser never panics. *)
From Coq Require Import List Arith Lia.
From Verif.Model Require Import Ord BTree Outcome Utils Grammar Tokens Tree.
From Verif.Spec Require Import Reach Cfg BuildSpec NullSpec TreeSpec EarleySpec LL1Spec.
From Verif.Proofs Require Import CfgFacts NullableFacts EarleyItems EarleyMore ExampleFacts StuckProds.
Import ListNotations.

Section Overlaps.
  Context {T NT : Type}.
  Variable P : NT -> list (Elem T NT) -> Prop.
  Variable S : NT.

  Lemma predicted_reachable w i A : predicted P S w i A -> reachable_nt P S A.
  Proof.
    induction 1 as [|i A pre B post k Pd IH Pr _ _ _]; [constructor|]. eapply star_step; [exact IH|].
    eexists. split; [exact Pr|]. apply in_or_app. right. left. reflexivity.
  Qed.
  Lemma no_overlap_two w k : no_overlap P S -> ~ two_places P S w k.
  Proof.
    intros N (i & A & pre & mid & post & Pd & Pr & Ne & _ & _ & G1 & G2).
    exact (N A pre mid post _ (predicted_reachable _ _ _ Pd) Pr Ne G1 G2).
  Qed.
  Lemma reachable_form A : reachable_nt P S A -> exists pre post, derives_form P [NonTerm S] (pre ++ NonTerm A :: post).
  Proof.
    intro R. induction R as [|B C R (pre & post & D) (rhs & Pr & I)]; [exists [], []; apply df_refl|].
    apply in_split in I. destruct I as (a & b & ->). exists (pre ++ a), (b ++ post).
    eapply star_step; [exact D|]. pose proof (sstep_intro P pre B (a ++ NonTerm C :: b) post Pr) as X.
    rewrite <- !app_assoc in X |- *. exact X.
  Qed.
  Lemma overlap_word A pre mid post x : productive P S -> reachable_nt P S A -> P A (pre ++ mid ++ post) -> mid <> [] ->
    gen P pre x -> gen P (pre ++ mid) x -> exists w k, lang P S w /\ k <= length w /\ two_places P S w k.
  Proof.
    intros Pd R Pr Ne G1 G2. destruct (reachable_form A R) as (a & b & D).
    assert (Ra : exists u, gen P a u).
    { apply form_word. intros B I. apply Pd. apply (form_reach P S _ D). apply in_or_app. auto. }
    assert (Rb : exists u, gen P b u).
    { apply form_word. intros B I. apply Pd. apply (form_reach P S _ D). apply in_or_app. right. right. exact I. }
    assert (Rp : exists u, gen P post u).
    { apply form_word. intros B I. apply Pd. eapply star_step; [exact R|]. eexists. split; [exact Pr|]. rewrite !in_app_iff. auto. }
    destruct Ra as (u & Gu), Rb as (v & Gv), Rp as (z & Gz).
    exists (u ++ x ++ z ++ v), (length u + length x). split; [|split; [rewrite !app_length; lia|]].
    - apply (derives_gen P _ _ _ D). apply gen_app; [exact Gu|]. rewrite app_assoc.
      apply (gen_nonterm P A (pre ++ mid ++ post)); [exact Pr| |exact Gv]. rewrite app_assoc. apply gen_app; assumption.
    - exists (length u), A, pre, mid, post. split; [exact (form_predicted P S _ _ D a A b u _ eq_refl Gu eq_refl)|].
      split; [exact Pr|]. split; [exact Ne|]. split; [lia|]. split; [rewrite !app_length; lia|].
      rewrite (seg_mid _ u x (z ++ v) eq_refl). auto.
  Qed.

  Lemma seg_join (w : list T) i j k : i <= j -> j <= k -> seg w i j ++ seg w j k = seg w i k.
  Proof.
    intros L1 L3. unfold seg. replace (k - i) with ((j - i) + (k - j)) by lia. replace (skipn j w) with (skipn (j - i) (skipn i w)).
    - generalize (skipn i w) as l. generalize (j - i) as a, (k - j) as b. clear. intros a b. induction a as [|a IH]; intros [|x l]; cbn; auto.
      + rewrite firstn_nil. reflexivity.
      + f_equal. apply IH.
    - clear - L1. replace j with (i + (j - i)) at 2 by lia. generalize (j - i) as m. clear. revert w. induction i as [|i IH]; intros [|x l] m; cbn; auto. apply skipn_nil.
  Qed.
  (** One cut before the last symbol of every beginning: one cut altogether. *)
  Lemma cuts_gen w es i k cs : cuts P w es i k cs -> i <= k /\ k <= Nat.max i (length w) /\ gen P es (seg w i k).
  Proof.
    induction 1 as [i|e es i j k cs L1 L2 G C (L3 & L4 & IH)].
    - split; [lia|]. split; [lia|]. unfold seg. rewrite Nat.sub_diag. constructor.
    - split; [lia|]. split; [lia|]. rewrite <- (seg_join w i j k) by lia. exact (gen_app P [e] es _ _ G IH).
  Qed.
  Lemma cuts_last w es e i k cs : cuts P w (es ++ [e]) i k cs -> exists j cs', cs = cs' ++ [k] /\ cuts P w es i j cs' /\ j <= k /\ k <= length w /\ gen P [e] (seg w j k).
  Proof.
    revert i cs. induction es as [|f es IH]; intros i cs C; cbn in C; inversion C as [|e' es' i' j k' cs1 L1 L2 G C1]; subst.
    - inversion C1; subst. exists i, []. split; [reflexivity|]. split; [constructor|]. auto.
    - destruct (IH _ _ C1) as (j' & cs' & -> & C' & L3 & L4 & G'). exists j', (j :: cs'). split; [reflexivity|]. split; [constructor; assumption|auto].
  Qed.
  Lemma one_cut_unique w : one_cut P S -> unique_cuts P S w.
  Proof.
    intros O i A pre post k cs cs' Pd. revert post k cs cs'.
    induction pre as [|e pre IH] using rev_ind; intros post k cs cs' Pr C C'.
    - inversion C; inversion C'; reflexivity.
    - destruct (cuts_last _ _ _ _ _ _ C) as (j & c1 & -> & C1 & L1 & L2 & G1).
      destruct (cuts_last _ _ _ _ _ _ C') as (j' & c2 & -> & C2 & L3 & L4 & G2). f_equal.
      rewrite <- app_assoc in Pr. destruct (cuts_gen _ _ _ _ _ C1) as (M1 & M2 & Ga). destruct (cuts_gen _ _ _ _ _ C2) as (M3 & M4 & Gb).
      assert (E : seg w i j = seg w i j').
      { apply (O A pre e post _ _ _ _ (predicted_reachable _ _ _ Pd) Pr Ga G1 Gb G2). rewrite !seg_join by lia. reflexivity. }
      assert (j = j') as <-.
      { apply (f_equal (@length T)) in E. rewrite !seg_length in E by lia. lia. }
      exact (IH _ _ _ _ Pr C1 C2).
  Qed.
End Overlaps.

(** Prefix-free grammars have both properties. *)
Section PrefixFreeOverlaps.
  Context {T NT : Type}.
  Variable P : NT -> list (Elem T NT) -> Prop.
  Hypothesis PF : prefix_free P.
  Lemma pf_no_overlap S : no_overlap P S.
  Proof.
    intros A pre mid post x _ _ Ne G1 G2. destruct (gen_app_inv P _ _ _ G2) as (a & b & E & Ga & Gb).
    assert (X : x = a) by (apply (gen_prefix P PF pre _ _ [] b G1 Ga); rewrite app_nil_r; exact E).
    subst a. rewrite <- (app_nil_r x) in E at 1. apply app_inv_head in E. exact (gen_nonempty P PF _ _ Gb Ne (eq_sym E)).
  Qed.
  Lemma pf_one_cut S : one_cut P S.
  Proof. intros A pre e post x y x' y' _ _ G1 _ G1' _ E. exact (gen_prefix P PF pre _ _ _ _ G1 G1' E). Qed.
End PrefixFreeOverlaps.
