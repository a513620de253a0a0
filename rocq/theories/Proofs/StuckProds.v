(** Productions an Earley parse cannot get past: a production is at two places as soon as it is left-recursive and
    used, or expects something that may be empty. *)
From Coq Require Import List Arith Lia.
From Verif.Model Require Import Ord BTree Outcome Utils Grammar Tokens Tree.
From Verif.Spec Require Import Reach Cfg BuildSpec NullSpec TreeSpec EarleySpec.
From Verif.Proofs Require Import CfgFacts NullableFacts EarleyItems EarleyMore.
Import ListNotations.

Section Stuck.
  Context {T NT : Type}.
  Variable P : NT -> list (Elem T NT) -> Prop.
  Variable S : NT.

  Lemma app_split {A} (a b c d : list A) x : a ++ b = c ++ x :: d ->
    (exists d1, a = c ++ x :: d1 /\ d = d1 ++ b) \/ (exists c1, c = a ++ c1 /\ b = c1 ++ x :: d).
  Proof.
    revert c. induction a as [|y a IH]; intros c E; [right; exists c; auto|].
    destruct c as [|z c]; cbn in E; injection E as -> E; [left; exists a; auto|].
    destruct (IH c E) as [(d1 & -> & ->)|(c1 & -> & ->)]; [left; exists d1|right; exists c1]; auto.
  Qed.
  Lemma seg_mid (w u y v : list T) : w = u ++ y ++ v -> seg w (length u) (length u + length y) = y.
  Proof.
    intros ->. unfold seg. replace (length u + length y - length u) with (length y) by lia.
    rewrite skipn_app, skipn_all, Nat.sub_diag. cbn. rewrite firstn_app, firstn_all, Nat.sub_diag. apply app_nil_r.
  Qed.
  Lemma form_predicted w f : derives_form P [NonTerm S] f -> forall pre A post u v, f = pre ++ NonTerm A :: post -> gen P pre u -> w = u ++ v ->
    predicted P S w (length u) A.
  Proof.
    intro D. induction D as [|f0 f D IH St]; intros pre A post u v E G Ew.
    - destruct pre as [|e pre]; cbn in E; [|destruct pre; discriminate].
      injection E as <- <-. inversion G. apply predicted_start.
    - destruct St as [a B rhs b Pr]. apply app_split in E. destruct E as [(d1 & -> & ->)|(c1 & -> & E)].
      + rewrite <- app_assoc in IH. exact (IH pre A _ u v eq_refl G Ew).
      + apply app_split in E. destruct E as [(d1 & -> & ->)|(c2 & -> & ->)].
        * apply gen_app_inv in G. destruct G as (u1 & u2 & -> & G1 & G2). rewrite <- app_assoc in Ew.
          pose proof (IH a B _ u1 (u2 ++ v) eq_refl G1 Ew) as Pd. rewrite app_length.
          eapply predicted_next; [exact Pd|exact Pr|lia| |rewrite (seg_mid w u1 u2 v Ew); exact G2].
          rewrite Ew, !app_length. lia.
        * apply (IH (a ++ NonTerm B :: c2) A post u v); [rewrite <- app_assoc; reflexivity| |exact Ew].
          apply gen_app_inv in G. destruct G as (u1 & u2 & -> & G1 & G2). apply gen_app_inv in G2. destruct G2 as (u3 & u4 & -> & G3 & G4).
          apply gen_app; [exact G1|]. apply (gen_nonterm P B rhs); assumption.
  Qed.

  Lemma left_rec_two w pre A post u y v rest : derives_form P [NonTerm S] (pre ++ NonTerm A :: post) -> P A (NonTerm A :: rest) -> rest <> [] ->
    gen P pre u -> gen P (NonTerm A :: rest) y -> w = u ++ y ++ v -> two_places P S w (length u + length y).
  Proof.
    intros D Pr N G Gy Ew. exists (length u), A, [NonTerm A], rest, []. rewrite app_nil_r. cbn [app].
    split; [exact (form_predicted w _ D pre A post u _ eq_refl G Ew)|]. split; [exact Pr|]. split; [exact N|]. split; [lia|].
    split; [rewrite Ew, !app_length; lia|]. rewrite (seg_mid w u y v Ew). split; [|exact Gy]. apply lang_iff. eauto.
  Qed.
  Lemma maybe_empty_two w pre A post u y v before B after : derives_form P [NonTerm S] (pre ++ NonTerm A :: post) ->
    P A (before ++ NonTerm B :: after) -> lang P B [] ->
    gen P pre u -> gen P before y -> w = u ++ y ++ v -> two_places P S w (length u + length y).
  Proof.
    intros D Pr N G Gy Ew. exists (length u), A, before, [NonTerm B], after.
    split; [exact (form_predicted w _ D pre A post u _ eq_refl G Ew)|]. split; [exact Pr|]. split; [discriminate|]. split; [lia|].
    split; [rewrite Ew, !app_length; lia|]. rewrite (seg_mid w u y v Ew). split; [exact Gy|].
    rewrite <- (app_nil_r y). apply gen_app; assumption.
  Qed.
End Stuck.
