(** Grammars with the same productions in another order: what is derived does not change.  For Properties/ForestProps.v (C100). *)
From Coq Require Import List Arith.
From Verif.Model Require Import Ord Outcome Grammar Tokens Tree.
From Verif.Spec Require Import Reach Cfg TreeSpec EarleySpec.
From Verif.Proofs Require Import EarleyMain.
Import ListNotations.

Section Mono.
  Context {T NT : Type}.
  Variables P P' : NT -> list (Elem T NT) -> Prop.
  Hypothesis HP : forall A r, P A r <-> P' A r.
  Lemma gen_to es w : gen P es w -> gen P' es w.
  Proof. induction 1 as [|t es w _ IH|A r es u w R _ IH1 _ IH2]; [constructor|constructor; exact IH|]. econstructor; [apply HP; exact R|exact IH1|exact IH2]. Qed.
  Lemma predicted_to S w i A : predicted P S w i A -> predicted P' S w i A.
  Proof. induction 1 as [|i A pre B post k _ IH R L1 L2 G]; [constructor|]. apply (predicted_next P' S w i A pre B post k IH); [apply HP; exact R|exact L1|exact L2|apply gen_to; exact G]. Qed.
  Lemma two_places_to S w k : two_places P S w k -> two_places P' S w k.
  Proof.
    intros (i & A & pre & mid & post & Pr & R & N & L1 & L2 & G1 & G2). exists i, A, pre, mid, post.
    split; [apply predicted_to; exact Pr|]. split; [apply HP; exact R|]. split; [exact N|]. split; [exact L1|]. split; [exact L2|].
    split; apply gen_to; assumption.
  Qed.
  Lemma viable_to S u : viable P S u -> viable P' S u.
  Proof.
    intros (rest & D). exists rest. unfold derives_form in *. induction D as [|y z _ IH St]; [constructor|].
    refine (star_step _ _ _ _ IH _). destruct St as [pre A r post R]. constructor. apply HP. exact R.
  Qed.
  Lemma cuts_to w es i k cs : cuts P w es i k cs -> cuts P' w es i k cs.
  Proof. induction 1 as [i|e es i j k cs L1 L2 G _ IH]; [constructor|constructor; [exact L1|exact L2|apply gen_to; exact G|exact IH]]. Qed.
End Mono.

Section Same.
  Context {T NT AK AV V : Type}.
  Variables g g' : Grammar T NT AK AV.
  Lemma dtree_to : (forall A p, prod_of g A p -> prod_of g' A p) ->
    forall e w (tr : ptree T AK V), dtree g e w tr -> dtree g' e w tr.
  Proof.
    intros HP. fix go 4. intros e w tr [k v|A p ts cs Pp Ds]; [constructor|]. apply dtree_branch; [apply HP; exact Pp|]. clear Pp. revert Ds. generalize (map pe_elem (pi_elements p)).
    clear - go. intros es. revert es ts cs. fix goa 4. intros es ts cs [|e' es' ts' us c cs' D Ds]; [constructor|]. constructor; [exact (go _ _ _ D)|exact (goa _ _ _ Ds)].
  Qed.
  Hypothesis HP : forall A r, rhs_of g A r <-> rhs_of g' A r.
  Hypothesis HS : start_nt g = start_nt g'.
  Lemma stuck_to (w : list (Token T V)) j : stuck g w j -> stuck g' w j.
  Proof.
    unfold stuck. rewrite <- HS. intros [N|[N|[E N]]].
    - left. intro X. apply N. apply (viable_to (rhs_of g') (rhs_of g)); [intros; symmetry; apply HP|exact X].
    - right. left. exact (two_places_to _ _ HP _ _ _ N).
    - right. right. split; [exact E|]. exact (gen_to _ _ HP _ _ N).
  Qed.
End Same.
