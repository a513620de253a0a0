(** FOLLOW by rules, without algorithms. *)
From Coq Require Import List.
From Verif.Model Require Import Grammar.
From Verif.Spec Require Import Reach Cfg.
From Verif.Proofs Require Import LoopFacts UtilsFacts NullableFacts CfgFacts.
Import ListNotations.

(** FOLLOW by rules, for grammars with nullable symbols. *)
Section Fol.
  Context {T NT : Type}.
  Variable P : NT -> list (Elem T NT) -> Prop.
  Inductive folG : NT -> T -> Prop :=
  | folG_in H pre A post t : P H (pre ++ NonTerm A :: post) -> firstS P post t -> folG A t
  | folG_last H pre A post t : P H (pre ++ NonTerm A :: post) -> gen P post [] -> folG H t -> folG A t.
  Definition lastG : NT -> NT -> Prop := star (fun X Y => exists pre post, P X (pre ++ NonTerm Y :: post) /\ gen P post []).
  Definition folGS (es : list (Elem T NT)) (A : NT) (t : T) : Prop :=
    folG A t \/ exists X pre post, es = pre ++ NonTerm X :: post /\ firstS P post t /\ lastG X A.
  Lemma folG_chain X A t : lastG X A -> folG X t -> folG A t.
  Proof. intros L F. induction L as [|Y A _ IH (pre & post & Pr & G)]; [auto|]. eapply folG_last; eauto. Qed.
  Lemma folGS_sstep es es' A t : sstep P es es' -> folGS es' A t -> folGS es A t.
  Proof.
    intros [pre X rhs post Pr] [F|(Y & p & q & E & F & L)]; [left; exact F|].
    destruct (app_cons_cases _ _ _ _ _ E) as [(m & -> & ->)|(m & -> & E2)].
    - right. exists Y, p, (m ++ NonTerm X :: post). split; [rewrite <- app_assoc; reflexivity|].
      split; [|exact L]. apply (firstS_sstep P _ (m ++ rhs ++ post)); [constructor; exact Pr|exact F].
    - destruct (app_cons_cases _ _ _ _ _ E2) as [(m2 & -> & ->)|(m2 & -> & ->)].
      + rewrite firstS_app in F. destruct F as [F|[G F]].
        * left. apply (folG_chain Y); [exact L|]. eapply folG_in; eassumption.
        * right. exists X, pre, post. split; [reflexivity|]. split; [exact F|].
          refine (star_left _ X Y A _ L). exists m, m2. auto.
      + right. exists Y, (pre ++ NonTerm X :: m2), q. split; [rewrite <- app_assoc; reflexivity|]. auto.
  Qed.
  Lemma folG_complete H A t : follow_from P H A t -> folG A t.
  Proof.
    intros (pre & post & D).
    assert (F : folGS [NonTerm H] A t).
    { remember (pre ++ NonTerm A :: Term t :: post) as es eqn:Ee.
      revert D. generalize [NonTerm (T := T) H] as hs. apply star_ind_l.
      - right. exists A, pre, (Term t :: post). split; [exact Ee|]. split; [|constructor].
        apply firstS_cons. left. reflexivity.
      - intros a b S _ Fb. exact (folGS_sstep _ _ _ _ S Fb). }
    destruct F as [F|(X & p & q & E & F & _)]; [exact F|].
    destruct p as [|x [|y p]]; simpl in E; try discriminate. injection E as -> <-.
    destruct (firstS_nil _ _ F).
  Qed.
  (** When no nonterminal that may be empty stands right after a nonterminal, nothing is ever skipped. *)
  Hypothesis NA : forall H pre A X post, P H (pre ++ NonTerm A :: NonTerm X :: post) -> ~ lang P X [].
  Lemma folG_folR A t : folG A t -> folR P A t.
  Proof.
    intro F. induction F as [H pre A post t Pr F|H pre A post t Pr G _ IH].
    - destruct F as (p1 & e & p2 & -> & G & F). destruct p1 as [|e1 p1]; [eapply folR_adj; eassumption|].
      destruct (proj1 (gen_empty P _) G e1 (or_introl eq_refl)) as (X & -> & L). destruct (NA H pre A X _ Pr L).
    - destruct post as [|e1 post]; [eapply folR_last; eassumption|].
      destruct (proj1 (gen_empty P _) G e1 (or_introl eq_refl)) as (X & -> & L). destruct (NA H pre A X _ Pr L).
  Qed.
End Fol.
