(** Laws of the [Ord] instances. *)
From Coq Require Import List Arith NArith Bool Ascii String Lia.
From Verif.Model Require Import Ord.
Import ListNotations.

Section Generic.
  Context {A : Type} `{TotalPre A}.

  Lemma cmp_eq_sym (x y : A) : cmp x y = Eq -> cmp y x = Eq.
  Proof. intro E. rewrite (cmp_sym x y), E. reflexivity. Qed.

  Lemma cmp_eq_trans (x y z : A) : cmp x y = Eq -> cmp y z = Eq -> cmp x z = Eq.
  Proof. intros E1 E2. rewrite (cmp_eq_compat _ _ z E1). exact E2. Qed.

  Lemma cmp_eq_compat_r (x y z : A) : cmp x y = Eq -> cmp z x = cmp z y.
  Proof.
    intro E. rewrite (cmp_sym x z), (cmp_sym y z), (cmp_eq_compat _ _ z E). reflexivity.
  Qed.

  Lemma cmp_gt_lt (x y : A) : cmp x y = Gt <-> cmp y x = Lt.
  Proof. rewrite (cmp_sym x y). destruct (cmp x y); simpl; split; congruence. Qed.

  Lemma cmp_gt_trans (x y z : A) : cmp x y = Gt -> cmp y z = Gt -> cmp x z = Gt.
  Proof.
    rewrite !cmp_gt_lt. intros E1 E2. exact (cmp_lt_trans _ _ _ E2 E1).
  Qed.

  Lemma cmp_lt_irrefl (x : A) : cmp x x <> Lt.
  Proof. rewrite cmp_refl. discriminate. Qed.

  Lemma eqb_refl (x : A) : eqb x x = true.
  Proof. unfold eqb. rewrite cmp_refl. reflexivity. Qed.
End Generic.

Section GenericEq.
  Context {A : Type} `{OrdEq A}.

  Lemma cmp_eq_iff (x y : A) : cmp x y = Eq <-> x = y.
  Proof. split; [apply cmp_eq | intros ->; apply cmp_refl]. Qed.

  Lemma eqb_true_iff (x y : A) : eqb x y = true <-> x = y.
  Proof.
    unfold eqb. rewrite <- cmp_eq_iff. destruct (cmp x y); split; congruence.
  Qed.

  Lemma eqb_false_iff (x y : A) : eqb x y = false <-> x <> y.
  Proof.
    rewrite <- eqb_true_iff. destruct (eqb x y); split; congruence.
  Qed.

  Lemma eqb_spec (x y : A) : reflect (x = y) (eqb x y).
  Proof.
    destruct (eqb x y) eqn:E; constructor; [apply eqb_true_iff | apply eqb_false_iff]; exact E.
  Qed.

  Lemma OrdEq_dec (x y : A) : {x = y} + {x <> y}.
  Proof.
    destruct (eqb x y) eqn:E; [left; apply eqb_true_iff | right; apply eqb_false_iff]; exact E.
  Qed.
End GenericEq.

#[export] Instance TotalPre_nat : TotalPre nat.
Proof.
  constructor; unfold cmp, Ord_nat.
  - intro x. apply Nat.compare_refl.
  - intros x y. apply Nat.compare_antisym.
  - intros x y z. rewrite !Nat.compare_lt_iff. lia.
  - intros x y z E. apply Nat.compare_eq_iff in E. subst. reflexivity.
Qed.
#[export] Instance OrdEq_nat : OrdEq nat.
Proof. constructor; [exact _|]. intros x y E. apply Nat.compare_eq_iff. exact E. Qed.

#[export] Instance TotalPre_N : TotalPre N.
Proof.
  constructor; unfold cmp, Ord_N.
  - intro x. apply N.compare_refl.
  - intros x y. apply N.compare_antisym.
  - intros x y z. rewrite !N.compare_lt_iff. lia.
  - intros x y z E. apply N.compare_eq_iff in E. subst. reflexivity.
Qed.
#[export] Instance OrdEq_N : OrdEq N.
Proof. constructor; [exact _|]. intros x y E. apply N.compare_eq_iff. exact E. Qed.

#[export] Instance TotalPre_unit : TotalPre unit.
Proof. constructor; unfold cmp, Ord_unit; simpl; intros; congruence. Qed.
#[export] Instance OrdEq_unit : OrdEq unit.
Proof. constructor; [exact _|]. intros [] []; reflexivity. Qed.

#[export] Instance TotalPre_bool : TotalPre bool.
Proof.
  constructor; unfold cmp, Ord_bool.
  - intros []; reflexivity.
  - intros [] []; reflexivity.
  - intros [] [] []; congruence.
  - intros [] [] []; congruence.
Qed.
#[export] Instance OrdEq_bool : OrdEq bool.
Proof. constructor; [exact _|]. intros [] []; unfold cmp, Ord_bool; congruence. Qed.

#[export] Instance TotalPre_ascii : TotalPre ascii.
Proof.
  constructor; unfold cmp, Ord_ascii.
  - intro x. apply N.compare_refl.
  - intros x y. apply N.compare_antisym.
  - intros x y z. rewrite !N.compare_lt_iff. lia.
  - intros x y z E. apply N.compare_eq_iff in E. rewrite E. reflexivity.
Qed.
#[export] Instance OrdEq_ascii : OrdEq ascii.
Proof.
  constructor; [exact _|]. unfold cmp, Ord_ascii. intros x y E. apply N.compare_eq_iff in E.
  rewrite <- (ascii_N_embedding x), <- (ascii_N_embedding y), E. reflexivity.
Qed.

Lemma then_cmp_Eq c d : then_cmp c d = Eq <-> c = Eq /\ d = Eq.
Proof. destruct c; simpl; intuition congruence. Qed.
Lemma then_cmp_Lt c d : then_cmp c d = Lt <-> c = Lt \/ (c = Eq /\ d = Lt).
Proof. destruct c; simpl; intuition congruence. Qed.
Lemma then_cmp_opp c d : CompOpp (then_cmp c d) = then_cmp (CompOpp c) (CompOpp d).
Proof. destruct c; reflexivity. Qed.

Section Prod.
  Context {A B : Type} `{TotalPre A} `{TotalPre B}.
  #[export] Instance TotalPre_prod : TotalPre (A * B).
  Proof.
    constructor; unfold cmp, Ord_prod.
    - intros [a b]. simpl. rewrite !cmp_refl. reflexivity.
    - intros [a b] [a' b']. simpl. rewrite (cmp_sym a a'), (cmp_sym b b'), then_cmp_opp. reflexivity.
    - intros [a b] [a' b'] [a'' b'']. simpl. rewrite !then_cmp_Lt.
      intros [L1|[E1 L1]] [L2|[E2 L2]].
      + left. exact (cmp_lt_trans _ _ _ L1 L2).
      + left. rewrite <- (cmp_eq_compat_r _ _ a E2). exact L1.
      + left. rewrite (cmp_eq_compat _ _ a'' E1). exact L2.
      + right. split; [exact (cmp_eq_trans _ _ _ E1 E2) | exact (cmp_lt_trans _ _ _ L1 L2)].
    - intros [a b] [a' b'] [a'' b'']. simpl. rewrite then_cmp_Eq. intros [E1 E2].
      rewrite (cmp_eq_compat _ _ a'' E1), (cmp_eq_compat _ _ b'' E2). reflexivity.
  Qed.
End Prod.
#[export] Instance OrdEq_prod {A B} `{OrdEq A} `{OrdEq B} : OrdEq (A * B).
Proof.
  constructor; [exact _|]. intros [a b] [a' b'] E. apply then_cmp_Eq in E. destruct E as [E1 E2].
  simpl in *. apply (cmp_eq a a') in E1. apply (cmp_eq b b') in E2. subst. reflexivity.
Qed.

#[export] Instance TotalPre_option {A} `{TotalPre A} : TotalPre (option A).
Proof.
  constructor; unfold cmp, Ord_option.
  - intros [a|]; [apply cmp_refl | reflexivity].
  - intros [a|] [b|]; try reflexivity. apply cmp_sym.
  - intros [a|] [b|] [c|]; try congruence. apply cmp_lt_trans.
  - intros [a|] [b|] [c|]; try congruence. apply cmp_eq_compat.
Qed.
#[export] Instance OrdEq_option {A} `{OrdEq A} : OrdEq (option A).
Proof.
  constructor; [exact _|]. intros [a|] [b|] E; unfold cmp, Ord_option in E; try congruence.
  apply cmp_eq_iff in E. subst. reflexivity.
Qed.

#[export] Instance TotalPre_list {A} `{TotalPre A} : TotalPre (list A).
Proof.
  constructor; unfold cmp, Ord_list.
  - intro l. induction l as [|a l IH]; [reflexivity|]. cbn [list_cmp].
    rewrite cmp_refl. exact IH.
  - intro l. induction l as [|a l IH]; intros [|b m]; try reflexivity. cbn [list_cmp].
    rewrite then_cmp_opp, <- IH, <- (cmp_sym a b). reflexivity.
  - intro l. induction l as [|a l IH]; intros [|b m] [|c n]; cbn [list_cmp]; try congruence.
    rewrite !then_cmp_Lt. intros [L1|[E1 L1]] [L2|[E2 L2]].
    + left. exact (cmp_lt_trans _ _ _ L1 L2).
    + left. rewrite <- (cmp_eq_compat_r _ _ a E2). exact L1.
    + left. rewrite (cmp_eq_compat _ _ c E1). exact L2.
    + right. split; [exact (cmp_eq_trans _ _ _ E1 E2) | exact (IH _ _ L1 L2)].
  - intro l. induction l as [|a l IH]; intros [|b m] [|c n]; cbn [list_cmp]; try congruence.
    + rewrite then_cmp_Eq. intros [E1 E2].
      rewrite (cmp_eq_compat _ _ c E1), (IH _ n E2). reflexivity.
Qed.
#[export] Instance OrdEq_list {A} `{OrdEq A} : OrdEq (list A).
Proof.
  constructor; [exact _|]. intro l. induction l as [|a l IH]; intros [|b m] E;
    unfold cmp, Ord_list in E; cbn [list_cmp] in E; try congruence.
  apply then_cmp_Eq in E. destruct E as [E1 E2]. apply cmp_eq_iff in E1. subst.
  f_equal. apply IH. exact E2.
Qed.

Lemma list_ascii_inj s t : list_ascii_of_string s = list_ascii_of_string t -> s = t.
Proof.
  intro E. rewrite <- (string_of_list_ascii_of_string s), <- (string_of_list_ascii_of_string t), E.
  reflexivity.
Qed.
#[export] Instance TotalPre_string : TotalPre string.
Proof.
  constructor; unfold cmp, Ord_string; intros;
    change (@list_cmp ascii _) with (@cmp (list ascii) _) in *.
  - apply cmp_refl.
  - apply cmp_sym.
  - eapply cmp_lt_trans; eassumption.
  - eapply cmp_eq_compat; eassumption.
Qed.
#[export] Instance OrdEq_string : OrdEq string.
Proof.
  constructor; [exact _|]. intros s t E. apply list_ascii_inj.
  apply cmp_eq_iff. exact E.
Qed.
