(** Comparisons are lawful. *)
From Coq Require Import String List Bool Arith NArith Lia.
From Verif.Model Require Import Ord BTree Outcome Utils Grammar StartGrammar Nullable NonNull Tree State Compare.
From Verif.Spec Require Import CmpSpec.
From Verif.Proofs Require Import OrdFacts GrammarFacts StartFacts StateSets TreeFacts.
Import ListNotations.

(** Laws on the values satisfying [P]. *)
Record lawful_on {A} (P : A -> Prop) (same : A -> A -> Prop) (R : Cmp A) : Prop := {
  lo_eq : forall x y, P x -> P y -> (c_eq R x y = true <-> same x y);
  lo_partial : forall x y, P x -> P y -> c_partial R x y = Some (c_cmp R x y);
  lo_equal : forall x y, P x -> P y -> (c_cmp R x y = Eq <-> same x y);
  lo_opp : forall x y, P x -> P y -> c_cmp R y x = CompOpp (c_cmp R x y);
  lo_trans : forall x y z, P x -> P y -> P z -> c_cmp R x y = Lt -> c_cmp R y z = Lt -> c_cmp R x z = Lt;
  lo_congr : forall x y z, P x -> P y -> P z -> same x y -> c_cmp R x z = c_cmp R y z
}.

Lemma lawful_of {A} (same : A -> A -> Prop) (R : Cmp A) :
  lawful_on (fun _ => True) same R <-> lawful_upto same R.
Proof.
  split; intro L.
  - destruct L as [E Pa Q O Tr Co]. constructor; auto.
    + intros x y. rewrite (O x y) by exact I. destruct (c_cmp R x y); simpl; split; congruence.
    + intros x y z. apply Tr; exact I.
  - destruct L as [E Pa Q O Tr Co]. constructor; auto; try (intros x y z _ _ _; apply Tr).
    intros x y _ _. pose proof (O x y) as O1. pose proof (O y x) as O2.
    destruct (c_cmp R x y) eqn:C; destruct (c_cmp R y x) eqn:D; simpl; try reflexivity; exfalso;
      destruct O1 as [O1 O1'], O2 as [O2 O2']; (discriminate (O1 eq_refl) || discriminate (O1' eq_refl) ||
        discriminate (O2 eq_refl) || discriminate (O2' eq_refl)).
Qed.

Lemma lawful_on_of {A} (P : A -> Prop) same (R : Cmp A) : lawful_upto same R -> lawful_on P same R.
Proof.
  intro L. apply lawful_of in L. destruct L as [E Pa Q O Tr Co].
  constructor; auto; intros x y z _ _ _; (apply Tr || apply Co); exact I.
Qed.

Lemma lo_same {A} (P : A -> Prop) s1 s2 (R : Cmp A) :
  lawful_on P s1 R -> (forall x y, P x -> P y -> s1 x y <-> s2 x y) -> lawful_on P s2 R.
Proof.
  intros [E Pa Q O Tr Co] S. constructor; auto.
  - intros x y Px Py. rewrite <- S by assumption. auto.
  - intros x y Px Py. rewrite <- S by assumption. auto.
  - intros x y z Px Py Pz. rewrite <- S by assumption. auto.
Qed.

(** Pulling back along a map. *)
Lemma lo_map {A B} (f : A -> B) (P : B -> Prop) (Q : A -> Prop) (s : B -> B -> Prop) (s' : A -> A -> Prop)
    (RB : Cmp B) (R : Cmp A) :
  lawful_on P s RB ->
  (forall x, Q x -> P (f x)) ->
  (forall x y, Q x -> Q y -> s (f x) (f y) <-> s' x y) ->
  (forall x y, c_eq R x y = c_eq RB (f x) (f y)) ->
  (forall x y, c_partial R x y = c_partial RB (f x) (f y)) ->
  (forall x y, c_cmp R x y = c_cmp RB (f x) (f y)) ->
  lawful_on Q s' R.
Proof.
  intros L F S E1 E2 E3. constructor.
  - intros x y Qx Qy. rewrite E1, (lo_eq _ _ _ L) by auto. apply S; assumption.
  - intros x y Qx Qy. rewrite E2, E3. apply (lo_partial _ _ _ L); auto.
  - intros x y Qx Qy. rewrite E3, (lo_equal _ _ _ L) by auto. apply S; assumption.
  - intros x y Qx Qy. rewrite !E3. apply (lo_opp _ _ _ L); auto.
  - intros x y z Qx Qy Qz. rewrite !E3. apply (lo_trans _ _ _ L); auto.
  - intros x y z Qx Qy Qz Sm. rewrite !E3. apply (lo_congr _ _ _ L); auto. apply S; assumption.
Qed.

Lemma lawful_map {A B} (f : A -> B) (RB : Cmp B) (R : Cmp A) :
  lawful RB ->
  (forall x y, f x = f y -> x = y) ->
  (forall x y, c_eq R x y = c_eq RB (f x) (f y)) ->
  (forall x y, c_partial R x y = c_partial RB (f x) (f y)) ->
  (forall x y, c_cmp R x y = c_cmp RB (f x) (f y)) ->
  lawful R.
Proof.
  intros L F E1 E2 E3. apply lawful_of.
  apply (lo_map f (fun _ => True) (fun _ => True) eq eq RB R); auto.
  - apply lawful_of. exact L.
  - intros x y _ _. split; [apply F | congruence].
Qed.

Section Pair.
  Context {A B : Type} (P : A -> Prop) (Q : B -> Prop) (sA : A -> A -> Prop) (sB : B -> B -> Prop)
    (RA : Cmp A) (RB : Cmp B).
  Lemma lo_pair : lawful_on P sA RA -> lawful_on Q sB RB ->
    lawful_on (fun x => P (fst x) /\ Q (snd x)) (fun x y => sA (fst x) (fst y) /\ sB (snd x) (snd y)) (C_pair RA RB).
  Proof.
    intros LA LB. constructor; simpl.
    - intros [a b] [a' b'] [Pa Qb] [Pa' Qb']; simpl in *. rewrite andb_true_iff.
      rewrite (lo_eq _ _ _ LA), (lo_eq _ _ _ LB) by assumption. reflexivity.
    - intros [a b] [a' b'] [Pa Qb] [Pa' Qb']; simpl in *.
      rewrite (lo_partial _ _ _ LA), (lo_partial _ _ _ LB) by assumption.
      destruct (c_cmp RA a a'); reflexivity.
    - intros [a b] [a' b'] [Pa Qb] [Pa' Qb']; simpl in *. rewrite then_cmp_Eq.
      rewrite (lo_equal _ _ _ LA), (lo_equal _ _ _ LB) by assumption. reflexivity.
    - intros [a b] [a' b'] [Pa Qb] [Pa' Qb']; simpl in *. rewrite then_cmp_opp.
      rewrite (lo_opp _ _ _ LA a a'), (lo_opp _ _ _ LB b b') by assumption. reflexivity.
    - intros [a b] [a' b'] [a'' b''] [Pa Qb] [Pa' Qb'] [Pa'' Qb'']; simpl in *. rewrite !then_cmp_Lt.
      intros [L1|[E1 L1]] [L2|[E2 L2]].
      + left. apply (lo_trans _ _ _ LA a a' a''); assumption.
      + left. apply (lo_equal _ _ _ LA) in E2; auto.
        pose proof (lo_congr _ _ _ LA a' a'' a Pa' Pa'' Pa E2) as K.
        rewrite (lo_opp _ _ _ LA a a'), (lo_opp _ _ _ LA a a''), L1 in K by assumption.
        destruct (c_cmp RA a a''); simpl in K; congruence.
      + left. apply (lo_equal _ _ _ LA) in E1; auto.
        rewrite (lo_congr _ _ _ LA a a' a'' Pa Pa' Pa'' E1). exact L2.
      + right. apply (lo_equal _ _ _ LA) in E1; auto.
        rewrite (lo_congr _ _ _ LA a a' a'' Pa Pa' Pa'' E1). split; [exact E2|].
        apply (lo_trans _ _ _ LB b b' b''); assumption.
    - intros [a b] [a' b'] [a'' b''] [Pa Qb] [Pa' Qb'] [Pa'' Qb''] [S1 S2]; simpl in *.
      rewrite (lo_congr _ _ _ LA a a' a''), (lo_congr _ _ _ LB b b' b'') by assumption. reflexivity.
  Qed.
End Pair.

(** Two variants, the first one smaller. *)
Definition C_sum {A B} (RA : Cmp A) (RB : Cmp B) : Cmp (A + B) :=
  Build_Cmp
    (fun x y => match x, y with inl a, inl b => c_eq RA a b | inr a, inr b => c_eq RB a b | _, _ => false end)
    (fun x y => match x, y with
                | inl a, inl b => c_partial RA a b | inr a, inr b => c_partial RB a b
                | inl _, inr _ => Some Lt | inr _, inl _ => Some Gt end)
    (fun x y => match x, y with
                | inl a, inl b => c_cmp RA a b | inr a, inr b => c_cmp RB a b
                | inl _, inr _ => Lt | inr _, inl _ => Gt end).

Section Sum.
  Context {A B : Type} (P : A -> Prop) (Q : B -> Prop) (RA : Cmp A) (RB : Cmp B).
  Lemma lo_sum : lawful_on P eq RA -> lawful_on Q eq RB ->
    lawful_on (fun x => match x with inl a => P a | inr b => Q b end) eq (C_sum RA RB).
  Proof.
    intros LA LB. constructor; simpl.
    - intros [a|b] [a'|b'] H1 H2; rewrite ?(lo_eq _ _ _ LA), ?(lo_eq _ _ _ LB) by assumption;
        split; congruence.
    - intros [a|b] [a'|b'] H1 H2; rewrite ?(lo_partial _ _ _ LA), ?(lo_partial _ _ _ LB) by assumption; reflexivity.
    - intros [a|b] [a'|b'] H1 H2; rewrite ?(lo_equal _ _ _ LA), ?(lo_equal _ _ _ LB) by assumption;
        split; congruence.
    - intros [a|b] [a'|b'] H1 H2; try reflexivity; [apply (lo_opp _ _ _ LA) | apply (lo_opp _ _ _ LB)]; assumption.
    - intros [a|b] [a'|b'] [a''|b''] H1 H2 H3; try congruence;
        [apply (lo_trans _ _ _ LA) | apply (lo_trans _ _ _ LB)]; assumption.
    - intros x y z _ _ _ ->. reflexivity.
  Qed.
End Sum.

Section Vec.
  Context {A : Type} (P : A -> Prop) (s : A -> A -> Prop) (R : Cmp A).
  Lemma lo_vec : lawful_on P s R -> lawful_on (Forall P) (Forall2 s) (C_vec R).
  Proof.
    intro L.
    constructor; unfold C_vec; cbn [c_eq c_partial c_cmp].
    - induction x as [|a p IH]; intros [|b q] F1 F2; cbn [length all_eq Nat.eqb andb].
      + split; [constructor | reflexivity].
      + split; [discriminate | intro X; inversion X].
      + split; [discriminate | intro X; inversion X].
      + inversion F1; inversion F2; subst. specialize (IH q ltac:(assumption) ltac:(assumption)).
        rewrite andb_true_iff in *. rewrite andb_true_iff, (lo_eq _ _ _ L) by assumption. split.
        * intros [N [S K]]. constructor; [exact S|]. apply IH. split; assumption.
        * intro X. inversion X as [|? ? ? ? S1 S2]; subst. apply IH in S2 as [N K]. auto.
    - induction x as [|a p IH]; intros [|b q] F1 F2; simpl; try reflexivity.
      inversion F1; inversion F2; subst. rewrite (lo_partial _ _ _ L), IH by assumption.
      destruct (c_cmp R a b); reflexivity.
    - induction x as [|a p IH]; intros [|b q] F1 F2; simpl; try (split; [discriminate | intro X; inversion X]).
      + split; constructor.
      + inversion F1; inversion F2; subst. rewrite then_cmp_Eq, (lo_equal _ _ _ L), IH by assumption.
        split; [intros [? ?]; constructor; assumption | intro X; inversion X; auto].
    - induction x as [|a p IH]; intros [|b q] F1 F2; simpl; try reflexivity.
      inversion F1; inversion F2; subst. rewrite then_cmp_opp, (lo_opp _ _ _ L a b), IH by assumption. reflexivity.
    - induction x as [|a p IH]; intros [|b q] [|c r] F1 F2 F3; simpl; try congruence.
      inversion F1; inversion F2; inversion F3; subst. rewrite !then_cmp_Lt.
      intros [L1|[E1 L1]] [L2|[E2 L2]].
      + left. apply (lo_trans _ _ _ L a b c); assumption.
      + left. apply (lo_equal _ _ _ L) in E2; auto.
        assert (c_cmp R b a = c_cmp R c a) as K by (apply (lo_congr _ _ _ L); assumption).
        rewrite (lo_opp _ _ _ L a b), (lo_opp _ _ _ L a c), L1 in K by assumption.
        destruct (c_cmp R a c); simpl in K; congruence.
      + left. apply (lo_equal _ _ _ L) in E1; auto.
        rewrite (lo_congr _ _ _ L a b c) by assumption. exact L2.
      + right. apply (lo_equal _ _ _ L) in E1; auto.
        rewrite (lo_congr _ _ _ L a b c) by assumption. split; [exact E2|]. apply (IH q r); assumption.
    - induction x as [|a p IH]; intros y z F1 F2 F3 S; inversion S; subst; [reflexivity|].
      destruct z as [|c r]; [reflexivity|]. simpl.
      inversion F1; inversion F2; inversion F3; subst.
      rewrite (lo_congr _ _ _ L a y0 c), (IH l' r) by assumption. reflexivity.
  Qed.
End Vec.

Lemma Forall2_eq {A} (x y : list A) : Forall2 eq x y <-> x = y.
Proof.
  split; [induction 1; congruence | intros ->]. induction y; constructor; auto.
Qed.

(** ** The instances *)

Lemma lawful_pair {A B} (RA : Cmp A) (RB : Cmp B) : lawful RA -> lawful RB -> lawful (C_pair RA RB).
Proof.
  intros LA LB. apply lawful_of.
  assert (lawful_on (fun x : A * B => True /\ True) (fun x y => fst x = fst y /\ snd x = snd y) (C_pair RA RB)) as K.
  { apply (lo_pair (fun _ => True) (fun _ => True)); apply lawful_of; assumption. }
  refine (lo_map (fun x => x) _ _ _ eq _ (C_pair RA RB) K _ _ _ _ _); auto.
  intros [a b] [a' b'] _ _. simpl. split; [intros [-> ->]; reflexivity | intros [= -> ->]; auto].
Qed.
Lemma lawful_sum {A B} (RA : Cmp A) (RB : Cmp B) : lawful RA -> lawful RB -> lawful (C_sum RA RB).
Proof.
  intros LA LB. apply lawful_of.
  assert (K := lo_sum (fun _ => True) (fun _ => True) RA RB (proj2 (lawful_of _ _) LA) (proj2 (lawful_of _ _) LB)).
  refine (lo_map (fun x => x) _ _ _ eq _ (C_sum RA RB) K _ _ _ _ _); auto; [intros [|]; auto | reflexivity].
Qed.
Lemma lawful_vec {A} (R : Cmp A) : lawful R -> lawful (C_vec R).
Proof.
  intro L. apply lawful_of.
  assert (K := lo_vec (fun _ => True) eq R (proj2 (lawful_of _ _) L)).
  refine (lo_map (fun x => x) _ _ _ eq _ (C_vec R) K _ _ _ _ _); auto.
  - intros x _. apply Forall_forall. auto.
  - intros x y _ _. apply Forall2_eq.
Qed.
Definition C_unit : Cmp unit := Build_Cmp (fun _ _ => true) (fun _ _ => Some Eq) (fun _ _ => Eq).
Lemma lawful_unit : lawful C_unit.
Proof.
  constructor; simpl; try (intros [] []; split; reflexivity); try reflexivity; try congruence.
  - intros [] []; split; discriminate.
Qed.
Lemma lawful_option {A} (R : Cmp A) : lawful R -> lawful (C_option R).
Proof.
  intro L. apply (lawful_map (fun x : option A => match x with None => inl tt | Some a => inr a end)
    (C_sum C_unit R) (C_option R) (lawful_sum _ _ lawful_unit L)).
  - intros [a|] [b|]; congruence.
  - intros [a|] [b|]; reflexivity.
  - intros [a|] [b|]; reflexivity.
  - intros [a|] [b|]; reflexivity.
Qed.

(** From the classes used elsewhere. *)
Lemma lawful_OrdEq {A} `{OrdEq A} (e : A -> A -> bool) :
  (forall x y, e x y = true <-> x = y) -> lawful (Build_Cmp e (fun a b => Some (cmp a b)) cmp).
Proof.
  intro E. constructor; simpl; auto.
  - intros x y. apply cmp_eq_iff.
  - intros x y. rewrite cmp_gt_lt. reflexivity.
  - intros x y z. apply cmp_lt_trans.
  - intros x y z ->. reflexivity.
Qed.
Lemma lawful_usize : lawful C_usize.
Proof. exact (lawful_OrdEq Nat.eqb Nat.eqb_eq). Qed.
Lemma lawful_addr : lawful C_addr.
Proof. exact (lawful_OrdEq N.eqb N.eqb_eq). Qed.
Lemma lawful_bool : lawful C_bool.
Proof. exact (lawful_OrdEq Bool.eqb Bool.eqb_true_iff). Qed.
Lemma lawful_string : lawful C_string.
Proof. exact (lawful_OrdEq String.eqb String.eqb_eq). Qed.
Lemma lawful_Void : lawful C_Void.
Proof. constructor; intros []. Qed.
Lemma lawful_WasChanged : lawful C_WasChanged.
Proof.
  constructor; simpl.
  - intros [] []; split; congruence.
  - intros [] []; reflexivity.
  - intros [] []; split; congruence.
  - intros [] []; split; congruence.
  - intros [] [] []; congruence.
  - intros x y z ->; reflexivity.
Qed.

Section Instances.
  Context {T NT AK AV V : Type} (RT : Cmp T) (RN : Cmp NT) (RK : Cmp AK) (RA : Cmp AV) (RV : Cmp V).
  Hypotheses (LT : lawful RT) (LN : lawful RN) (LK : lawful RK) (LA : lawful RA) (LV : lawful RV).

  Lemma lawful_Elem : lawful (C_Elem RT RN).
  Proof.
    apply (lawful_map (fun e => match e with Term t => inl t | NonTerm n => inr n end) (C_sum RT RN));
      [apply lawful_sum; assumption | | | |]; intros [] []; try reflexivity; congruence.
  Qed.
  Lemma lawful_StreamTerminal : lawful (C_StreamTerminal RT).
  Proof.
    apply (lawful_map (fun e => match e with EndOfStream => inl tt | STerm n => inr n end) (C_sum C_unit RT));
      [apply lawful_sum; [apply lawful_unit | assumption] | | | |]; intros [] []; try reflexivity; congruence.
  Qed.
  Lemma lawful_StartNonTerminal : lawful (C_StartNonTerminal RN).
  Proof.
    apply (lawful_map (fun e => match e with Start => inl tt | NTerm n => inr n end) (C_sum C_unit RN));
      [apply lawful_sum; [apply lawful_unit | assumption] | | | |]; intros [] []; try reflexivity; congruence.
  Qed.
  Lemma lawful_StartActionKey : lawful (C_StartActionKey RK).
  Proof.
    apply (lawful_map (fun e => match e with StartKey => inl tt | ActionKey n => inr n end) (C_sum C_unit RK));
      [apply lawful_sum; [apply lawful_unit | assumption] | | | |]; intros [] []; try reflexivity; congruence.
  Qed.
  Lemma lawful_ProdKey : lawful (C_ProdKey RN RK).
  Proof.
    apply (lawful_map (fun k => (pk_head k, pk_action_key k)) (C_pair RN RK));
      [apply lawful_pair; assumption | | | |]; intros [] []; try reflexivity; simpl; congruence.
  Qed.
  Lemma lawful_NNActionKey : lawful (C_NNActionKey RK).
  Proof.
    apply (lawful_map (fun k => (nk_action k, nk_nullable_states k)) (C_pair RK (C_vec C_bool)));
      [apply lawful_pair; [assumption | apply lawful_vec, lawful_bool] | | | |];
      intros [] []; try reflexivity; simpl; congruence.
  Qed.
  Lemma lawful_Content : lawful (C_Content RT RK RV).
  Proof.
    apply (lawful_map (fun k => match k with CLeaf k v => inl (k, v) | CBranch x n => inr (x, n) end)
             (C_sum (C_pair RT RV) (C_pair RK (C_vec C_usize))));
      [apply lawful_sum; apply lawful_pair; auto; apply lawful_vec, lawful_usize | | | |];
      intros [] []; try reflexivity; simpl; congruence.
  Qed.
End Instances.

Lemma lawful_ProdElement {T NT} (RT : Cmp T) (RN : Cmp NT) :
  lawful RT -> lawful RN -> lawful (C_ProdElement RT RN).
Proof.
  intros LT LN.
  apply (lawful_map (fun k => (pe_id k, pe_elem k)) (C_pair (C_option C_Name) (C_Elem RT RN)));
    [apply lawful_pair; [apply lawful_option, lawful_string | apply lawful_Elem; assumption] | | | |];
    intros [] []; try reflexivity; simpl; congruence.
Qed.
Lemma lawful_ProdInner {T NT AK AV} (RT : Cmp T) (RN : Cmp NT) (RK : Cmp AK) (RA : Cmp AV) :
  lawful RT -> lawful RN -> lawful RK -> lawful RA -> lawful (C_ProdInner RT RN RK RA).
Proof.
  intros LT LN LK LA.
  apply (lawful_map (fun k => (pi_action_key k, (pi_action_value k, pi_elements k)))
    (C_pair RK (C_pair RA (C_vec (C_ProdElement RT RN)))));
    [repeat apply lawful_pair; auto; apply lawful_vec, lawful_ProdElement; assumption | | | |];
    intros [] []; try reflexivity; simpl; congruence.
Qed.

(** ** Trees: by depth *)
Section TreeCmp.
  Context {L V : Type} (RL : Cmp L) (RV : Cmp V) (LL : lawful RL) (LV : lawful RV).
  Inductive tn_depth : nat -> TreeNode L V -> Prop :=
  | tnd d x ps : (forall p, In p ps -> tv_depth d (snd p)) -> tn_depth (S d) (TNode x ps)
  with tv_depth : nat -> TreeValue L V -> Prop :=
  | tvd_node d n : tn_depth d n -> tv_depth (S d) (TVNode n)
  | tvd_leaf d v : tv_depth (S d) (TVLeaf v).

  Lemma td_mono d : (forall n d', tn_depth d n -> d <= d' -> tn_depth d' n) /\
                    (forall v d', tv_depth d v -> d <= d' -> tv_depth d' v).
  Proof.
    induction d as [d IH] using lt_wf_ind. split.
    - intros n d' D Le. inversion D as [e x ps F]; subst. destruct d' as [|d']; [lia|].
      constructor. intros p Hp. apply (proj2 (IH e ltac:(lia))); [auto | lia].
    - intros v d' D Le. inversion D as [e n F|e w]; subst; (destruct d' as [|d']; [lia|]).
      + constructor. apply (proj1 (IH e ltac:(lia))); [auto | lia].
      + constructor.
  Qed.

  Fixpoint tn_has_depth (n : TreeNode L V) : exists d, tn_depth d n
  with tv_has_depth (v : TreeValue L V) : exists d, tv_depth d v.
  Proof.
    - destruct n as [x ps].
      assert (exists d, forall p, In p ps -> tv_depth d (snd p)) as [d D].
      { induction ps as [|[k v] ps IH]; [exists 0; intros p []|].
        destruct IH as [d1 D1]. destruct (tv_has_depth v) as [d2 D2]. exists (d1 + d2). intros p [<-|Hp].
        - apply (proj2 (td_mono d2)); [exact D2 | lia].
        - apply (proj2 (td_mono d1)); [auto | lia]. }
      exists (S d). constructor. exact D.
    - destruct v as [n|v].
      + destruct (tn_has_depth n) as [d D]. exists (S d). constructor. exact D.
      + exists 1. constructor.
  Qed.

  Lemma lawful_depth d : lawful_on (tn_depth d) eq (C_TreeNode RL RV) /\ lawful_on (tv_depth d) eq (C_TreeValue RL RV).
  Proof.
    induction d as [|d [IHn IHv]].
    - split; constructor; intros x; intros; try (match goal with H : tn_depth 0 _ |- _ => inversion H end);
        match goal with H : tv_depth 0 _ |- _ => inversion H end.
    - split.
      + set (RP := C_pair C_Name (C_TreeValue RL RV)).
        assert (lawful_on (fun p : name * TreeValue L V => True /\ tv_depth d (snd p))
                  (fun x y => fst x = fst y /\ snd x = snd y) RP) as K1.
        { apply (lo_pair (fun _ => True)); [apply lawful_on_of, lawful_string | exact IHv]. }
        assert (K2 := lo_vec _ _ _ K1).
        assert (K3 := lo_pair (fun _ => True) _ eq _ RL (C_vec RP) (proj2 (lawful_of _ _) LL) K2).
        refine (lo_map (fun n => match n with TNode x ps => (x, ps) end) _ _ _ eq _ (C_TreeNode RL RV) K3 _ _ _ _ _).
        * intros n D. inversion D as [e x ps F]; subst. simpl. split; [exact I|].
          apply Forall_forall. intros p Hp. split; [exact I | auto].
        * intros [x ps] [y qs] _ _. simpl. split.
          -- intros [-> F]. f_equal. apply Forall2_eq. clear - F.
             induction F as [|[k v] [k' v'] p q [E1 E2] _ IHF]; [constructor|].
             simpl in *. subst. constructor; [reflexivity | exact IHF].
          -- intros [= -> ->]. split; [reflexivity|]. clear. induction qs; constructor; auto.
        * intros [x ps] [y qs]. reflexivity.
        * intros [x ps] [y qs]. reflexivity.
        * intros [x ps] [y qs]. reflexivity.
      + assert (K := lo_sum (tn_depth d) (fun _ => True) (C_TreeNode RL RV) RV IHn (proj2 (lawful_of _ _) LV)).
        refine (lo_map (fun v => match v with TVNode n => inl n | TVLeaf v => inr v end) _ _ _ eq _ (C_TreeValue RL RV) K _ _ _ _ _).
        * intros v D. inversion D; subst; [assumption | exact I].
        * intros [|] [|] _ _; split; congruence.
        * intros [|] [|]; reflexivity.
        * intros [|] [|]; reflexivity.
        * intros [|] [|]; reflexivity.
  Qed.
End TreeCmp.

Lemma lo_all {A} (D : nat -> A -> Prop) s (R : Cmp A) :
  (forall d d' x, D d x -> d <= d' -> D d' x) -> (forall x, exists d, D d x) ->
  (forall d, lawful_on (D d) s R) -> lawful_upto s R.
Proof.
  intros Mono Has L.
  assert (forall x y z, exists d, D d x /\ D d y /\ D d z) as H3.
  { intros x y z. destruct (Has x) as [a Ha], (Has y) as [b Hb], (Has z) as [c Hc]. exists (a + b + c).
    repeat split; eapply Mono; eauto; lia. }
  apply lawful_of. constructor.
  - intros x y _ _. destruct (H3 x y y) as (d & Dx & Dy & _). apply (lo_eq _ _ _ (L d)); assumption.
  - intros x y _ _. destruct (H3 x y y) as (d & Dx & Dy & _). apply (lo_partial _ _ _ (L d)); assumption.
  - intros x y _ _. destruct (H3 x y y) as (d & Dx & Dy & _). apply (lo_equal _ _ _ (L d)); assumption.
  - intros x y _ _. destruct (H3 x y y) as (d & Dx & Dy & _). apply (lo_opp _ _ _ (L d)); assumption.
  - intros x y z _ _ _. destruct (H3 x y z) as (d & Dx & Dy & Dz). apply (lo_trans _ _ _ (L d)); assumption.
  - intros x y z _ _ _. destruct (H3 x y z) as (d & Dx & Dy & Dz). apply (lo_congr _ _ _ (L d)); assumption.
Qed.

Lemma lawful_TreeNode {L V} (RL : Cmp L) (RV : Cmp V) : lawful RL -> lawful RV -> lawful (C_TreeNode RL RV).
Proof.
  intros LL LV. apply (lo_all tn_depth).
  - intros d d' x Dx Le. exact (proj1 (td_mono d) x d' Dx Le).
  - exact tn_has_depth.
  - intro d. exact (proj1 (lawful_depth RL RV LL LV d)).
Qed.
Lemma lawful_TreeValue {L V} (RL : Cmp L) (RV : Cmp V) : lawful RL -> lawful RV -> lawful (C_TreeValue RL RV).
Proof.
  intros LL LV. apply (lo_all tv_depth).
  - intros d d' x Dx Le. exact (proj2 (td_mono d) x d' Dx Le).
  - exact tv_has_depth.
  - intro d. exact (proj2 (lawful_depth RL RV LL LV d)).
Qed.

(** ** References *)
Lemma lawful_NoCompare {A} : lawful_upto (fun _ _ : A => True) C_NoCompare.
Proof. constructor; simpl; try (intros; split; auto; discriminate); intros; congruence. Qed.

Lemma lawful_upto_addr {A} (f : A -> N) (R : Cmp A) :
  (forall x y, c_eq R x y = N.eqb (f x) (f y)) ->
  (forall x y, c_partial R x y = Some (N.compare (f x) (f y))) ->
  (forall x y, c_cmp R x y = N.compare (f x) (f y)) ->
  lawful_upto (fun x y => f x = f y) R.
Proof.
  intros E1 E2 E3. apply lawful_of.
  refine (lo_map f (fun _ => True) (fun _ => True) eq _ C_addr R (proj2 (lawful_of _ _) lawful_addr) _ _ _ _ _);
    auto. reflexivity.
Qed.

Section Refs.
  Context {T NT AK AV : Type} (lay : layout NT).
  Hypothesis Lay : forall A i B j, lay A i = lay B j -> A = B /\ i = j.

  Lemma lawful_Prod :
    lawful_upto (fun p q : Prod T NT AK AV => p_head p = p_head q /\ p_ix p = p_ix q) (C_Prod lay).
  Proof.
    apply lawful_of. eapply lo_same.
    - apply lawful_of. apply (lawful_upto_addr (fun p => lay (p_head p) (p_ix p))); reflexivity.
    - intros x y _ _. split; [apply Lay | intros [-> ->]; reflexivity].
  Qed.
  Definition same_prod (a b : ProdState T NT AK AV) : Prop :=
    p_head (ps_prod a) = p_head (ps_prod b) /\ p_ix (ps_prod a) = p_ix (ps_prod b).
  Lemma lawful_ProdState : lawful_upto same_prod (C_ProdState lay : Cmp (ProdState T NT AK AV)).
  Proof.
    apply lawful_of. eapply lo_same.
    - apply lawful_of. apply (lawful_upto_addr (fun p : ProdState T NT AK AV => lay (p_head (ps_prod p)) (p_ix (ps_prod p)))); reflexivity.
    - intros x y _ _. split; [apply Lay | intros [-> ->]; reflexivity].
  Qed.
  Lemma lawful_ProdStateSet :
    lawful_upto (Forall2 same_prod) (C_ProdStateSet lay : Cmp (list (ProdState T NT AK AV))).
  Proof.
    apply lawful_of.
    refine (lo_map (fun x => x) _ _ _ _ _ _ (lo_vec _ _ _ (proj2 (lawful_of _ _) lawful_ProdState)) _ _ _ _ _);
      auto; [|reflexivity].
    intros x _. apply Forall_forall. auto.
  Qed.
End Refs.

Section HandleCmp.
  Variable adr : TreeHandle -> N.
  Hypothesis adr_inj : forall a b, adr a = adr b -> a = b.
  Lemma lawful_TreeHandle : lawful (C_TreeHandle adr).
  Proof.
    apply (lawful_map adr C_addr); [exact lawful_addr | exact adr_inj | | |]; try reflexivity.
    intros x y. simpl. destruct (N.compare (adr x) (adr y)) eqn:C; destruct (N.eqb_spec (adr x) (adr y)); try reflexivity.
    - apply N.compare_eq_iff in C. contradiction.
    - rewrite e, N.compare_refl in C. discriminate.
    - rewrite e, N.compare_refl in C. discriminate.
  Qed.
  Lemma lawful_Ref : lawful (C_Ref adr).
  Proof. apply lawful_pair; [exact lawful_usize | exact lawful_TreeHandle]. Qed.
  Lemma lawful_Node : lawful (C_Node adr).
  Proof.
    apply (lawful_map (fun n => (nd_index n, nd_inner n)) (C_Ref adr) (C_Node adr) lawful_Ref); try reflexivity.
    intros [] []; simpl; congruence.
  Qed.
  Lemma lawful_Alternative : lawful (C_Alternative adr).
  Proof.
    apply (lawful_map (fun n => (al_index n, al_inner n)) (C_Ref adr) (C_Alternative adr) lawful_Ref); try reflexivity.
    intros [] []; simpl; congruence.
  Qed.
  Lemma lawful_NodeContent : lawful (C_NodeContent adr).
  Proof. exact (lawful_sum _ _ lawful_Ref lawful_Ref). Qed.
End HandleCmp.

(** ** The orders used by the other model files are these *)
Section Link.
  Context {T NT AK AV V : Type} `{Ord T} `{Ord NT} `{Ord AK} `{Ord V}.
  (** A symbol type's comparisons, when the model uses [Ord] only. *)
  Definition C_of {A} `{Ord A} : Cmp A := Build_Cmp eqb (fun a b => Some (cmp a b)) cmp.

  Lemma iter_cmp_list {A} `{Ord A} (p q : list A) : iter_cmp cmp p q = cmp p q.
  Proof.
    change (cmp p q) with (list_cmp p q).
    revert q. induction p as [|a p IH]; intros [|b q]; simpl; try reflexivity. rewrite IH. reflexivity.
  Qed.
  Lemma link_Elem (a b : Elem T NT) : c_cmp (C_Elem C_of C_of) a b = cmp a b.
  Proof. destruct a, b; reflexivity. Qed.
  Lemma link_ProdElement (a b : ProdElement T NT) : c_cmp (C_ProdElement C_of C_of) a b = cmp a b.
  Proof. destruct a as [[?|] []], b as [[?|] []]; reflexivity. Qed.
  Lemma link_StreamTerminal (a b : StreamTerminal T) : c_cmp (C_StreamTerminal C_of) a b = cmp a b.
  Proof. destruct a, b; reflexivity. Qed.
  Lemma link_StartNonTerminal (a b : StartNonTerminal T) : c_cmp (C_StartNonTerminal C_of) a b = cmp a b.
  Proof. destruct a, b; reflexivity. Qed.
  Lemma link_StartActionKey (a b : StartActionKey T) : c_cmp (C_StartActionKey C_of) a b = cmp a b.
  Proof. destruct a, b; reflexivity. Qed.
  Lemma link_Content (a b : ContentInner T AK V) : c_cmp (C_Content C_of C_of C_of) a b = cmp a b.
  Proof.
    destruct a, b; try reflexivity. cbn [c_cmp C_Content C_pair C_vec fst snd].
    change (c_cmp C_usize) with (cmp (A := nat)). rewrite iter_cmp_list. reflexivity.
  Qed.
  Lemma link_ProdState lay (a b : ProdState T NT AK AV) : c_cmp (C_ProdState lay) a b = Ord_ProdState lay a b.
  Proof. reflexivity. Qed.
End Link.
