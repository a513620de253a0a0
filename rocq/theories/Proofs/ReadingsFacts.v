(** Trees that are higher than the bound can be made larger, and smaller without becoming much lower. *)
From Coq Require Import List Arith Bool Lia.
From Verif.Model Require Import Ord BTree Outcome Grammar Tokens Tree.
From Verif.Spec Require Import Cfg TreeSpec EarleySpec AmbigSpec WalkSpec SizeSpec SiftSpec ReadingsSpec.
From Verif.Proofs Require Import OrdFacts BTreeFacts EarleyMore AmbigFacts SiftFacts.
Import ListNotations.

Section Pump.
  Context {T NT AK AV V : Type} `{OrdEq T} `{OrdEq NT} `{OrdEq V}.
  Variable g : Grammar T NT AK AV.
  Variable w : list (Token T V).
  Local Notation pt := (ptree T AK V).
  Local Notation label := (NT * list (Token T V))%type.
  Local Notation labels := (labels g w).
  Local Notation sz cs := (list_sum (map psize cs)).
  Local Notation B := (height_bound g (length w)).

  Lemma bound_labels : B = length labels + 1.
  Proof. unfold height_bound. rewrite labels_length. reflexivity. Qed.


  Lemma up :
    (forall e ts (tr : pt), dtree g e ts tr -> forall seen a b, w = a ++ ts ++ b -> NoDup seen -> incl seen labels ->
      (exists tr', dtree g e ts tr' /\ psize tr < psize tr' /\ height tr <= height tr') \/
      (exists C us, In (C, us) seen /\ forall c, dtree g (NonTerm C) us c -> exists tr', dtree g e ts tr' /\ psize c <= psize tr' /\ height c <= height tr') \/
      height tr <= length labels - length seen + 1) /\
    (forall es ts (trs : list pt), dtrees g es ts trs -> forall seen a b, w = a ++ ts ++ b -> NoDup seen -> incl seen labels ->
      (exists trs', dtrees g es ts trs' /\ sz trs < sz trs' /\ maxh trs <= maxh trs') \/
      (exists C us, In (C, us) seen /\ forall c, dtree g (NonTerm C) us c -> exists trs', dtrees g es ts trs' /\ psize c <= sz trs' /\ height c <= maxh trs') \/
      maxh trs <= length labels - length seen + 1).
  Proof.
    apply dtree_dtrees_ind.
    - intros k v seen a b E N I. right. right. simpl. lia.
    - intros A p ts cs Pr D IH seen a b E N I.
      destruct (in_dec label_dec (A, ts) seen) as [J|J].
      { right. left. exists A, ts. split; [exact J|]. intros c Dc. exists c. auto. }
      assert (N' : NoDup ((A, ts) :: seen)) by (constructor; assumption).
      assert (I' : incl ((A, ts) :: seen) labels) by (intros x [<-|X]; [exact (labels_In g w A p a ts b Pr E)|exact (I x X)]).
      pose proof (NoDup_incl_length N' I') as Le. simpl in Le.
      destruct (IH _ a b E N' I') as [(cs' & D' & L1 & L2)|[(C & us & [X|X] & F)|L]].
      + left. exists (PBranch (pi_action_key p) cs'). split; [constructor; assumption|]. rewrite !height_branch. cbn [psize]. lia.
      + injection X as <- <-. destruct (F (PBranch (pi_action_key p) cs)) as (cs' & D' & L1 & L2); [constructor; assumption|].
        left. exists (PBranch (pi_action_key p) cs'). split; [constructor; assumption|]. rewrite !height_branch in *. cbn [psize] in *. lia.
      + right. left. exists C, us. split; [exact X|]. intros c Dc. destruct (F c Dc) as (cs' & D' & L1 & L2).
        exists (PBranch (pi_action_key p) cs'). split; [constructor; assumption|]. rewrite !height_branch. cbn [psize]. lia.
      + right. right. rewrite height_branch. simpl in L. lia.
    - intros seen a b E N I. right. right. unfold maxh. simpl. lia.
    - intros e es ts us c cs D IH Ds IHs seen a b E N I. rewrite <- app_assoc in E.
      assert (Es : w = (a ++ ts) ++ us ++ b) by (rewrite <- app_assoc; exact E).
      destruct (IH _ a (us ++ b) E N I) as [(c' & D' & L1 & L2)|[(C & vs & X & F)|L]].
      + left. exists (c' :: cs). split; [constructor; assumption|]. unfold maxh. simpl. lia.
      + right. left. exists C, vs. split; [exact X|]. intros d Dd. destruct (F d Dd) as (c' & D' & L1 & L2).
        exists (c' :: cs). split; [constructor; assumption|]. unfold maxh. simpl. lia.
      + destruct (IHs _ (a ++ ts) b Es N I) as [(cs' & D' & L1 & L2)|[(C & vs & X & F)|L']].
        * left. exists (c :: cs'). split; [constructor; assumption|]. unfold maxh in *. simpl. lia.
        * right. left. exists C, vs. split; [exact X|]. intros d Dd. destruct (F d Dd) as (cs' & D' & L1 & L2).
          exists (c :: cs'). split; [constructor; assumption|]. unfold maxh in *. simpl. lia.
        * right. right. unfold maxh in *. simpl. lia.
  Qed.
  (** Above the bound there is a larger tree that is not lower. *)
  Lemma larger e (tr : pt) : dtree g e w tr -> B < height tr -> exists tr', dtree g e w tr' /\ psize tr < psize tr' /\ B < height tr'.
  Proof.
    intros D L. destruct (proj1 up e w tr D [] [] []) as [(tr' & D' & L1 & L2)|[(C & us & [] & _)|X]].
    - rewrite app_nil_r. reflexivity.
    - constructor.
    - intros x [].
    - exists tr'. split; [exact D'|]. lia.
    - rewrite bound_labels in L. simpl in X. lia.
  Qed.
  Lemma unbounded e (tr : pt) : dtree g e w tr -> B < height tr -> forall n, exists tr', dtree g e w tr' /\ n <= psize tr' /\ B < height tr'.
  Proof.
    intros D L n. induction n as [|n (x & Dx & S & Hx)]; [exists tr; repeat split; [exact D|lia|exact L]|].
    destruct (larger e x Dx Hx) as (y & Dy & S' & Hy). exists y. repeat split; [exact Dy|lia|exact Hy].
  Qed.
  Lemma infinitely e (tr : pt) : dtree g e w tr -> B < height tr -> ~ finitely_many (dtree g e w : pt -> Prop).
  Proof.
    intros D L (l & F). destruct (unbounded e tr D L (S (sz l))) as (x & Dx & S & _). specialize (F x Dx).
    assert (X : psize x <= sz l); [|lia]. clear - F. induction l as [|y l IH]; simpl; [destruct F|]. destruct F as [->|F]; [lia|]. specialize (IH F). lia.
  Qed.

  (** Above the bound there is a smaller tree that is lower by at most the bound. *)
  Lemma down :
    (forall e ts (tr : pt), dtree g e ts tr -> forall a b, w = a ++ ts ++ b -> B < height tr ->
      exists tr', dtree g e ts tr' /\ psize tr' < psize tr /\ height tr <= height tr' + B) /\
    (forall es ts (trs : list pt), dtrees g es ts trs -> forall a b, w = a ++ ts ++ b -> B < maxh trs ->
      exists trs', dtrees g es ts trs' /\ sz trs' < sz trs /\ maxh trs <= maxh trs' + B).
  Proof.
    apply dtree_dtrees_ind.
    - intros k v a b E L. exfalso. pose proof bound_labels. simpl in L. lia.
    - intros A p ts cs Pr D IH a b E L.
      destruct (le_lt_dec (maxh cs) B) as [Lm|Lm].
      + assert (Dt : dtree g (NonTerm A) ts (PBranch (pi_action_key p) cs)) by (constructor; assumption).
        destruct (proj1 (low g w) (NonTerm A) ts (PBranch (pi_action_key p) cs) Dt [] a b E (NoDup_nil _) (incl_nil_l _)) as [(tr' & D' & L')|[(C & us & tr' & [] & _)|L']].
        * exists tr'. split; [exact D'|]. split; [exact L'|]. rewrite height_branch. pose proof (height_pos tr'). lia.
        * rewrite bound_labels in L. simpl in L', L. lia.
      + destruct (IH a b E Lm) as (cs' & D' & L1 & L2). exists (PBranch (pi_action_key p) cs'). split; [constructor; assumption|].
        rewrite !height_branch. cbn [psize]. lia.
    - intros a b E L. unfold maxh in L. simpl in L. lia.
    - intros e es ts us c cs D IH Ds IHs a b E L. rewrite <- app_assoc in E.
      assert (Es : w = (a ++ ts) ++ us ++ b) by (rewrite <- app_assoc; exact E).
      destruct (le_lt_dec (maxh cs) (height c)) as [M|M].
      + destruct (IH a (us ++ b) E) as (c' & D' & L1 & L2); [unfold maxh in *; simpl in L; lia|].
        exists (c' :: cs). split; [constructor; assumption|]. unfold maxh in *. simpl in *. lia.
      + destruct (IHs (a ++ ts) b Es) as (cs' & D' & L1 & L2); [unfold maxh in *; simpl in L; lia|].
        exists (c :: cs'). split; [constructor; assumption|]. unfold maxh in *. simpl in *. lia.
  Qed.
  Lemma between e (tr : pt) : dtree g e w tr -> B < height tr -> exists tr', dtree g e w tr' /\ B < height tr' <= 2 * B.
  Proof.
    remember (psize tr) as n eqn:En. revert tr En. induction n as [n IH] using lt_wf_ind. intros tr -> D L.
    destruct (le_lt_dec (height tr) (2 * B)) as [X|X]; [exists tr; auto|].
    destruct (proj1 down e w tr D [] []) as (tr' & D' & L1 & L2); [rewrite app_nil_r; reflexivity|exact L|].
    apply (IH _ L1 tr' eq_refl D'). lia.
  Qed.
End Pump.
