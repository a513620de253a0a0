From Coq Require Import List Arith Lia Sorted FinFun.
From Verif.Model Require Import Ord BTree Outcome Grammar Nullable NonNull.
From Verif.Spec Require Import Reach Cfg NullSpec NonNullSpec BuildSpec NullSizeSpec.
From Verif.Proofs Require Import OrdFacts BTreeFacts.
Import ListNotations.
Local Open Scope nat_scope.

Lemma list_sum_le_mul {A} (f : A -> nat) l b : (forall x, In x l -> f x <= b) -> list_sum (map f l) <= length l * b.
Proof.
  induction l as [|x l IH]; intro L; [cbn; lia|]. change (list_sum (map f (x :: l))) with (f x + list_sum (map f l)). cbn [length Nat.mul].
  pose proof (L x (or_introl eq_refl)). specialize (IH (fun y I => L y (or_intror I))). lia.
Qed.
Lemma in_list_sum {A} (f : A -> nat) l x : In x l -> f x <= list_sum (map f l).
Proof.
  induction l as [|y l IH]; intros []; change (list_sum (map f (y :: l))) with (f y + list_sum (map f l)); [subst y; lia|]. specialize (IH H). lia.
Qed.

Section Size.
  Context {T NT AK AV : Type}.
  Variable g : Grammar T NT AK AV.
  Hypothesis Uniq : forall A t t', null_tree g A t -> null_tree g A t' -> t = t'.
  Variable b : nat.
  Hypothesis Wide : forall A p, prod_of g A p -> length (pi_elements p) <= b.

  Lemma null_tree_head A t : null_tree g A t -> In A (map fst (rule_set g)).
  Proof. intros [A' p ps (r & I & _) _ _ _ _]. exact (in_map fst _ _ I). Qed.

  Lemma params_count (ps : list (name * TreeValue (ProdKey NT AK) Void)) (es : list (ProdElement T NT)) :
    StronglySorted (fun a b => cmp a b = Lt) (map fst ps) ->
    (forall id v, In (id, v) ps -> exists B t, last_named es id B /\ v = TVNode t /\ null_tree g B t) -> length ps <= length es.
  Proof.
    intros S F. rewrite <- (map_length fst ps).
    assert (Nd : NoDup (map (fun n => Some n) (map fst ps))).
    { apply FinFun.Injective_map_NoDup; [intros ? ? [=]; assumption|]. clear F. induction S as [|a l S IH F]; constructor; [|exact IH].
      intro I. rewrite Forall_forall in F. specialize (F a I). rewrite cmp_refl in F. discriminate. }
    rewrite <- (map_length (fun n => Some n)). rewrite <- (map_length pe_id es). apply NoDup_incl_length; [exact Nd|].
    intros o I. apply in_map_iff in I. destruct I as (id & <- & I). apply in_map_iff in I. destruct I as ([id' v] & <- & I).
    destruct (F id' v I) as (B & t & (pre & post & -> & _) & _). rewrite map_app. apply in_or_app. right. left. reflexivity.
  Qed.

  Lemma tree_size n : forall A t anc, tree_nodes t <= n -> null_tree g A t -> NoDup (A :: anc) ->
    (forall B, In B anc -> In B (map fst (rule_set g)) /\ exists t', null_tree g B t' /\ tree_nodes t < tree_nodes t') ->
    tree_nodes t <= geometric b (length (rule_set g) - length anc).
  Proof.
    induction n as [|n IH]; intros A t anc L N Nd An; [destruct t; cbn in L; lia|].
    assert (Len : S (length anc) <= length (rule_set g)).
    { rewrite <- (map_length fst (rule_set g)). apply (NoDup_incl_length (l := A :: anc)); [exact Nd|].
      intros X [<-|I]; [exact (null_tree_head A t N)|exact (proj1 (An X I))]. }
    pose proof N as N0. destruct N as [A p ps Pp Gp S Fv Fe]. replace (length (rule_set g) - length anc) with (Datatypes.S (length (rule_set g) - length (A :: anc))) by (cbn [length]; lia).
    cbn [geometric tree_nodes]. change (1 + list_sum (map (fun p => value_nodes (snd p)) ps) <= 1 + b * geometric b (length (rule_set g) - length (A :: anc))).
    apply -> Nat.succ_le_mono. set (G := geometric b (length (rule_set g) - length (A :: anc))).
    transitivity (length ps * G); [|apply Nat.mul_le_mono_r; transitivity (length (pi_elements p)); [exact (params_count ps _ S Fv)|exact (Wide A p Pp)]].
    apply list_sum_le_mul. intros [id v] I. cbn [snd]. destruct (Fv id v I) as (B & t & Ln & -> & Nt). cbn [value_nodes].
    pose proof (in_list_sum (fun p => value_nodes (snd p)) ps (id, TVNode t) I) as Lt. cbn [snd value_nodes] in Lt.
    assert (Lt' : tree_nodes t < tree_nodes (TNode (Build_ProdKey A (pi_action_key p)) ps)) by (cbn [tree_nodes]; lia).
    apply (IH B t (A :: anc)); [cbn [tree_nodes] in L; lia|exact Nt| |].
    - constructor; [|exact Nd]. intros [E|I'].
      + subst B. rewrite (Uniq _ _ _ Nt N0) in Lt'. lia.
      + destruct (An B I') as (_ & t' & Nt' & L'). rewrite (Uniq _ _ _ Nt Nt') in *. lia.
    - intros X [<-|I'].
      + split; [exact (null_tree_head A _ N0)|]. eexists. split; [exact N0|exact Lt'].
      + destruct (An X I') as (Hd & t' & Nt' & L'). split; [exact Hd|]. exists t'. split; [exact Nt'|lia].
  Qed.
End Size.

(** *** Counting variants *)
Section Count.
  Context {T NT AK AV : Type}.
  Variable g : Grammar T NT AK AV.

  Lemma choices_listed es k : null_occurrences g es k ->
    exists fls, NoDup fls /\ length fls = 2 ^ k /\ forall fl, In fl fls <-> exists kept d, choice g es fl kept d.
  Proof.
    induction 1 as [|e t es n E _ (fls & Nd & Ln & In_)|e B es n E Ne _ (fls & Nd & Ln & In_)|e B es n E De _ (fls & Nd & Ln & In_)].
    - exists [[]]. split; [repeat constructor; intros []|]. split; [reflexivity|]. intro fl. split.
      + intros [<-|[]]. exists [], []. constructor.
      + intros (k & d & C). inversion C. left. reflexivity.
    - exists fls. split; [exact Nd|]. split; [exact Ln|]. intro fl. rewrite In_. split.
      + intros (k & d & C). exists (e :: k), d. econstructor; eassumption.
      + intros (k & d & C). inversion C; subst; [eauto|congruence|congruence].
    - exists (map (cons false) fls). split; [apply FinFun.Injective_map_NoDup; [intros ? ? [=]; assumption|exact Nd]|]. split; [rewrite map_length; exact Ln|].
      intro fl. rewrite in_map_iff. split.
      + intros (fl' & <- & I). apply In_ in I. destruct I as (k & d & C). exists (e :: k), d. econstructor; eassumption.
      + intros (k & d & C). inversion C as [|? ? ? ? ? ? Et|? ? ? fl' k' ? En Cn|? ? ? ? ? ? En Dn]; subst; [congruence| |congruence]. exists fl'. split; [reflexivity|]. apply In_. eauto.
    - exists (map (cons false) fls ++ map (cons true) fls). split; [|split].
      + assert (N1 : NoDup (map (cons false) fls)) by (apply FinFun.Injective_map_NoDup; [intros ? ? [=]; assumption|exact Nd]).
        assert (N2 : NoDup (map (cons true) fls)) by (apply FinFun.Injective_map_NoDup; [intros ? ? [=]; assumption|exact Nd]).
        assert (D : forall x, In x (map (cons false) fls) -> ~ In x (map (cons true) fls)).
        { intros x I J. apply in_map_iff in I, J. destruct I as (y & <- & _), J as (z & [=] & _). }
        revert N1 D. generalize (map (cons false) fls). intros l N1 D. induction N1 as [|x l Nx N1 IH]; [exact N2|]. cbn [app]. constructor.
        * intro I. apply in_app_or in I. destruct I as [I|I]; [exact (Nx I)|exact (D x (or_introl eq_refl) I)].
        * apply IH. intros y I. apply D. right. exact I.
      + rewrite app_length, !map_length. cbn [Nat.pow]. lia.
      + intro fl. rewrite in_app_iff, !in_map_iff. split.
        * intros [(fl' & <- & I)|(fl' & <- & I)]; apply In_ in I; destruct I as (k & d & C).
          -- exists (e :: k), d. econstructor; eassumption.
          -- exists k, (e :: d). econstructor; eassumption.
        * intros (k & d & C). inversion C as [|? ? ? ? ? ? Et|? ? ? fl' k' ? En Cn|? ? ? fl' ? d' En Dn Cn]; subst; [congruence| |].
          -- left. exists fl'. split; [reflexivity|]. apply In_. eauto.
          -- right. exists fl'. split; [reflexivity|]. apply In_. eauto.
  Qed.

  Lemma occurrences_fun es k k' : null_occurrences g es k -> null_occurrences g es k' -> k = k'.
  Proof.
    intro N. revert k'. induction N as [|e t es n E _ IH|e B es n E Ne _ IH|e B es n E De _ IH]; intros k' N'; inversion N'; subst; try congruence; auto.
  Qed.

  Lemma occurrences_exist (Dec : forall B, derives_empty g B \/ ~ derives_empty g B) es : exists k, null_occurrences g es k.
  Proof.
    induction es as [|e es (k & N)]; [exists 0; constructor|]. destruct (pe_elem e) as [t|B] eqn:E.
    - exists k. econstructor; eassumption.
    - destruct (Dec B); [exists (S k); eapply no_null; eassumption|exists k; eapply no_other; eassumption].
  Qed.

  Lemma variants_count (Dec : forall B, derives_empty g B \/ ~ derives_empty g B) p qs : variants g p qs -> variant_count g p (length qs).
  Proof.
    intros [[B ->]|(Nb & Nd & Uq & Iq)]; [left; auto|]. right. split; [exact Nb|].
    destruct (occurrences_exist Dec (pi_elements p)) as (k & No). exists k. split; [exact No|].
    destruct (choices_listed _ _ No) as (fls & Nf & <- & If).
    pose (fl := fun q : ProdInner T NT (NNActionKey AK) (NNActionValue NT AK AV) => nk_nullable_states (pi_action_key q)).
    assert (Fl : forall q, In q qs -> exists k d, choice g (pi_elements p) (fl q) k d).
    { intros q I. apply Iq in I. destruct I as (f & k' & d & C & _ & E & _). unfold fl. rewrite E. cbn. eauto. }
    assert (Nm : NoDup (map fl qs)).
    { assert (Inj : forall q q', In q qs -> In q' qs -> fl q = fl q' -> q = q').
      { intros q q' I I' E. destruct (Fl q I) as (k' & d & C). destruct (Uq _ _ _ C) as (q0 & I0 & E0 & U). rewrite (U q I eq_refl), (U q' I' (eq_sym E)). reflexivity. }
      clear - Nd Inj. induction Nd as [|q l Nq Nd IH]; [constructor|]. cbn [map]. constructor.
      - intro I. apply in_map_iff in I. destruct I as (q' & E & I). apply Nq. rewrite (Inj q q' (or_introl eq_refl) (or_intror I) (eq_sym E)). exact I.
      - apply IH. intros a c Ia Ic. apply Inj; right; assumption. }
    rewrite <- (map_length fl qs). apply Nat.le_antisymm; apply NoDup_incl_length; auto.
    - intros f I. apply in_map_iff in I. destruct I as (q & <- & I). apply If, Fl, I.
    - intros f I. apply If in I. destruct I as (k' & d & C). destruct (Uq _ _ _ C) as (q & I & E & _). rewrite <- E. apply (in_map fl), I.
  Qed.
End Count.
