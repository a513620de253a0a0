From Coq Require Import String List Arith Lia Eqdep_dec.
From Verif.Model Require Import Ord BTree Outcome TypeMap.
From Verif.Spec Require Import TypeMapSpec.
From Verif.Proofs Require Import OrdFacts BTreeFacts.
Import ListNotations.

Section AppendPre.
  Context {K V : Type} `{TotalPre K}.
  Lemma bt_append_get_pre x (m other : btmap K V) :
    msorted other ->
    bt_get x (bt_append m other) = match bt_get x other with Some v => Some v | None => bt_get x m end.
  Proof.
    unfold bt_append, msorted. revert m. induction other as [|[k v] other IH]; simpl; intros m S.
    - reflexivity.
    - destruct (sorted_inv _ _ S) as [S' F]. rewrite Forall_forall in F.
      rewrite IH by exact S'. rewrite bt_get_insert. unfold eqb. destruct (cmp x k) eqn:C; try reflexivity.
      destruct (bt_get x other) as [v'|] eqn:G; [|reflexivity]. exfalso.
      apply bt_get_Some_In in G. destruct G as (k1 & I & E). specialize (F k1 (in_map fst _ _ I)).
      rewrite (cmp_eq_compat _ _ k1 C) in E. congruence.
  Qed.
  Lemma bt_append_sorted_pre (m other : btmap K V) : msorted m -> msorted (bt_append m other).
  Proof.
    unfold bt_append. revert m. induction other as [|[k v] other IH]; simpl; intros m S; [exact S|].
    apply IH. apply bt_insert_sorted. exact S.
  Qed.
End AppendPre.

Section TM.
  Context {U : Type} `{OrdEq U} (U_dec : forall a b : U, {a = b} + {a <> b}).
  Context (Key : U -> Type) (KeyOrd : forall u, Ord (Key u)) (KeyPre : forall u, @TotalPre (Key u) (KeyOrd u)).
  Context {W : Type} (W_dec : forall a b : W, {a = b} + {a <> b}) (Vt : W -> Type) (vty : U -> W).

  Local Notation key_obj := (key_obj Key).
  Local Notation downcast := (downcast W_dec Vt).
  Local Notation downcast_key := (downcast_key U_dec Key).
  Local Instance OKO : Ord key_obj := cmp_concrete U_dec Key KeyOrd.

  Lemma downcast_key_eq (a b : key_obj) : cmp (projT1 a) (projT1 b) = Eq -> downcast_key b (projT1 a) <> None.
  Proof.
    intro E. apply cmp_eq in E. unfold TypeMap.downcast_key. destruct (U_dec (projT1 b) (projT1 a)); congruence.
  Qed.
  Lemma downcast_key_same u (k : Key u) : downcast_key (existT _ u k) u = Some k.
  Proof.
    unfold TypeMap.downcast_key. simpl. destruct (U_dec u u) as [e|]; [|congruence].
    rewrite (UIP_dec U_dec e eq_refl). reflexivity.
  Qed.
  Lemma downcast_same w (v : Vt w) : downcast (existT _ w v) w = Some v.
  Proof.
    unfold TypeMap.downcast. simpl. destruct (W_dec w w) as [e|]; [|congruence].
    rewrite (UIP_dec W_dec e eq_refl). reflexivity.
  Qed.

  Lemma cmp_same_type u (a b : Key u) : cmp (existT _ u a : key_obj) (existT _ u b) = KeyOrd u a b.
  Proof.
    unfold cmp at 1, OKO, cmp_concrete. simpl. rewrite cmp_refl, downcast_key_same. reflexivity.
  Qed.
  Lemma cmp_other_type u u' (a : Key u) (b : Key u') : u <> u' -> cmp (existT _ u a : key_obj) (existT _ u' b) = cmp u u'.
  Proof.
    intro N. unfold cmp at 1, OKO, cmp_concrete. simpl. destruct (cmp u u') eqn:E; try reflexivity.
    apply cmp_eq in E. contradiction.
  Qed.

  #[local] Instance KO_pre : @TotalPre key_obj OKO.
  Proof.
    constructor.
    - intros [u a]. rewrite cmp_same_type. apply (@cmp_refl _ _ (KeyPre u)).
    - intros [u a] [u' b]. destruct (U_dec u u') as [<-|N].
      + rewrite !cmp_same_type. apply (@cmp_sym _ _ (KeyPre u)).
      + rewrite !cmp_other_type by congruence. apply cmp_sym.
    - intros [u a] [u' b] [u'' c]. destruct (U_dec u u') as [<-|N].
      + destruct (U_dec u u'') as [<-|N'].
        * rewrite !cmp_same_type. apply (@cmp_lt_trans _ _ (KeyPre u)).
        * rewrite cmp_same_type, !cmp_other_type by congruence. auto.
      + rewrite (cmp_other_type u u') by congruence. destruct (U_dec u' u'') as [<-|N'].
        * rewrite cmp_same_type, !cmp_other_type by congruence. auto.
        * rewrite (cmp_other_type u' u'') by congruence. intros A B. destruct (U_dec u u'') as [<-|N''].
          -- exfalso. pose proof (cmp_lt_trans _ _ _ A B). apply (cmp_lt_irrefl u). assumption.
          -- rewrite cmp_other_type by congruence. exact (cmp_lt_trans _ _ _ A B).
    - intros [u a] [u' b] [u'' c]. destruct (U_dec u u') as [<-|N].
      + rewrite cmp_same_type. intro E. destruct (U_dec u u'') as [<-|N'].
        * rewrite !cmp_same_type. apply (@cmp_eq_compat _ _ (KeyPre u)). exact E.
        * rewrite !cmp_other_type by congruence. reflexivity.
      + rewrite cmp_other_type by congruence. intro E. apply cmp_eq in E. contradiction.
  Qed.

  Local Notation tm := (TypeMap Key Vt).
  Local Notation am := (amap Key Vt vty).
  Definition rep (m : tm) (M : am) : Prop :=
    msorted (H := OKO) m /\ forall u k,
      bt_get (existT _ u k : key_obj) m = option_map (fun v => existT Vt (vty u) v) (M u k).

  Lemma rep_get m M u k : rep m M -> tm_get U_dec Key KeyOrd W_dec Vt vty m u k = Ret (M u k).
  Proof.
    intros [_ G]. unfold tm_get. change (Ord_key_obj U_dec Key KeyOrd) with OKO. rewrite G. destruct (M u k) as [v|]; simpl; [|reflexivity].
    rewrite downcast_same. reflexivity.
  Qed.

  Lemma rep_insert m M u k v : rep m M ->
    rep (bt_insert (existT _ u k : key_obj) (existT Vt (vty u) v) m) (a_insert U_dec Key KeyOrd Vt vty M u k v).
  Proof.
    intros [S G]. split; [apply bt_insert_sorted; exact S|]. intros u' k'. rewrite bt_get_insert. unfold a_insert, eqb.
    destruct (U_dec u u') as [e|N].
    - destruct e. rewrite cmp_same_type. destruct (KeyOrd u k' k); try apply G. reflexivity.
    - rewrite cmp_other_type by congruence. destruct (cmp u' u) eqn:E; try apply G. apply cmp_eq in E. congruence.
  Qed.

  Lemma rep_merge m M o O : rep m M -> rep o O -> rep (bt_append m o) (a_merge Key Vt vty M O).
  Proof.
    intros [S G] [S' G']. split; [apply bt_append_sorted_pre; exact S|]. intros u k.
    rewrite bt_append_get_pre by exact S'. rewrite G, G'. unfold a_merge. destruct (O u k); reflexivity.
  Qed.

  Lemma rep_new : rep [] (a_new Key Vt vty).
  Proof. split; [constructor|]. reflexivity. Qed.

  Lemma Forall2_set l L i m M : Forall2 rep l L -> rep m M -> Forall2 rep (tm_set Key Vt l i m) (a_set Key Vt vty L i M).
  Proof.
    intro F. revert i. induction F as [|x X l L R F IH]; intros [|i] Rm; simpl; constructor; auto.
  Qed.
  Lemma Forall2_nth l L i : Forall2 rep l L ->
    match nth_error l i, nth_error L i with Some m, Some M => rep m M | None, None => True | _, _ => False end.
  Proof. intro F. revert i. induction F as [|x X l L R F IH]; intros [|i]; simpl; [exact I|exact I|exact R|exact (IH i)]. Qed.

  Local Notation step := (tm_step U_dec Key KeyOrd W_dec Vt vty).
  Local Notation exec := (tm_exec U_dec Key KeyOrd W_dec Vt vty).
  Local Notation astep := (a_step U_dec Key KeyOrd Vt vty).
  Local Notation aexec := (a_exec U_dec Key KeyOrd Vt vty).

  Lemma set_same L i M : nth_error L i = Some M -> a_set Key Vt vty L i M = L.
  Proof. revert i. induction L as [|x L IH]; intros [|i]; simpl; try discriminate; [congruence|]. intro E. f_equal. auto. Qed.
  Lemma tset_same l i m : nth_error l i = Some m -> tm_set Key Vt l i m = l.
  Proof. revert i. induction l as [|x L IH]; intros [|i]; simpl; try discriminate; [congruence|]. intro E. f_equal. auto. Qed.

  Lemma step_ok l L op : Forall2 rep l L ->
    exists l', step l op = Ret (fst (astep L op), l') /\ Forall2 rep l' (snd (astep L op)).
  Proof.
    intro F. destruct op as [|i u k v|i u k|i u k f|i j]; simpl.
    - eexists. split; [reflexivity|]. apply Forall2_app; [exact F|]. constructor; [apply rep_new|constructor].
    - pose proof (Forall2_nth l L i F) as N. destruct (nth_error l i) as [m|], (nth_error L i) as [M|]; try contradiction; simpl.
      + eexists. split; [reflexivity|]. apply Forall2_set; [exact F|]. apply rep_insert. exact N.
      + eauto.
    - pose proof (Forall2_nth l L i F) as N. destruct (nth_error l i) as [m|], (nth_error L i) as [M|]; try contradiction; simpl.
      + rewrite (rep_get m M u k N). simpl. eauto.
      + eauto.
    - pose proof (Forall2_nth l L i F) as N. destruct (nth_error l i) as [m|] eqn:El, (nth_error L i) as [M|]; try contradiction; simpl.
      + unfold tm_get_mut. change (Ord_key_obj U_dec Key KeyOrd) with OKO. pose proof N as [_ G]. rewrite G.
        destruct (M u k) as [x|] eqn:Em; simpl.
        * rewrite downcast_same. simpl. eexists. split; [reflexivity|]. apply Forall2_set; [exact F|]. apply rep_insert. exact N.
        * eexists. split; [reflexivity|]. rewrite tset_same; assumption.
      + eauto.
    - destruct (Nat.eqb i j); simpl; [eauto|].
      pose proof (Forall2_nth l L i F) as N. pose proof (Forall2_nth l L j F) as N'.
      destruct (nth_error l i) as [m|], (nth_error L i) as [M|]; try contradiction; simpl; [|eauto].
      destruct (nth_error l j) as [o|], (nth_error L j) as [O|]; try contradiction; simpl; [|eauto].
      eexists. split; [reflexivity|]. apply Forall2_set; [|apply rep_new]. apply Forall2_set; [exact F|].
      apply rep_merge; assumption.
  Qed.

  Lemma exec_ok ops : forall l L, Forall2 rep l L ->
    exists l', exec l ops = Ret (fst (aexec L ops), l') /\ Forall2 rep l' (snd (aexec L ops)).
  Proof.
    induction ops as [|op ops IH]; intros l L F; simpl; [eauto|].
    destruct (step_ok l L op F) as (l1 & R & F1). rewrite R. simpl. destruct (astep L op) as [o L1]. simpl in *.
    destruct (IH l1 L1 F1) as (l2 & R2 & F2). rewrite R2. simpl. destruct (aexec L1 ops) as [o2 L2]. eauto.
  Qed.

  Lemma typemap_refines ops : exists l', exec [] ops = Ret (fst (aexec [] ops), l').
  Proof. destruct (exec_ok ops [] [] (Forall2_nil _)) as (l' & R & _). eauto. Qed.
End TM.
