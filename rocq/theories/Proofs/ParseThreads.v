(** A thread that parses while other threads use the tree: its view of the executions of Model/RwLock.v. *)
From Coq Require Import String List Arith Bool Lia.
From Verif.Model Require Import Ord BTree Outcome Utils Grammar StartGrammar Tokens Tree State Earley EarleyShared RwLock.
From Verif.Spec Require Import Reach TreeSpec RwLockSpec EarleySpec ShareSpec ThreadParseSpec.
From Verif.Proofs Require Import OrdFacts BTreeFacts LoopFacts GrammarFacts UtilsFacts TreeFacts TreeHist EarleyRun EarleyShare RwLockSafe RwLockInv.
Import ListNotations.

Section Lin.
  Context {T AK V : Type} `{OrdEq T} `{OrdEq AK} `{OrdEq V}.
  Local Notation tree := (Inner T AK V).
  Local Notation wld := (world T AK V).
  Local Notation hist := (history T AK V).
  Local Notation op := (tr_op T AK V).
  Local Notation val := (tr_val T AK V).
  Local Notation ev := (lin_event T AK V).
  Local Notation lst := (list ev).

  (** The call a thread is in, with its effects so far. *)
  Fixpoint cur (i : nat) (L : lst) : option (op * hist) :=
    match L with
    | [] => None
    | LCall j o :: L' => if Nat.eqb i j then Some (o, []) else cur i L'
    | LEffect j o r :: L' =>
        if Nat.eqb i j then match cur i L' with Some (o', d) => Some (o', (o, r) :: d) | None => None end else cur i L'
    | LRet j _ _ :: L' => if Nat.eqb i j then None else cur i L'
    end.
  Lemma lin_cur (L : lst) st : lin L st -> forall i, st i = cur i L.
  Proof.
    induction 1 as [|L st j o Ln IH Ns|L st j o d o1 r1 Ln IH Es P|L st j o d r Ln IH Es P]; intro i; simpl; [reflexivity| | |];
      unfold RwLock.upd; destruct (Nat.eqb_spec i j) as [->|]; auto.
    pose proof (IH j) as X. rewrite Es in X. rewrite <- X. reflexivity.
  Qed.
  Definition okL (L : lst) : Prop := exists st, lin L st.
  Definition ev_ok (e : ev) (L : lst) : Prop :=
    match e with
    | LCall j o => cur j L = None
    | LEffect j o' r' => exists o d, cur j L = Some (o, d) /\ exists r more, parts o r (rev d ++ (o', r') :: more)
    | LRet j o r => exists d, cur j L = Some (o, d) /\ parts o r (rev d)
    end.
  Lemma ok_inv e (L : lst) : okL (e :: L) -> okL L /\ ev_ok e L.
  Proof.
    intros (st & Ln). inversion Ln as [|L0 st0 j o Ln0 Ns|L0 st0 j o d o' r' Ln0 Es P|L0 st0 j o d r Ln0 Es P]; subst; (split; [exists st0; exact Ln0|]);
      rewrite (lin_cur _ _ Ln0 j) in *; simpl; eauto 8.
  Qed.
  Lemma ok_app (A B : lst) : okL (A ++ B) -> okL B.
  Proof. induction A as [|e A IH]; simpl; intro O; [exact O|]. apply IH. exact (proj1 (ok_inv _ _ O)). Qed.

  Definition who (e : ev) : nat := match e with LCall j _ | LEffect j _ _ | LRet j _ _ => j end.
  Definition none_of (i : nat) (M : lst) : Prop := forall e, In e M -> who e <> i.
  Lemma cur_none i (M L : lst) : none_of i M -> cur i (M ++ L) = cur i L.
  Proof.
    induction M as [|e M IH]; simpl; intro N; [reflexivity|].
    assert (Ne : i <> who e) by (intro X; apply (N e (or_introl eq_refl)); auto).
    specialize (IH (fun x X => N x (or_intror X))). destruct e; simpl in *; rewrite (proj2 (Nat.eqb_neq _ _) Ne); exact IH.
  Qed.
  Definition log_of (i : nat) (A : lst) : list (op * outcome val) :=
    rev (flat_map (fun e => match e with LRet j o r => if Nat.eqb j i then [(o, r)] else [] | _ => [] end) A).
  Lemma log_app i A B : log_of i (A ++ B) = log_of i B ++ log_of i A.
  Proof. unfold log_of. rewrite flat_map_app, rev_app_distr. reflexivity. Qed.
  Lemma log_none i M : none_of i M -> log_of i M = [].
  Proof.
    intro N. unfold log_of. assert (X : flat_map (fun e : ev => match e with LRet j o r => if Nat.eqb j i then [(o, r)] else [] | _ => [] end) M = []); [|rewrite X; reflexivity].
    induction M as [|e M IH]; [reflexivity|]. simpl. rewrite IH; [|intros x X; apply N; right; exact X].
    pose proof (N e (or_introl eq_refl)) as Ne. destruct e; try reflexivity. simpl in Ne. rewrite (proj2 (Nat.eqb_neq _ _) Ne). reflexivity.
  Qed.
  Lemma log_In i A o r : In (o, r) (log_of i A) -> In (LRet i o r) A.
  Proof.
    unfold log_of. intro J. apply in_rev in J. apply in_flat_map in J. destruct J as (e & J & K). destruct e; try destruct K.
    destruct (Nat.eqb_spec i0 i) as [->|]; [|destruct K]. destruct K as [[= -> ->]|[]]. exact J.
  Qed.
  Lemma log_erase i A : log_of i A = calls_of i (erase A).
  Proof.
    unfold log_of, calls_of, erase. f_equal. induction A as [|e A IH]; [reflexivity|]. destruct e; simpl; [exact IH|exact IH|]. rewrite IH. reflexivity.
  Qed.
  (** The next event of a thread. *)
  Lemma who_split i (A : lst) : none_of i A \/ exists A' e M, A = A' ++ e :: M /\ who e = i /\ none_of i M.
  Proof.
    induction A as [|a A IH]; [left; intros e []|]. destruct IH as [N|(A' & e & M & -> & W & N)].
    - destruct (Nat.eq_dec (who a) i) as [E|E].
      + right. exists [], a, A. auto.
      + left. intros e [<-|J]; [exact E|apply N; exact J].
    - right. exists (a :: A'), e, M. auto.
  Qed.

  (** *** What a thread does from its call to its return *)
  Section Phase.
    Variable i : nat.
    Lemma log_head A B o d o' r s : okL (A ++ B) -> cur i B = Some (o, d) -> log_of i A = (o', r) :: s -> o' = o.
    Proof.
      revert B d. induction A as [|e A IH] using rev_ind; intros B d O C Lg; [discriminate|].
      rewrite <- app_assoc in O. simpl in O. pose proof (ok_inv _ _ (ok_app _ _ O)) as [_ K]. rewrite log_app in Lg.
      destruct e as [j o1|j o1 r1|j o1 r1]; cbn [log_of flat_map rev app] in Lg.
      - destruct (Nat.eqb_spec i j) as [<-|N]; [simpl in K; congruence|]. apply (IH (LCall j o1 :: B) d O); [|exact Lg]. simpl. rewrite (proj2 (Nat.eqb_neq _ _) N). exact C.
      - destruct (Nat.eqb_spec i j) as [<-|N].
        + apply (IH (LEffect i o1 r1 :: B) ((o1, r1) :: d) O); [|exact Lg]. simpl. rewrite Nat.eqb_refl, C. reflexivity.
        + apply (IH (LEffect j o1 r1 :: B) d O); [|exact Lg]. simpl. rewrite (proj2 (Nat.eqb_neq _ _) N). exact C.
      - unfold log_of in Lg at 1. cbn [flat_map] in Lg. destruct (Nat.eqb_spec j i) as [->|N].
        + cbn in Lg. injection Lg as <- _ _. destruct K as (d0 & C0 & _). congruence.
        + apply (IH (LRet j o1 r1 :: B) d O); [|exact Lg]. simpl. destruct (Nat.eqb_spec i j); [congruence|]. exact C.
    Qed.
    Lemma call_phase A B o r s : okL (A ++ B) -> cur i B = None -> log_of i A = (o, r) :: s ->
      exists A' M, A = A' ++ LCall i o :: M /\ none_of i M /\ log_of i A' = (o, r) :: s /\ cur i (LCall i o :: M ++ B) = Some (o, []).
    Proof.
      intros O C Lg. destruct (who_split i A) as [N|(A' & e & M & -> & W & N)]; [rewrite (log_none _ _ N) in Lg; discriminate|].
      rewrite <- app_assoc in O. simpl in O. pose proof (ok_inv _ _ (ok_app _ _ O)) as [_ K]. rewrite log_app in Lg.
      assert (Cm : cur i (M ++ B) = None) by (rewrite cur_none by exact N; exact C).
      destruct e as [j o1|j o1 r1|j o1 r1]; simpl in W; subst j; simpl in K.
      - change (LCall i o1 :: M) with ([LCall i o1] ++ M) in Lg. rewrite log_app, (log_none _ _ N) in Lg. simpl in Lg.
        assert (Cc : cur i (LCall i o1 :: M ++ B) = Some (o1, [])) by (simpl; rewrite Nat.eqb_refl; reflexivity).
        assert (o = o1) as ->. { eapply log_head; [exact O|exact Cc|exact Lg]. }
        exists A', M. auto.
      - destruct K as (? & ? & K & _). congruence.
      - destruct K as (? & K & _). congruence.
    Qed.
    Lemma run_phase A B o d r s : okL (A ++ B) -> cur i B = Some (o, d) -> log_of i A = (o, r) :: s ->
      exists A' e M, A = A' ++ e :: M /\ none_of i M /\
        ((e = LRet i o r /\ parts o r (rev d) /\ log_of i A' = s /\ cur i (e :: M ++ B) = None) \/
         (exists o' r', e = LEffect i o' r' /\ (exists r0 more, parts o r0 (rev d ++ (o', r') :: more)) /\
            log_of i A' = (o, r) :: s /\ cur i (e :: M ++ B) = Some (o, (o', r') :: d))).
    Proof.
      intros O C Lg. destruct (who_split i A) as [N|(A' & e & M & -> & W & N)]; [rewrite (log_none _ _ N) in Lg; discriminate|].
      rewrite <- app_assoc in O. simpl in O. pose proof (ok_inv _ _ (ok_app _ _ O)) as [_ K].
      change (e :: M) with ([e] ++ M) in Lg. rewrite !log_app, (log_none _ _ N) in Lg. cbn [app] in Lg.
      assert (Cm : cur i (M ++ B) = Some (o, d)) by (rewrite cur_none by exact N; exact C).
      exists A', e, M. split; [reflexivity|]. split; [exact N|].
      destruct e as [j o1|j o1 r1|j o1 r1]; simpl in W; subst j; simpl in K.
      - congruence.
      - right. exists o1, r1. split; [reflexivity|]. destruct K as (o0 & d0 & C0 & P). rewrite Cm in C0. injection C0 as <- <-.
        split; [exact P|]. split; [exact Lg|]. simpl. rewrite Nat.eqb_refl, Cm. reflexivity.
      - left. destruct K as (d0 & C0 & P). rewrite Cm in C0. injection C0 as <- <-. unfold log_of in Lg at 1. cbn in Lg. rewrite Nat.eqb_refl in Lg. cbn in Lg.
        injection Lg as <- Lg. split; [reflexivity|]. split; [exact P|]. split; [exact Lg|]. simpl. rewrite Nat.eqb_refl. reflexivity.
    Qed.

    (** [make_leaf_node], [make_branch_node]: which alternative they make. *)
    Definition alt_op (o : op) (h : TreeHandle) (oc : op) : Prop :=
      match o with
      | TMakeLeafNode h' k v => h' = h /\ oc = TMakeLeafAlt h k v
      | TMakeBranchNode h' x ns => h' = h /\ oc = TMakeBranchAlt h x ns
      | _ => False
      end.
    Lemma parts_make o h oc r l : alt_op o h oc -> parts o r l ->
      exists n, match l with
      | [] => False
      | [_] => False
      | [e1; e2] => e1 = (TMakeNode h, Ret (RNode n)) /\ exists m, r = Panic m /\ e2 = (oc, Panic m)
      | [e1; e2; e3] => r = Ret (RNode n) /\ e1 = (TMakeNode h, Ret (RNode n)) /\ exists a c, e2 = (oc, Ret (RAlt a)) /\ e3 = (TAddAlt n a, Ret (RChanged c))
      | _ => False
      end.
    Proof.
      intros A P. destruct P as [o r N1 N2|h' k v n a c|h' x ns n a c|h' x ns n m]; simpl in A.
      - destruct o; simpl in A; try contradiction; exfalso; [eapply N1|eapply N2]; reflexivity.
      - destruct A as [-> ->]. exists n. eauto 6.
      - destruct A as [-> ->]. exists n. eauto 6.
      - destruct A as [-> ->]. exists n. eauto 6.
    Qed.
    Lemma make_shape A B o h oc n s : okL (A ++ B) -> cur i B = None -> alt_op o h oc -> log_of i A = (o, Ret (RNode n)) :: s ->
      exists A' M0 M1 M2 M3 M4 a c,
        A = A' ++ LRet i o (Ret (RNode n)) :: M4 ++ LEffect i (TAddAlt n a) (Ret (RChanged c)) :: M3 ++ LEffect i oc (Ret (RAlt a)) :: M2 ++
              LEffect i (TMakeNode h) (Ret (RNode n)) :: M1 ++ LCall i o :: M0 /\
        none_of i M0 /\ none_of i M1 /\ none_of i M2 /\ none_of i M3 /\ none_of i M4 /\ log_of i A' = s.
    Proof.
      intros O C Ao Lg. destruct (call_phase A B o _ s O C Lg) as (A1 & M0 & -> & N0 & L1 & C1). clear Lg C.
      rewrite <- app_assoc in O. cbn [app] in O. change (LCall i o :: M0 ++ B) with ((LCall i o :: M0) ++ B) in O.
      destruct (run_phase A1 _ o [] _ s O C1 L1) as (A2 & e1 & M1 & -> & N1 & [(-> & P & _ & _)|(o1 & r1 & -> & (r0 & more & P) & L2 & C2)]).
      { destruct (parts_make _ _ _ _ _ Ao P) as (? & []). }
      clear L1 C1. rewrite <- app_assoc in O. cbn [app] in O.
      assert (X : exists n1, (o1, r1) = (TMakeNode h, Ret (RNode n1))).
      { destruct (parts_make _ _ _ _ _ Ao P) as (n1 & Q). exists n1. simpl in Q. destruct more as [|? [|? [|]]]; simpl in Q; try contradiction; destruct Q as (Q1 & Q2); [exact Q1|exact (proj1 Q2)]. }
      destruct X as (n1 & [= -> ->]). clear P.
      destruct (run_phase A2 _ o _ _ s O C2 L2) as (A3 & e2 & M2 & -> & N2 & [(-> & P & _ & _)|(o2 & r2 & -> & (r0' & more' & P) & L3 & C3)]).
      { destruct (parts_make _ _ _ _ _ Ao P) as (? & []). }
      clear L2 C2. rewrite <- app_assoc in O. cbn [app] in O. clear r0 more.
      assert (X : o2 = oc /\ ((exists m, r2 = Panic m) \/ exists a, r2 = Ret (RAlt a))).
      { destruct (parts_make _ _ _ _ _ Ao P) as (n2 & Q). simpl in Q. destruct more' as [|? [|]]; simpl in Q; try contradiction.
        - destruct Q as (_ & m & _ & [= -> ->]). eauto.
        - destruct Q as (_ & _ & a & c & [= -> ->] & _). eauto. }
      destruct X as (-> & R2). clear P.
      destruct (run_phase A3 _ o _ _ s O C3 L3) as (A4 & e3 & M3 & -> & N3 & [(-> & P & _ & _)|(o3 & r3 & -> & (r0 & more & P) & L4 & C4)]).
      { destruct (parts_make _ _ _ _ _ Ao P) as (n2 & Q). simpl in Q. destruct Q as (_ & m & Q & _). discriminate. }
      clear L3 C3. rewrite <- app_assoc in O. cbn [app] in O.
      assert (X : exists a c, r2 = Ret (RAlt a) /\ (o3, r3) = (TAddAlt n1 a, Ret (RChanged c))).
      { destruct (parts_make _ _ _ _ _ Ao P) as (n2 & Q). simpl in Q. destruct more; simpl in Q; [|contradiction].
        destruct Q as (_ & [= ->] & a & c & [= ->] & Q). eauto. }
      destruct X as (a & c & -> & [= -> ->]). clear P R2.
      destruct (run_phase A4 _ o _ _ s O C4 L4) as (A5 & e4 & M4 & -> & N4 & [(-> & P & L5 & _)|(o4 & r4 & -> & (r0'' & more'' & P) & _ & _)]).
      2: { destruct (parts_make _ _ _ _ _ Ao P) as (n2 & Q). simpl in Q. contradiction. }
      destruct (parts_make _ _ _ _ _ Ao P) as (n2 & Q). simpl in Q. destruct Q as ([= ->] & [= ->] & _).
      exists A5, M0, M1, M2, M3, M4, a, c. split; [repeat (rewrite <- app_assoc; cbn [app]); reflexivity|]. auto 8.
    Qed.
    Lemma add_shape A B n m r s : okL (A ++ B) -> cur i B = None -> log_of i A = (TAddAll n m, r) :: s ->
      exists A' M0 M1 M2, A = A' ++ LRet i (TAddAll n m) r :: M2 ++ LEffect i (TAddAll n m) r :: M1 ++ LCall i (TAddAll n m) :: M0 /\
        none_of i M0 /\ none_of i M1 /\ none_of i M2 /\ log_of i A' = s.
    Proof.
      intros O C Lg. destruct (call_phase A B _ _ s O C Lg) as (A1 & M0 & -> & N0 & L1 & C1). clear Lg C.
      rewrite <- app_assoc in O. cbn [app] in O.
      destruct (run_phase A1 _ _ [] _ s O C1 L1) as (A2 & e1 & M1 & -> & N1 & [(-> & P & _ & _)|(o1 & r1 & -> & (r0 & more & P) & L2 & C2)]).
      { inversion P. }
      clear L1 C1. rewrite <- app_assoc in O. cbn [app] in O. simpl in P.
      assert ((o1, r1) = (TAddAll n m, r0)) as [= -> ->]. { inversion P; subst. reflexivity. } clear P.
      destruct (run_phase A2 _ _ _ _ s O C2 L2) as (A3 & e2 & M2 & -> & N2 & [(-> & P & L3 & _)|(o2 & r2 & -> & (r0' & more' & P) & L3 & C3)]).
      2: { simpl in P. inversion P; subst; discriminate. }
      assert (r = r0) as ->. { simpl in P. inversion P; subst. reflexivity. }
      exists A3, M0, M1, M2. split; [repeat (rewrite <- app_assoc; cbn [app]); reflexivity|]. auto.
    Qed.
    Lemma cur_stays A0 B0 x : okL (A0 ++ B0) -> log_of i A0 = [] -> cur i B0 = Some x -> exists y, cur i (A0 ++ B0) = Some y.
    Proof.
      intros O Lg Cx. induction A0 as [|e A0 IH]; [eauto|].
      change (e :: A0) with ([e] ++ A0) in Lg. rewrite log_app in Lg. apply app_eq_nil in Lg. destruct Lg as [Lg1 Lg2].
      destruct (IH (proj1 (ok_inv _ _ O)) Lg1) as (y & Cy). destruct e as [j o|j o r|j o r]; simpl.
      - destruct (Nat.eqb i j); eauto.
      - destruct (Nat.eqb i j); [rewrite Cy; destruct y|]; eauto.
      - unfold log_of in Lg2. cbn in Lg2. destruct (Nat.eqb_spec j i) as [->|Nj]; [discriminate|]. destruct (Nat.eqb_spec i j); [congruence|eauto].
    Qed.
    (** A call is followed by its return if the thread is between two calls in the end. *)
    Lemma returns_later E L o : okL (E ++ L) -> cur i (E ++ L) = None -> In (LCall i o) E -> exists r, In (o, r) (log_of i E).
    Proof.
      intros O C J. apply in_split in J. destruct J as (A & B & ->). rewrite <- app_assoc in O, C. cbn [app] in O, C.
      assert (Cc : cur i (LCall i o :: B ++ L) = Some (o, [])) by (simpl; rewrite Nat.eqb_refl; reflexivity).
      destruct (log_of i A) as [|[o' r] s] eqn:Lg.
      - destruct (cur_stays A _ _ O Lg Cc) as (y & Cy). congruence.
      - rewrite (log_head A _ o [] o' r s O Cc Lg) in Lg. exists r. rewrite log_app, Lg. apply in_or_app. right. left. reflexivity.
    Qed.
    Lemma end_phase A B : okL (A ++ B) -> cur i B = None -> log_of i A = [] -> cur i (A ++ B) = None -> none_of i A.
    Proof.
      intros O C Lg Cf. destruct (who_split i A) as [N|(A' & e & M & -> & W & N)]; [exact N|]. exfalso.
      rewrite <- app_assoc in O, Cf. simpl in O, Cf. pose proof (ok_inv _ _ (ok_app _ _ O)) as [_ K].
      assert (Cm : cur i (M ++ B) = None) by (rewrite cur_none by exact N; exact C).
      rewrite log_app in Lg. apply app_eq_nil in Lg. destruct Lg as [Lg1 Lg2].
      destruct e as [j o1|j o1 r1|j o1 r1]; simpl in W; subst j; simpl in K.
      - destruct (cur_stays A' (LCall i o1 :: M ++ B) (o1, []) O Lg2) as (y & Cy); [simpl; rewrite Nat.eqb_refl; reflexivity|]. congruence.
      - destruct K as (? & ? & K & _). congruence.
      - destruct K as (? & K & _). congruence.
    Qed.
  End Phase.
End Lin.

Section World.
  Context {T AK V : Type} `{OrdEq T} `{OrdEq AK} `{OrdEq V}.
  Local Notation tree := (Inner T AK V).
  Local Notation wld := (world T AK V).
  Local Notation hist := (history T AK V).
  Local Notation op := (tr_op T AK V).
  Local Notation val := (tr_val T AK V).
  Implicit Types (w : wld) (t : tree) (h : TreeHandle).

  Lemma set_same w h t t' : nth_error w h = Some t -> nth_error (w_set w h t') h = Some t'.
  Proof. intro E. unfold w_set. rewrite nth_list_set, Nat.eqb_refl, E. reflexivity. Qed.
  Lemma make_node_step w h t n w' : nth_error w h = Some t -> tr_step w (TMakeNode h) = (Ret (RNode n), w') ->
    nd_inner n = h /\ exists t', in_make_node t = (nd_index n, t') /\ nth_error w' h = Some t'.
  Proof.
    intros E. cbn [tr_step]. unfold w_make_node, with_. rewrite E. cbn [expect on]. destruct (in_make_node t) as [k t'] eqn:Em. cbn [rmap].
    intros [= <- <-]. cbn [nd_inner nd_index]. split; [reflexivity|]. exists t'. split; [reflexivity|]. exact (set_same _ _ _ _ E).
  Qed.
  Definition oc_content (oc : op) (h : TreeHandle) (c : ContentInner T AK V) : Prop :=
    match oc with
    | TMakeLeafAlt h' k v => h' = h /\ c = CLeaf k v
    | TMakeBranchAlt h' x ns => h' = h /\ (forall n, In n ns -> nd_inner n = h) /\ c = CBranch x (map nd_index ns)
    | _ => False
    end.
  Lemma make_alt_step w h t oc c a w' : nth_error w h = Some t -> oc_content oc h c -> tr_step w oc = (Ret (RAlt a), w') ->
    al_inner a = h /\ exists t', in_make_alt t c = (al_index a, t') /\ nth_error w' h = Some t'.
  Proof.
    intros E O. assert (X : tr_step w oc = rmap RAlt (w_make_alt w h c)).
    { destruct oc; simpl in O; try contradiction.
      - destruct O as [-> ->]. reflexivity.
      - destruct O as (-> & F & ->). cbn [tr_step]. unfold w_make_branch_alt. unfold with_ at 1. rewrite E. cbn [expect on].
        rewrite (collect_ok h nodes F). reflexivity. }
    rewrite X. unfold w_make_alt, with_. rewrite E. cbn [expect on]. destruct (in_make_alt t c) as [k t'] eqn:Em. cbn [rmap].
    intros [= <- <-]. cbn [al_inner al_index]. split; [reflexivity|]. exists t'. split; [reflexivity|]. exact (set_same _ _ _ _ E).
  Qed.
  Lemma add_alt_step w h t n a c w' : nth_error w h = Some t -> nd_inner n = h -> tr_step w (TAddAlt n a) = (Ret (RChanged c), w') ->
    exists t', in_add_node_alt (nd_index n) (al_index a) t = Ret (c, t') /\ nth_error w' h = Some t'.
  Proof.
    intros E In_. cbn [tr_step]. unfold w_add_alt. destruct (assert_ _ _) as [[]|?|]; cbn [on rmap]; [|discriminate|discriminate].
    unfold with_. rewrite In_, E. cbn [expect on]. destruct (in_add_node_alt (nd_index n) (al_index a) t) as [[c0 t']|?|] eqn:Em; cbn [on rmap]; [|discriminate|discriminate].
    intros [= <- <-]. exists t'. split; [reflexivity|]. exact (set_same _ _ _ _ E).
  Qed.
  Lemma add_all_step w h t n m c w' : nth_error w h = Some t -> nd_inner n = h -> tr_step w (TAddAll n m) = (Ret (RChanged c), w') ->
    exists t', in_add_all (nd_index n) (nd_index m) t = Ret (c, t') /\ nth_error w' h = Some t'.
  Proof.
    intros E In_. cbn [tr_step]. unfold w_add_all. destruct (assert_ _ _) as [[]|?|]; cbn [on rmap]; [|discriminate|discriminate].
    unfold with_. rewrite In_, E. cbn [expect on]. destruct (in_add_all (nd_index n) (nd_index m) t) as [[c0 t']|?|] eqn:Em; cbn [on rmap]; [|discriminate|discriminate].
    intros [= <- <-]. exists t'. split; [reflexivity|]. exact (set_same _ _ _ _ E).
  Qed.

  (** What an operation of another thread does to a tree. *)
  Definition composed_op (o : op) : Prop := match o with TMakeLeafNode _ _ _ | TMakeBranchNode _ _ _ => True | _ => False end.
  Definition spares (h : TreeHandle) (l : list nat) (o : op) : Prop :=
    match o with TAddAlt n _ | TAddAll n _ => nd_inner n = h -> ~ In (nd_index n) l | _ => True end.
  Lemma step_env (tr : hist) w o r w' h t l : run tr w -> can_call tr o -> tr_step w o = (r, w') -> ~ composed_op o -> spares h l o ->
    nth_error w h = Some t -> exists t', nth_error w' h = Some t' /\ env l t t'.
  Proof.
    intros R K S Nc Sp E. pose proof (run_inv _ _ R) as I. pose proof (hi_w _ _ I) as Iw. pose proof (held_of _ _ _ I K) as Hd.
    assert (X : WInv w' /\ wle w w' /\ forall n, In n l -> walts w' {| nd_index := n; nd_inner := h |} = walts w {| nd_index := n; nd_inner := h |}).
    { destruct (one_tree_dec o) as [Ot|Ot].
      - destruct (step_good w o Iw Hd Ot) as (v & w2 & S2 & Iw' & Lw & _). rewrite S in S2. injection S2 as -> ->. split; [exact Iw'|]. split; [exact Lw|].
        intros n In_. destruct o; try (exact (walts_step w _ w2 v Iw Hd S Logic.I _)); try (destruct (Nc Logic.I)).
        + cbn [held one_tree] in Hd, Ot. destruct Hd as [V1 V2]. destruct (w_add_alt_spec w n0 a Iw V1 V2 Ot) as (w3 & S3 & _ & _ & Wa).
          cbn [tr_step] in S. rewrite S3 in S. cbn [rmap] in S. injection S as _ <-. rewrite Wa. destruct (node_eqb_spec n0 {| nd_index := n; nd_inner := h |}) as [->|]; [|reflexivity].
          destruct (Sp eq_refl In_).
        + cbn [held one_tree] in Hd, Ot. destruct Hd as [V1 V2]. destruct (w_add_all_spec w n0 other Iw V1 V2 Ot) as (c & w3 & S3 & _ & _ & _ & Wa).
          cbn [tr_step] in S. rewrite S3 in S. cbn [rmap] in S. injection S as _ <-. rewrite Wa. destruct (node_eqb_spec n0 {| nd_index := n; nd_inner := h |}) as [->|]; [|reflexivity].
          destruct (Sp eq_refl In_).
      - destruct (step_bad w o Iw Hd Ot) as (m & w2 & S2 & Iw' & Lw & Wa & _). rewrite S in S2. injection S2 as -> ->. auto. }
    destruct X as (Iw' & Lw & Wa). destruct (Lw h t E) as (t' & E' & Tl). exists t'. split; [exact E'|]. constructor.
    - exact (Iw' h t' E').
    - exact (proj1 Tl).
    - exact (proj2 Tl).
    - intros n In_ _. specialize (Wa n In_). unfold walts in Wa. cbn [nd_inner nd_index] in Wa. rewrite E, E' in Wa. exact Wa.
  Qed.

  (** A node made in three steps. *)
  Lemma mk_compose mine t ta tb tc td te tf tg n c a ch : Forall (node_ok t) (c_nodes c) -> env mine t ta -> in_make_node ta = (n, tb) ->
    env (n :: mine) tb tc -> in_make_alt tc c = (a, td) -> env (n :: mine) td te -> in_add_node_alt n a te = Ret (ch, tf) -> env (n :: mine) tf tg ->
    mk mine t tg n c.
  Proof.
    intros F E1 M1 E2 M2 E3 M3 E4.
    pose proof (make_node_spec ta (ev_t _ _ _ E1)) as M. rewrite M1 in M. destruct M as (-> & N1 & A1 & I1).
    set (n := length (in_nodes ta)) in *.
    assert (L1 : length (in_nodes tb) = S n) by (rewrite N1, app_length; simpl; unfold n; lia).
    pose proof (ev_len _ _ _ E1) as L0. pose proof (ev_len _ _ _ E2) as L2. pose proof (ev_len _ _ _ E3) as L3. pose proof (ev_len _ _ _ E4) as L4. fold n in L0.
    assert (F2 : Forall (node_ok tc) (c_nodes c)).
    { eapply Forall_impl; [|exact F]. unfold node_ok. intros m Lm. lia. }
    pose proof (make_alt_spec tc c (ev_t _ _ _ E2) F2) as M. rewrite M2 in M. destruct M as (I2 & Ca & N2 & X1 & X2).
    rewrite N2 in L3.
    assert (O2 : node_ok td n) by (unfold node_ok in *; rewrite N2; lia).
    assert (O3 : node_ok te n) by (unfold node_ok in *; lia).
    assert (Z1 : nalts tb n = []).
    { unfold nalts. rewrite N1, nth_error_snoc. fold n. rewrite Nat.eqb_refl. reflexivity. }
    assert (Z2 : nalts tc n = []).
    { rewrite (ev_mine _ _ _ E2 n); [exact Z1|left; reflexivity|]. unfold node_ok. lia. }
    assert (Z3 : nalts te n = []).
    { rewrite (ev_mine _ _ _ E3 n (or_introl eq_refl) O2). unfold nalts in *. rewrite N2. exact Z2. }
    pose proof (ev_keep _ _ _ E3 a c Ca) as Ca3.
    destruct (add_node_alt_spec te n a (ev_t _ _ _ E3) O3 (ex_intro _ c Ca3)) as (t3 & R & A3 & N3 & I3). rewrite M3 in R. injection R as -> ->.
    rewrite N3, list_set_length in L4.
    assert (NL : forall x, nalts t3 x = if Nat.eqb n x then [a] else nalts te x).
    { intro x. unfold nalts at 1. rewrite N3, nth_list_set. destruct (Nat.eqb_spec n x) as [<-|].
      - rewrite Z3. unfold node_ok in O3. destruct (nth_error (in_nodes te) n) eqn:E; [reflexivity|]. apply nth_error_None in E. lia.
      - reflexivity. }
    assert (O4 : node_ok t3 n) by (unfold node_ok in *; rewrite N3, list_set_length; exact O3).
    split; [|split; [|split]].
    - constructor; [exact (ev_t _ _ _ E4)|lia| |].
      + intros b d E. apply (ev_keep _ _ _ E4). unfold acont at 1. rewrite A3. apply (ev_keep _ _ _ E3), X1, (ev_keep _ _ _ E2). unfold acont. rewrite A1. apply (ev_keep _ _ _ E1). exact E.
      + intros x Ix Ok. assert (Nx : n <> x) by (unfold node_ok in Ok; lia).
        rewrite (ev_mine _ _ _ E4 x (or_intror Ix)); [|unfold node_ok in *; rewrite N3, list_set_length; lia].
        rewrite NL, (proj2 (Nat.eqb_neq _ _) Nx).
        rewrite (ev_mine _ _ _ E3 x (or_intror Ix)); [|unfold node_ok in *; rewrite N2; lia].
        assert (nalts td x = nalts tc x) as -> by (unfold nalts; rewrite N2; reflexivity).
        rewrite (ev_mine _ _ _ E2 x (or_intror Ix)); [|unfold node_ok in *; lia].
        assert (nalts tb x = nalts ta x) as ->.
        { unfold nalts. rewrite N1, nth_error_snoc. fold n. destruct (Nat.eqb_spec x n); [congruence|reflexivity]. }
        exact (ev_mine _ _ _ E1 x Ix Ok).
    - unfold node_ok. lia.
    - unfold node_ok in *. lia.
    - exists a. split.
      + rewrite (ev_mine _ _ _ E4 n (or_introl eq_refl) O4), NL, Nat.eqb_refl. reflexivity.
      + apply (ev_keep _ _ _ E4). unfold acont. rewrite A3. exact Ca3.
  Qed.

  (** *** Who made a node *)
  Local Notation lst := (list (lin_event T AK V)).
  Definition makes (i : nat) (n : Node) : lin_event T AK V := LEffect i (TMakeNode (nd_inner n)) (Ret (RNode n)).
  Lemma make_fresh (tr : hist) w h n w' : run tr w -> can_call tr (TMakeNode h) -> tr_step w (TMakeNode h) = (Ret (RNode n), w') ->
    ~ vnode w n /\ vnode w' n /\ nd_inner n = h.
  Proof.
    intros R K S. pose proof (run_inv _ _ R) as I. pose proof (held_of _ _ _ I K) as Hd. cbn [held] in Hd.
    destruct (w_make_node_spec w h (hi_w _ _ I) Hd) as (n0 & w0 & S0 & E & Nv & Vn & _). cbn [tr_step] in S. rewrite S0 in S. cbn [rmap] in S. injection S as <- <-. auto.
  Qed.
  Lemma effects_app (A B : lst) : effects (A ++ B) = effects A ++ effects B.
  Proof. unfold effects. apply flat_map_app. Qed.
  Lemma run_at (A B : lst) w : run (effects (A ++ B)) w -> exists w0, run (effects B) w0 /\ wle w0 w.
  Proof. rewrite effects_app. apply run_app. Qed.
  Lemma made_valid (L : lst) w i h n : run (effects L) w -> In (LEffect i (TMakeNode h) (Ret (RNode n))) L -> vnode w n /\ nd_inner n = h.
  Proof.
    intros R J. apply in_split in J. destruct J as (A & B & ->). destruct (run_at A _ _ R) as (w0 & R0 & Lw).
    cbn [effects flat_map app] in R0. inversion R0 as [|tr w1 o r w' R1 K S]; subst. destruct (make_fresh _ _ _ _ _ R1 K S) as (_ & Vn & E).
    split; [exact (wle_vnode _ _ _ Lw Vn)|exact E].
  Qed.
  Lemma made_once (L : lst) w i j h h' n : run (effects L) w -> In (LEffect i (TMakeNode h) (Ret (RNode n))) L ->
    In (LEffect j (TMakeNode h') (Ret (RNode n))) L -> i = j.
  Proof.
    revert w. induction L as [|e L IH]; intros w R J1 J2; [destruct J1|].
    assert (X : exists w0, run (effects L) w0) by (destruct (run_at [e] L w R) as (w0 & R0 & _); eauto). destruct X as (w0 & R0).
    destruct J1 as [->|J1], J2 as [E|J2].
    - injection E as <- _. reflexivity.
    - destruct (made_valid L w0 _ _ _ R0 J2) as [Vn _]. cbn [effects flat_map app] in R. inversion R as [|tr w1 o r w' R1 K S]; subst.
      destruct (make_fresh _ _ _ _ _ R1 K S) as (Nv & _). destruct Nv. rewrite (run_det _ _ R1 _ R0). exact Vn.
    - subst e. destruct (made_valid L w0 _ _ _ R0 J1) as [Vn _]. cbn [effects flat_map app] in R. inversion R as [|tr w1 o r w' R1 K S]; subst.
      destruct (make_fresh _ _ _ _ _ R1 K S) as (Nv & _). destruct Nv. rewrite (run_det _ _ R1 _ R0). exact Vn.
    - exact (IH w0 R0 J1 J2).
  Qed.
  Lemma made_later (E L : lst) w w1 i h n : run (effects (E ++ L)) w -> run (effects L) w1 -> In (LEffect i (TMakeNode h) (Ret (RNode n))) E -> ~ vnode w1 n.
  Proof.
    intros R R1 J Vn. apply in_split in J. destruct J as (A & B & ->). rewrite <- app_assoc in R. destruct (run_at A _ _ R) as (w0 & R0 & _).
    cbn [effects flat_map app] in R0. inversion R0 as [|tr w2 o r w' R2 K S]; subst. destruct (make_fresh _ _ _ _ _ R2 K S) as (Nv & _). apply Nv.
    destruct (run_at B L w2) as (w3 & R3 & Lw); [exact R2|]. rewrite (run_det _ _ R1 _ R3) in Vn. exact (wle_vnode _ _ _ Lw Vn).
  Qed.

  (** The effects of the call a thread is in have happened, and since its last call. *)
  Lemma cur_effects i (L : lst) o d : cur i L = Some (o, d) -> forall x, In x d -> In (LEffect i (fst x) (snd x)) L.
  Proof.
    revert d. induction L as [|e L IH]; intros d C x J; [discriminate|]. destruct e as [j o1|j o1 r1|j o1 r1]; simpl in C; destruct (Nat.eqb_spec i j) as [<-|]; try (right; eapply IH; eassumption).
    - injection C as <- <-. destruct J.
    - destruct (cur i L) as [[o0 d0]|]; [|discriminate]. injection C as <- <-. destruct J as [<-|J]; [left; reflexivity|right; eapply IH; [reflexivity|exact J]].
    - discriminate.
  Qed.
  Lemma cur_since i (E L : lst) o d : cur i (E ++ L) = Some (o, d) ->
    (In (LCall i o) E /\ forall x, In x d -> In (LEffect i (fst x) (snd x)) E) \/ exists d0, cur i L = Some (o, d0).
  Proof.
    revert d. induction E as [|e E IH]; intros d C; [right; eauto|]. destruct e as [j o1|j o1 r1|j o1 r1]; cbn [app cur] in C; destruct (Nat.eqb_spec i j) as [<-|].
    - injection C as <- <-. left. split; [left; reflexivity|intros x []].
    - destruct (IH d C) as [[A B]|X]; [left; split; [right; exact A|intros x J; right; exact (B x J)]|right; exact X].
    - destruct (cur i (E ++ L)) as [[o0 d0]|]; [|discriminate]. injection C as <- <-. destruct (IH d0 eq_refl) as [[A B]|X]; [left|right; exact X].
      split; [right; exact A|]. intros x [<-|J]; [left; reflexivity|right; exact (B x J)].
    - destruct (IH d C) as [[A B]|X]; [left; split; [right; exact A|intros x J; right; exact (B x J)]|right; exact X].
    - discriminate.
    - destruct (IH d C) as [[A B]|X]; [left; split; [right; exact A|intros x J; right; exact (B x J)]|right; exact X].
  Qed.
End World.

Section View.
  Context {T AK V : Type} `{OrdEq T} `{OrdEq AK} `{OrdEq V}.
  Local Notation tree := (Inner T AK V).
  Local Notation wld := (world T AK V).
  Local Notation hist := (history T AK V).
  Local Notation op := (tr_op T AK V).
  Local Notation val := (tr_val T AK V).
  Local Notation lst := (list (lin_event T AK V)).
  Implicit Types (w : wld) (t : tree) (A B E M : lst).

  Lemma parts_simple (o : op) r l o' r' : parts o r l -> In (o', r') l -> ~ composed_op o'.
  Proof.
    intros P J. destruct P as [o r N1 N2|h' k v n a c|h' x ns n a c|h' x ns n m]; simpl in J;
      repeat (destruct J as [[= <- <-]|J]); try contradiction; try (intros []).
    destruct o; try (intros []); [destruct (N1 _ _ _ eq_refl)|destruct (N2 _ _ _ eq_refl)].
  Qed.
  Lemma parts_target (o : op) r l o' r' more n : parts o r (l ++ (o', r') :: more) ->
    (exists a, o' = TAddAlt n a) \/ (exists m, o' = TAddAll n m) ->
    o' = o \/ exists h', In (TMakeNode h', Ret (RNode n)) l.
  Proof.
    intros P X. remember (l ++ (o', r') :: more) as l0 eqn:El. destruct P as [o r N1 N2|h' k v n0 a c|h' x ns n0 a c|h' x ns n0 m].
    - destruct l as [|? [|]]; injection El; intros; subst; [left; reflexivity|discriminate|discriminate].
    - destruct l as [|e1 [|e2 [|e3 [|]]]]; injection El; intros; subst; try discriminate; destruct X as [(? & X)|(? & X)]; try discriminate; injection X as -> ->; right; exists h'; left; reflexivity.
    - destruct l as [|e1 [|e2 [|e3 [|]]]]; injection El; intros; subst; try discriminate; destruct X as [(? & X)|(? & X)]; try discriminate; injection X as -> ->; right; exists h'; left; reflexivity.
    - destruct l as [|e1 [|e2 [|]]]; injection El; intros; subst; try discriminate; destruct X as [(? & X)|(? & X)]; discriminate.
  Qed.
  Lemma parts_node (o : op) n l : parts o (Ret (RNode n)) l -> exists o', In (o', Ret (RNode n)) l.
  Proof. intro P. inversion P; subst; eexists; left; reflexivity. Qed.
  Lemma step_node (tr : hist) w o n w' : run tr w -> can_call tr o -> tr_step w o = (Ret (RNode n), w') -> ~ composed_op o -> o = TMakeNode (nd_inner n).
  Proof.
    intros R K S Nc. destruct o; try (destruct (Nc Logic.I)); cbn [tr_step] in S.
    - destruct (w_new_tree w) as [[|?|] ?]; simpl in S; discriminate.
    - destruct (make_fresh _ _ _ _ _ R K S) as (_ & _ & ->). reflexivity.
    - destruct (w_make_leaf_alt w h kind value) as [[|?|] ?]; simpl in S; discriminate.
    - destruct (w_make_branch_alt w h action nodes) as [[|?|] ?]; simpl in S; discriminate.
    - destruct (w_add_alt w n0 a) as [[|?|] ?]; simpl in S; discriminate.
    - destruct (w_add_all w n0 other) as [[|?|] ?]; simpl in S; discriminate.
    - destruct (w_alts w n0) as [|?|]; simpl in S; discriminate.
    - destruct (w_content w a) as [|?|]; simpl in S; discriminate.
  Qed.
  Lemma erase_call j o A : In (LCall j o) A -> In (ECall j o) (erase A).
  Proof. intro J. apply in_flat_map. exists (LCall j o). split; [exact J|left; reflexivity]. Qed.
  Lemma erase_ret j o r A : In (LRet j o r) A <-> In (ERet j o r) (erase A).
  Proof.
    split; intro J.
    - apply in_flat_map. exists (LRet j o r). split; [exact J|left; reflexivity].
    - apply in_flat_map in J. destruct J as (e & J & K). destruct e; simpl in K; try (destruct K as [K|[]]); try contradiction; try discriminate. injection K as -> -> ->. exact J.
  Qed.
  Lemma erase_call' j o A : In (ECall j o) (erase A) -> In (LCall j o) A.
  Proof.
    intro J. apply in_flat_map in J. destruct J as (e & J & K). destruct e; simpl in K; try (destruct K as [K|[]]); try contradiction; try discriminate. injection K as -> ->. exact J.
  Qed.
  (** A node returned to a thread was made by it. *)
  Lemma ret_made i E L1 wf n : okL (E ++ L1) -> run (effects (E ++ L1)) wf -> cur i L1 = None -> node_of i (erase E) n ->
    In (LEffect i (TMakeNode (nd_inner n)) (Ret (RNode n))) E.
  Proof.
    intros Ok Rf C1 (o & J). apply erase_ret in J. apply in_split in J. destruct J as (A & B & ->).
    rewrite <- app_assoc in Ok, Rf. cbn [app] in Ok. pose proof (ok_inv _ _ (ok_app _ _ Ok)) as [OkB (d & C & P)].
    destruct (cur_since i B L1 o d C) as [[_ Ef]|(d0 & X)]; [|congruence].
    destruct (parts_node _ _ _ P) as (o' & Jd). assert (Nc : ~ composed_op o') by (eapply parts_simple; eassumption).
    apply in_rev in Jd. pose proof (Ef _ Jd) as Je. cbn [fst snd] in Je.
    assert (o' = TMakeNode (nd_inner n)) as ->; [|apply in_or_app; right; right; exact Je].
    apply in_split in Je. destruct Je as (A' & B' & ->).
    destruct (run_at A _ _ Rf) as (w1 & R1 & _). cbn [effects flat_map app] in R1. fold (effects ((A' ++ LEffect i o' (Ret (RNode n)) :: B') ++ L1)) in R1.
    rewrite <- app_assoc in R1. destruct (run_at A' _ _ R1) as (w2 & R2 & _). cbn [effects flat_map app] in R2. inversion R2 as [|tr w3 o2 r2 w' R3 K S]; subst.
    exact (step_node _ _ _ _ _ R3 K S Nc).
  Qed.

  Variables (i : nat) (h : TreeHandle) (E L1 : lst) (wf : wld).
  Hypothesis Ok : okL (E ++ L1).
  Hypothesis Rf : run (effects (E ++ L1)) wf.
  Hypothesis C1 : cur i L1 = None.
  Hypothesis Cf : cur i (E ++ L1) = None.
  Hypothesis Pend : forall j o d, cur j L1 = Some (o, d) -> can_call (effects L1) o.
  Hypothesis Adds : forall j n, j <> i -> nd_inner n = h -> adds_to j (erase E) n -> ~ node_of i (erase E) n.

  Definition mine (n : nat) : Prop := node_of i (erase E) {| nd_index := n; nd_inner := h |}.

  Lemma off A B j o r : A ++ LEffect j o r :: B = E -> j <> i -> forall l, (forall n, In n l -> mine n) -> ~ composed_op o /\ spares h l o.
  Proof.
    intros HE Nj l Hl. pose proof Ok as O. rewrite <- HE, <- app_assoc in O. cbn [app] in O.
    pose proof (ok_inv _ _ (ok_app _ _ O)) as [OkB (o0 & d & C & r0 & more & P)].
    split. { eapply parts_simple; [exact P|]. apply in_or_app. right. left. reflexivity. }
    assert (X : forall n, (exists a, o = TAddAlt n a) \/ (exists m, o = TAddAll n m) -> nd_inner n = h -> ~ In (nd_index n) l).
    { intros n Ho Hi Jn. pose proof (Hl _ Jn) as Mn. unfold mine in Mn. rewrite <- Hi in Mn. replace {| nd_index := nd_index n; nd_inner := nd_inner n |} with n in Mn by (destruct n; reflexivity).
      pose proof (ret_made i E L1 wf n Ok Rf C1 Mn) as Mk.
      destruct (parts_target _ _ _ _ _ _ n P Ho) as [<-|(h' & Jm)].
      - destruct (cur_since j B L1 o d C) as [[Jc _]|(d0 & Cj)].
        + apply (Adds j n Nj Hi); [|exact Mn].
          assert (Je : In (ECall j o) (erase E)) by (apply erase_call; rewrite <- HE; apply in_or_app; right; right; exact Jc).
          destruct Ho as [(a & ->)|(m & ->)]; [left|right]; eauto.
        + pose proof (Pend j o d0 Cj) as K. destruct (run_at E L1 wf Rf) as (w1 & R1 & _).
          apply (made_later E L1 wf w1 i _ n Rf R1 Mk). apply (hi_node _ _ (run_inv _ _ R1)). destruct Ho as [(a & ->)|(m & ->)]; exact (proj1 K).
      - apply in_rev in Jm. pose proof (cur_effects j _ o0 d C _ Jm) as Je. cbn [fst snd] in Je. apply Nj. symmetry.
        apply (made_once (E ++ L1) wf i j (nd_inner n) h' n Rf); [apply in_or_app; left; exact Mk|]. rewrite <- HE, <- app_assoc. apply in_or_app. right. right. exact Je. }
    destruct o; simpl; try exact Logic.I; apply X; eauto.
  Qed.

  (** What has happened at some moment since. *)
  Definition suf B : Prop := exists A, A ++ B = E.
  Lemma suf_app M B : suf (M ++ B) -> suf B.
  Proof. intros (A & HE). exists (A ++ M). rewrite <- app_assoc. exact HE. Qed.
  Lemma suf_cons e B : suf (e :: B) -> suf B.
  Proof. exact (suf_app [e] B). Qed.
  Lemma at_world B : suf B -> exists w, run (effects (B ++ L1)) w.
  Proof. intros (A & HE). pose proof Rf as R. rewrite <- HE, <- app_assoc in R. destruct (run_at A _ _ R) as (w & Rw & _). eauto. Qed.
  Lemma effect_step j o r B w : suf (LEffect j o r :: B) -> run (effects (B ++ L1)) w ->
    exists w', run (effects ((LEffect j o r :: B) ++ L1)) w' /\ can_call (effects (B ++ L1)) o /\ tr_step w o = (r, w').
  Proof.
    intros Sf R. destruct (at_world _ Sf) as (w' & R'). exists w'. split; [exact R'|]. cbn [app effects flat_map] in R'. fold (effects (B ++ L1)) in R'.
    inversion R' as [|tr w3 o2 r2 w2 R3 K S]; subst. rewrite (run_det _ _ R _ R3). auto.
  Qed.

  Lemma others M : forall B w1 t1 l, suf (M ++ B) -> none_of i M -> run (effects (B ++ L1)) w1 -> nth_error w1 h = Some t1 ->
    (forall n, In n l -> mine n) -> exists w2 t2, run (effects ((M ++ B) ++ L1)) w2 /\ nth_error w2 h = Some t2 /\ env l t1 t2.
  Proof.
    induction M as [|e M IH]; intros B w1 t1 l Sf N R1 E1 Hl.
    - exists w1, t1. split; [exact R1|]. split; [exact E1|]. apply env_refl. exact (hi_w _ _ (run_inv _ _ R1) h t1 E1).
    - assert (N' : none_of i M) by (intros x X; apply N; right; exact X).
      destruct (IH B w1 t1 l (suf_cons _ _ Sf) N' R1 E1 Hl) as (w3 & t3 & R3 & E3 & Ev).
      destruct e as [j o|j o r|j o r]; try (exists w3, t3; split; [exact R3|]; split; [exact E3|exact Ev]).
      destruct (effect_step j o r (M ++ B) w3 Sf R3) as (w2 & R2 & K & S).
      assert (Nj : j <> i) by exact (N _ (or_introl eq_refl)). pose proof Sf as (A & HE).
      destruct (off A (M ++ B) j o r HE Nj l Hl) as [Nc Sp].
      destruct (step_env _ w3 o r w2 h t3 l R3 K S Nc Sp E3) as (t2 & E2 & Ev2). exists w2, t2. split; [exact R2|]. split; [exact E2|]. exact (env_trans _ _ _ _ _ (incl_refl _) Ev Ev2).
  Qed.

  (** Thread [i] makes a node. *)
  Lemma make_view A B o oc c n s w1 t1 l : A ++ B = E -> cur i (B ++ L1) = None -> alt_op o h oc -> oc_content oc h c -> nd_inner n = h ->
    log_of i A = (o, Ret (RNode n)) :: s -> run (effects (B ++ L1)) w1 -> nth_error w1 h = Some t1 -> Forall (node_ok t1) (c_nodes c) ->
    (forall x, In x l -> mine x) ->
    exists A' B' w2 t2, A' ++ B' = E /\ cur i (B' ++ L1) = None /\ log_of i A' = s /\ run (effects (B' ++ L1)) w2 /\ nth_error w2 h = Some t2 /\
      mk l t1 t2 (nd_index n) c /\ mine (nd_index n).
  Proof.
    intros HE C Ao Oc Hn Lg R1 E1 F Hl.
    assert (Mn : mine (nd_index n)).
    { unfold mine. rewrite <- Hn. replace {| nd_index := nd_index n; nd_inner := nd_inner n |} with n by (destruct n; reflexivity). exists o. apply erase_ret.
      rewrite <- HE. apply in_or_app. left. apply log_In. rewrite Lg. left. reflexivity. }
    assert (Hl' : forall x, In x (nd_index n :: l) -> mine x) by (intros x [<-|X]; auto).
    assert (O : okL (A ++ B ++ L1)) by (rewrite app_assoc, HE; exact Ok).
    destruct (make_shape i A (B ++ L1) o h oc n s O C Ao Lg) as (A' & M0 & M1 & M2 & M3 & M4 & a & ch & EA & N0 & N1 & N2 & N3 & N4 & L').
    subst A. clear O Lg. repeat (rewrite <- app_assoc in HE; cbn [app] in HE).
    set (B1 := M0 ++ B) in *. set (B2 := M1 ++ LCall i o :: B1) in *. set (B3 := M2 ++ LEffect i (TMakeNode h) (Ret (RNode n)) :: B2) in *.
    set (B4 := M3 ++ LEffect i oc (Ret (RAlt a)) :: B3) in *. set (B5 := M4 ++ LEffect i (TAddAlt n a) (Ret (RChanged ch)) :: B4) in *.
    assert (S6 : suf (LRet i o (Ret (RNode n)) :: B5)) by (exists A'; exact HE).
    assert (S5 : suf B5) by exact (suf_cons _ _ S6). pose proof (suf_app _ _ S5) as S5'. pose proof (suf_cons _ _ S5') as S4.
    pose proof (suf_app _ _ S4) as S4'. pose proof (suf_cons _ _ S4') as S3. pose proof (suf_app _ _ S3) as S3'. pose proof (suf_cons _ _ S3') as S2.
    pose proof (suf_app _ _ S2) as S2'. pose proof (suf_cons _ _ S2') as S1.
    destruct (others M0 B w1 t1 l S1 N0 R1 E1 Hl) as (w2 & t2 & R2 & E2 & V0).
    destruct (others M1 (LCall i o :: B1) w2 t2 l S2 N1 R2 E2 Hl) as (w3 & t3 & R3 & E3 & V1).
    destruct (effect_step _ _ _ _ w3 S3' R3) as (w4 & R4 & _ & St1). destruct (make_node_step w3 h t3 n w4 E3 St1) as (_ & t4 & Mk1 & E4).
    destruct (others M2 _ w4 t4 _ S3 N2 R4 E4 Hl') as (w5 & t5 & R5 & E5 & V2).
    destruct (effect_step _ _ _ _ w5 S4' R5) as (w6 & R6 & _ & St2). destruct (make_alt_step w5 h t5 oc c a w6 E5 Oc St2) as (_ & t6 & Mk2 & E6).
    destruct (others M3 _ w6 t6 _ S4 N3 R6 E6 Hl') as (w7 & t7 & R7 & E7 & V3).
    destruct (effect_step _ _ _ _ w7 S5' R7) as (w8 & R8 & _ & St3). destruct (add_alt_step w7 h t7 n a ch w8 E7 Hn St3) as (t8 & Mk3 & E8).
    destruct (others M4 _ w8 t8 _ S5 N4 R8 E8 Hl') as (w9 & t9 & R9 & E9 & V4).
    exists A', (LRet i o (Ret (RNode n)) :: B5), w9, t9. split; [exact HE|]. split; [cbn [app cur]; rewrite Nat.eqb_refl; reflexivity|]. split; [exact L'|].
    split; [exact R9|]. split; [exact E9|]. split; [|exact Mn].
    exact (mk_compose l t1 t3 t4 t5 t6 t7 t8 t9 (nd_index n) c (al_index a) ch F (env_trans _ _ _ _ _ (incl_refl _) V0 V1) Mk1 V2 Mk2 V3 Mk3 V4).
  Qed.

  (** Thread [i] adds the alternatives of one node to another. *)
  Lemma add_view A B n m c s w1 t1 l : A ++ B = E -> cur i (B ++ L1) = None -> nd_inner n = h ->
    log_of i A = (TAddAll n m, Ret (RChanged c)) :: s -> run (effects (B ++ L1)) w1 -> nth_error w1 h = Some t1 ->
    (forall x, In x l -> mine x) ->
    exists A' B' w2 t2 ta tb, A' ++ B' = E /\ cur i (B' ++ L1) = None /\ log_of i A' = s /\ run (effects (B' ++ L1)) w2 /\ nth_error w2 h = Some t2 /\
      env l t1 ta /\ in_add_all (nd_index n) (nd_index m) ta = Ret (c, tb) /\ env l tb t2.
  Proof.
    intros HE C Hn Lg R1 E1 Hl.
    assert (O : okL (A ++ B ++ L1)) by (rewrite app_assoc, HE; exact Ok).
    destruct (add_shape i A (B ++ L1) n m _ s O C Lg) as (A' & M0 & M1 & M2 & EA & N0 & N1 & N2 & L').
    subst A. clear O Lg. repeat (rewrite <- app_assoc in HE; cbn [app] in HE).
    set (B1 := M0 ++ B) in *. set (B2 := M1 ++ LCall i (TAddAll n m) :: B1) in *. set (B3 := M2 ++ LEffect i (TAddAll n m) (Ret (RChanged c)) :: B2) in *.
    assert (S4 : suf (LRet i (TAddAll n m) (Ret (RChanged c)) :: B3)) by (exists A'; exact HE).
    pose proof (suf_cons _ _ S4) as S3. pose proof (suf_app _ _ S3) as S3'. pose proof (suf_cons _ _ S3') as S2.
    pose proof (suf_app _ _ S2) as S2'. pose proof (suf_cons _ _ S2') as S1.
    destruct (others M0 B w1 t1 l S1 N0 R1 E1 Hl) as (w2 & t2 & R2 & E2 & V0).
    destruct (others M1 (LCall i (TAddAll n m) :: B1) w2 t2 l S2 N1 R2 E2 Hl) as (w3 & t3 & R3 & E3 & V1).
    destruct (effect_step _ _ _ _ w3 S3' R3) as (w4 & R4 & _ & St1). destruct (add_all_step w3 h t3 n m c w4 E3 Hn St1) as (t4 & Mk1 & E4).
    destruct (others M2 _ w4 t4 _ S3 N2 R4 E4 Hl) as (w5 & t5 & R5 & E5 & V2).
    exists A', (LRet i (TAddAll n m) (Ret (RChanged c)) :: B3), w5, t5, t3, t4. split; [exact HE|]. split; [cbn [app cur]; rewrite Nat.eqb_refl; reflexivity|]. split; [exact L'|].
    split; [exact R5|]. split; [exact E5|]. split; [exact (env_trans _ _ _ _ _ (incl_refl _) V0 V1)|]. split; [exact Mk1|exact V2].
  Qed.

  (** *** In step with a parser that is alone *)
  Local Notation pairs := (list (nat * nat)).
  Definition AT (W : pairs) (s : list (op * outcome val)) t : Prop :=
    exists A B w1 t1, A ++ B = E /\ log_of i A = s /\ cur i (B ++ L1) = None /\ run (effects (B ++ L1)) w1 /\ nth_error w1 h = Some t1 /\
      SR W t1 t /\ forall n n', rel W n n' -> mine n.
  Definition left_nodes (W : pairs) : list nat := map fst W.
  Lemma left_mine W : (forall n n', rel W n n' -> mine n) -> forall x, In x (left_nodes W) -> mine x.
  Proof. intros M x X. apply in_map_iff in X. destruct X as ([n n'] & <- & X). exact (M n n' X). Qed.
  Lemma left_in W t t' : SR W t t' -> forall x y, rel W x y -> In x (left_nodes W) /\ In y (seq 0 (length (in_nodes t'))).
  Proof.
    intros R x y X. split; [apply in_map_iff; exists (x, y); auto|]. apply in_seq. destruct (sr_ok _ _ _ R x y X) as [_ O]. unfold node_ok in O. lia.
  Qed.

  Lemma AT_make W o oc c c' n s t : AT W ((o, Ret (RNode n)) :: s) t -> alt_op o h oc -> oc_content oc h c -> nd_inner n = h ->
    same_content (rel W) c c' ->
    exists n' t', (let '(n, t1) := in_make_node t in let '(a, t2) := in_make_alt t1 c' in '(_, t3) <- in_add_node_alt n a t2 ;; Ret (n, t3)) = Ret (n', t') /\
      AT ((nd_index n, n') :: W) s t'.
  Proof.
    intros (A & B & w1 & t1 & HE & Lg & C & R1 & E1 & Sr & M) Ao Oc Hn Sc.
    assert (F : Forall (node_ok t1) (c_nodes c) /\ Forall (node_ok t) (c_nodes c')).
    { destruct Sc as [k v|x ns ns' F]; [split; constructor|]. cbn [c_nodes]. clear -F Sr. induction F as [|n m l l' X F IH]; [split; constructor|].
      destruct (sr_ok _ _ _ Sr n m X), IH. split; constructor; assumption. }
    destruct (make_view A B o oc c n s w1 t1 (left_nodes W) HE C Ao Oc Hn Lg R1 E1 (proj1 F) (left_mine W M)) as (A' & B' & w2 & t2 & HE' & C' & L' & R2 & E2 & K & Mn).
    destruct (alone_make_spec c' t (sr_t' _ _ _ Sr) (proj2 F)) as (n' & t' & Ea & K'). exists n', t'. split; [exact Ea|].
    exists A', B', w2, t2. split; [exact HE'|]. split; [exact L'|]. split; [exact C'|]. split; [exact R2|]. split; [exact E2|]. split.
    - exact (SR_mk W _ _ t1 t t2 t' (nd_index n) n' c c' Sr (left_in W _ _ Sr) K K' Sc).
    - intros x y [[= <- <-]|X]; [exact Mn|exact (M x y X)].
  Qed.

  Lemma osim_lax {X Y} (Q : X -> Y -> Prop) (y : outcome Y) : osim_ true Q NoFuel y.
  Proof. destruct y; simpl; auto. Qed.
  Lemma AT_leaf W k v s t : AT W s t ->
    osim_ true (fun x y => AT ((fst x, fst y) :: W) (snd x) (snd y)) (op_leaf (logged h) k v s) (op_leaf alone k v t).
  Proof.
    intro At. cbn [logged op_leaf]. destruct s as [|[o r] s]; [apply osim_lax|]. destruct o; try apply osim_lax. destruct r as [x|?|]; [|apply osim_lax|apply osim_lax].
    destruct x; try apply osim_lax. destruct (Nat.eqb_spec h0 h) as [->|]; [|apply osim_lax]. destruct (OrdEq_dec kind k) as [->|Nk]; [|rewrite (proj2 (eqb_false_iff _ _) Nk); apply osim_lax].
    rewrite eqb_refl. destruct (OrdEq_dec value v) as [->|Nv]; [|rewrite (proj2 (eqb_false_iff _ _) Nv); apply osim_lax]. rewrite eqb_refl.
    destruct (Nat.eqb_spec (nd_inner n) h) as [Hn|]; [|apply osim_lax]. cbn [andb].
    destruct (AT_make W (TMakeLeafNode h k v) (TMakeLeafAlt h k v) (CLeaf k v) (CLeaf k v) n s t At (conj eq_refl eq_refl) (conj eq_refl eq_refl) Hn (same_leaf _ k v)) as (n' & t' & Ea & At').
    unfold alone, in_make_leaf_node. cbn [op_leaf]. rewrite Ea. exact At'.
  Qed.
  Lemma nats_eqb_spec l : forall l', nats_eqb l l' = true -> l = l'.
  Proof.
    induction l as [|a l IH]; intros [|b l']; simpl; intro X; try discriminate; [reflexivity|]. apply andb_prop in X. destruct X as [X Y]. apply Nat.eqb_eq in X. f_equal; auto.
  Qed.
  Lemma AT_branch W x ns ns' s t : AT W s t -> Forall2 (rel W) ns ns' ->
    osim_ true (fun x y => AT ((fst x, fst y) :: W) (snd x) (snd y)) (op_branch (logged h) x ns s) (op_branch alone x ns' t).
  Proof.
    intros At F. cbn [logged op_branch]. destruct s as [|[o r] s]; [apply osim_lax|]. destruct o; try apply osim_lax. destruct r as [y|?|]; [|apply osim_lax|apply osim_lax].
    destruct y; try apply osim_lax. destruct (Nat.eqb_spec h0 h) as [->|]; [|apply osim_lax]. destruct (OrdEq_dec action x) as [->|Nk]; [|rewrite (proj2 (eqb_false_iff _ _) Nk); apply osim_lax].
    rewrite eqb_refl. cbn [andb]. destruct (nodes_are h ns nodes) eqn:Na; [|apply osim_lax].
    destruct (Nat.eqb_spec (nd_inner n) h) as [Hn|]; [|apply osim_lax]. cbn [andb]. unfold nodes_are in Na. apply andb_prop in Na. destruct Na as [Na1 Na2].
    apply nats_eqb_spec in Na2. rewrite forallb_forall in Na1.
    destruct (AT_make W (TMakeBranchNode h x nodes) (TMakeBranchAlt h x nodes) (CBranch x ns) (CBranch x ns') n s t At (conj eq_refl eq_refl)) as (n' & t' & Ea & At').
    - split; [reflexivity|]. split; [intros m J; apply Nat.eqb_eq; exact (Na1 m J)|rewrite Na2; reflexivity].
    - exact Hn.
    - constructor. exact F.
    - unfold alone, in_make_branch_node. cbn [op_branch]. rewrite Ea. exact At'.
  Qed.
  Lemma AT_add W n m n' m' s t : AT W s t -> rel W n n' -> rel W m m' ->
    osim_ true (fun x y => fst x = fst y /\ AT W (snd x) (snd y)) (op_add_all (logged h) n m s) (op_add_all alone n' m' t).
  Proof.
    intros At Rn Rm. cbn [logged op_add_all]. destruct s as [|[o r] s]; [apply osim_lax|]. destruct o; try apply osim_lax. destruct r as [y|?|]; [|apply osim_lax|apply osim_lax].
    destruct y; try apply osim_lax. destruct (node_is h n n0) eqn:X1; [|apply osim_lax]. destruct (node_is h m other) eqn:X2; [|apply osim_lax]. cbn [andb].
    unfold node_is in X1, X2. apply andb_prop in X1, X2. destruct X1 as [H1n I1], X2 as [H2m I2]. apply Nat.eqb_eq in H1n, I1, H2m, I2. subst n m.
    destruct At as (A & B & w1 & t1 & HE & Lg & C & R1 & E1 & Sr & M).
    destruct (add_view A B n0 other c s w1 t1 (left_nodes W) HE C H1n Lg R1 E1 (left_mine W M)) as (A' & B' & w2 & t2 & ta & tb & HE' & C' & L' & R2 & E2 & V1 & Ad & V2).
    pose proof (SR_env W _ _ t1 t ta t Sr (left_in W _ _ Sr) V1 (env_refl _ _ (sr_t' _ _ _ Sr))) as Sra.
    pose proof (SR_add_all W ta t _ _ n' m' Sra Rn Rm) as X. rewrite Ad in X. cbn [alone op_add_all]. destruct (in_add_all n' m' t) as [[c' t']|?|]; simpl in X; try contradiction.
    destruct X as [<- Srb]. simpl. split; [reflexivity|]. exists A', B', w2, t2. split; [exact HE'|]. split; [exact L'|]. split; [exact C'|]. split; [exact R2|]. split; [exact E2|]. split; [|exact M].
    exact (SR_env W _ _ tb t' t2 t' Srb (left_in W _ _ Srb) V2 (env_refl _ _ (sr_t' _ _ _ Srb))).
  Qed.
  Lemma AT_end W t : AT W [] t -> exists tf, nth_error wf h = Some tf /\ SR W tf t.
  Proof.
    intros (A & B & w1 & t1 & HE & Lg & C & R1 & E1 & Sr & M).
    assert (N : none_of i A).
    { apply (end_phase i A (B ++ L1)); [rewrite app_assoc, HE; exact Ok|exact C|exact Lg|rewrite app_assoc, HE; exact Cf]. }
    destruct (others A B w1 t1 (left_nodes W) (ex_intro _ [] HE) N R1 E1 (left_mine W M)) as (w2 & t2 & R2 & E2 & Ve).
    rewrite HE in R2. rewrite (run_det _ _ Rf _ R2). exists t2. split; [exact E2|].
    exact (SR_env W _ _ t1 t t2 t Sr (left_in W _ _ Sr) Ve (env_refl _ _ (sr_t' _ _ _ Sr))).
  Qed.
  Lemma AT_start w1 t1 t : run (effects L1) w1 -> nth_error w1 h = Some t1 -> TInv t -> AT [] (log_of i E) t.
  Proof.
    intros R1 E1 I. exists E, [], w1, t1. split; [apply app_nil_r|]. split; [reflexivity|]. split; [exact C1|]. split; [exact R1|]. split; [exact E1|].
    split; [|intros n n' []]. constructor; [exact (hi_w _ _ (run_inv _ _ R1) h t1 E1)|exact I| | | | |]; intros n n' []; intros; contradiction.
  Qed.

  Section Parse.
    Context {NT AV : Type} `{OrdEq NT}.
    Variable lay : layout (StartNonTerminal NT).
    Variable sg : StartGrammar T NT AK AV.
    Lemma view_sim tokens fuel w1 t1 t : run (effects L1) w1 -> nth_error w1 h = Some t1 -> TInv t ->
      osim_ true (fun x y => exists W, AT W (snd x) (snd y) /\ match fst x, fst y with Some m, Some m' => rel W m m' | None, None => True | _, _ => False end)
        (gparse (logged h) lay sg tokens (log_of i E) fuel) (parse lay sg tokens t fuel).
    Proof.
      intros R1 E1 I. rewrite <- gparse_alone. pose proof (parse_sim true (logged h) alone lay sg AT AT_leaf AT_branch AT_add tokens _ t fuel (AT_start w1 t1 t R1 E1 I)) as X.
      eapply osim_impl; [|exact X]. intros x y (W & _ & At & O). eauto.
    Qed.
  End Parse.
End View.
