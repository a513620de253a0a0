(** [Rc] with copy on write behaves like plain values. *)
From Coq Require Import String List Arith Lia Bool.
From Verif.Model Require Import Ord Outcome Name.
From Verif.Spec Require Import NameSpec.
Import ListNotations.

Lemma nth_set_nth {A} (l : list A) i j x : nth_error (set_nth l i x) j =
  if Nat.eqb i j then (match nth_error l i with Some _ => Some x | None => None end) else nth_error l j.
Proof.
  revert i j. induction l as [|y l IH]; intros [|i] [|j]; simpl; try reflexivity.
  - destruct (Nat.eqb i j); reflexivity.
  - apply IH.
Qed.
Lemma set_nth_length {A} (l : list A) i x : length (set_nth l i x) = length l.
Proof. revert i. induction l as [|y l IH]; intros [|i]; simpl; auto. Qed.

Definition isa (a : addr) (v : option addr) : bool := match v with Some b => Nat.eqb b a | None => false end.
Definition cnt (a : addr) (l : list (option addr)) : nat := length (filter (isa a) l).

Lemma cnt_app a l1 l2 : cnt a (l1 ++ l2) = cnt a l1 + cnt a l2.
Proof. unfold cnt. rewrite filter_app, app_length. reflexivity. Qed.
Lemma cnt_one a v : cnt a [v] = if isa a v then 1 else 0.
Proof. unfold cnt. simpl. destruct (isa a v); reflexivity. Qed.
Lemma cnt_set a l i v w : nth_error l i = Some v ->
  cnt a (set_nth l i w) + (if isa a v then 1 else 0) = cnt a l + (if isa a w then 1 else 0).
Proof.
  unfold cnt. revert i. induction l as [|y l IH]; intros [|i]; simpl; try discriminate.
  - intros [= ->]. destruct (isa a v), (isa a w); simpl; lia.
  - intro N. specialize (IH i N). destruct (isa a y); simpl; lia.
Qed.
Lemma cnt_pos a l i : nth_error l i = Some (Some a) -> 0 < cnt a l.
Proof.
  intro N. apply nth_error_In in N. unfold cnt. destruct (filter (isa a) l) eqn:F; simpl; [|lia].
  exfalso. assert (In (Some a) []) as []. rewrite <- F. apply filter_In. split; [exact N|]. apply Nat.eqb_refl.
Qed.

Section N.
  Variable alloc : heap -> addr.
  Hypothesis Alloc : forall h, (exists a, h a = None) -> h (alloc h) = None.

  (** Finite use of the heap keeps allocation possible. *)
  Record NInv (st : nstate) (vs : list (option string)) : Prop := {
    ni_count : forall a, match n_heap st a with
                 | Some c => 0 < strong c /\ strong c = cnt a (n_vars st)
                 | None => cnt a (n_vars st) = 0 end;
    ni_vals : length vs = length (n_vars st) /\ forall i, nth_error vs i = option_map (fun v =>
                match v with Some a => option_map content (n_heap st a) | None => None end) (nth_error (n_vars st) i);
    ni_live : forall i a, nth_error (n_vars st) i = Some (Some a) -> exists c, n_heap st a = Some c
  }.

  Lemma cnt_bound l : exists n, forall a, n <= a -> cnt a l = 0.
  Proof.
    induction l as [|v l (n & IH)]; [exists 0; reflexivity|]. unfold cnt in *. simpl. destruct v as [b|]; simpl.
    - exists (Nat.max n (S b)). intros a L. assert (E : Nat.eqb b a = false) by (apply Nat.eqb_neq; lia).
      rewrite E. apply IH. lia.
    - exists n. exact IH.
  Qed.

  Lemma fresh st vs : NInv st vs -> n_heap st (alloc (n_heap st)) = None /\ cnt (alloc (n_heap st)) (n_vars st) = 0.
  Proof.
    intros [C _ _]. assert (F : n_heap st (alloc (n_heap st)) = None).
    { apply Alloc. destruct (cnt_bound (n_vars st)) as (n & B). exists n. specialize (C n). specialize (B n (le_n _)).
      destruct (n_heap st n); [lia|reflexivity]. }
    split; [exact F|]. specialize (C (alloc (n_heap st))). rewrite F in C. exact C.
  Qed.

  Lemma upd_eq h a c : h_upd h a c a = c.
  Proof. unfold h_upd. rewrite Nat.eqb_refl. reflexivity. Qed.
  Lemma upd_ne h a b c : b <> a -> h_upd h a c b = h b.
  Proof. intro N. unfold h_upd. apply Nat.eqb_neq in N. rewrite N. reflexivity. Qed.

  Lemma isa_iff a v : isa a v = true <-> v = Some a.
  Proof. destruct v as [b|]; simpl; [rewrite Nat.eqb_eq; split; congruence|split; discriminate]. Qed.

  Lemma NInv_intro st vs :
    (forall a, match n_heap st a with
                 | Some c => 0 < strong c /\ strong c = cnt a (n_vars st)
                 | None => cnt a (n_vars st) = 0 end) ->
    length vs = length (n_vars st) ->
    (forall i v, nth_error (n_vars st) i = Some v -> nth_error vs i = Some (see st v)) -> NInv st vs.
  Proof.
    intros C L V. constructor; [exact C| |].
    - split; [exact L|]. intro i. destruct (nth_error (n_vars st) i) as [v|] eqn:N; simpl.
      + apply V. exact N.
      + apply nth_error_None in N. apply nth_error_None. lia.
    - intros i a N. specialize (C a). apply cnt_pos in N. destruct (n_heap st a) as [c|]; [eauto|lia].
  Qed.

  Lemma NInv_var st vs i : NInv st vs ->
    match nth_error (n_vars st) i with
    | Some (Some a) => exists c, n_heap st a = Some c /\ nth_error vs i = Some (Some (content c)) /\
                         0 < strong c /\ strong c = cnt a (n_vars st)
    | Some None => nth_error vs i = Some None
    | None => nth_error vs i = None
    end.
  Proof.
    intros [C [L V] Lv]. specialize (V i). destruct (nth_error (n_vars st) i) as [[a|]|] eqn:N; simpl in V.
    - destruct (Lv i a N) as (c & Hc). exists c. rewrite Hc in V. specialize (C a). rewrite Hc in C. tauto.
    - exact V.
    - exact V.
  Qed.

  Lemma step_ok st vs op : NInv st vs ->
    exists o st', n_step alloc st op = Ret (o, st') /\ o = fst (v_step vs op) /\ NInv st' (snd (v_step vs op)).
  Proof.
    intro I. pose proof (fresh st vs I) as [Fr Fc]. pose proof I as [C [L V] Lv].
    assert (V' : forall i v, nth_error (n_vars st) i = Some v -> nth_error vs i = Some (see st v)).
    { intros i v N. rewrite V, N. reflexivity. }
    destruct op as [s|i|i f|i|i|i j]; simpl.
    - eexists _, _. split; [reflexivity|]. split; [reflexivity|]. simpl. set (a := alloc (n_heap st)) in *.
      apply NInv_intro; simpl.
      + intro b. rewrite cnt_app, cnt_one. simpl. destruct (Nat.eq_dec b a) as [->|Nb].
        * rewrite upd_eq, Nat.eqb_refl. simpl. lia.
        * rewrite upd_ne by exact Nb. assert (E : Nat.eqb a b = false) by (apply Nat.eqb_neq; congruence). rewrite E.
          rewrite Nat.add_0_r. apply C.
      + rewrite !app_length. simpl. lia.
      + intros i v N. destruct (Nat.lt_ge_cases i (length (n_vars st))) as [Li|Li].
        * rewrite nth_error_app1 in N by exact Li. rewrite nth_error_app1 by lia. rewrite (V' i v N). f_equal.
          destruct v as [b|]; simpl; [|reflexivity]. rewrite upd_ne; [reflexivity|].
          intros ->. apply cnt_pos in N. lia.
        * rewrite nth_error_app2 in N by exact Li. rewrite nth_error_app2 by lia. rewrite L.
          destruct (i - length (n_vars st)) as [|[|k]]; simpl in *; try discriminate. injection N as <-.
          simpl. rewrite upd_eq. reflexivity.
    - pose proof (NInv_var st vs i I) as Q. destruct (nth_error (n_vars st) i) as [[a|]|] eqn:Ni.
      + destruct Q as (c & Hc & Qv & P & Q). rewrite Qv. unfold rc_clone, deref. rewrite Hc. simpl.
        eexists _, _. split; [reflexivity|]. split; [reflexivity|]. simpl. apply NInv_intro; simpl.
        * intro b. rewrite cnt_app, cnt_one. simpl. destruct (Nat.eq_dec b a) as [->|Nb].
          -- rewrite upd_eq, Nat.eqb_refl. simpl. lia.
          -- rewrite upd_ne by exact Nb. assert (E : Nat.eqb a b = false) by (apply Nat.eqb_neq; congruence). rewrite E.
             rewrite Nat.add_0_r. apply C.
        * rewrite !app_length. simpl. lia.
        * assert (See : forall v, see {| n_heap := h_upd (n_heap st) a (Some {| strong := S (strong c); content := content c |});
                       n_vars := n_vars st ++ [Some a] |} v = see st v).
          { intros [b|]; simpl; [|reflexivity]. destruct (Nat.eq_dec b a) as [->|Nb].
            - rewrite upd_eq, Hc. reflexivity.
            - rewrite upd_ne by exact Nb. reflexivity. }
          intros j v N. rewrite See. destruct (Nat.lt_ge_cases j (length (n_vars st))) as [Li|Li].
          -- rewrite nth_error_app1 in N by exact Li. rewrite nth_error_app1 by lia. apply V'. exact N.
          -- rewrite nth_error_app2 in N by exact Li. rewrite nth_error_app2 by lia. rewrite L.
             destruct (j - length (n_vars st)) as [|[|k]]; simpl in *; try discriminate. injection N as <-.
             simpl. rewrite Hc. reflexivity.
      + rewrite Q. eexists _, _. split; [reflexivity|]. split; [reflexivity|exact I].
      + rewrite Q. eexists _, _. split; [reflexivity|]. split; [reflexivity|exact I].
    - pose proof (NInv_var st vs i I) as Q. destruct (nth_error (n_vars st) i) as [[a|]|] eqn:Ni.
      + destruct Q as (c & Hc & Qv & P & Q). rewrite Qv. unfold rc_make_mut, deref. rewrite Hc. simpl.
        destruct (Nat.eqb_spec (strong c) 1) as [E1|E1]; simpl.
        * rewrite Hc. simpl. eexists _, _. split; [reflexivity|]. split; [reflexivity|]. simpl. apply NInv_intro; simpl.
          -- intro b. pose proof (cnt_set b (n_vars st) i (Some a) (Some a) Ni) as Cs.
             destruct (Nat.eq_dec b a) as [->|Nb].
             ++ rewrite upd_eq. simpl. simpl in Cs. rewrite Nat.eqb_refl in Cs. lia.
             ++ rewrite upd_ne by exact Nb. specialize (C b). simpl in Cs. destruct (n_heap st b); lia.
          -- rewrite !set_nth_length. exact L.
          -- intros j v. rewrite !nth_set_nth. destruct (Nat.eqb_spec i j) as [<-|Nj].
             ++ rewrite Ni, Qv. intros [= <-]. simpl. rewrite upd_eq. reflexivity.
             ++ intro N. rewrite (V' j v N). f_equal. destruct v as [b|]; simpl; [|reflexivity].
                rewrite upd_ne; [reflexivity|]. intros ->. (* two variables on a unique cell *)
                clear - Ni N Nj Q E1. rewrite E1 in Q. revert i j Ni N Nj. unfold cnt in Q. revert Q.
                assert (Z : forall l, cnt a l = 0 -> forall i, nth_error l i = Some (Some a) -> False)
                  by (intros l Z i N; apply cnt_pos in N; lia). unfold cnt in Z.
                generalize (n_vars st). clear st. intros l Q i j Ni N Nj. symmetry in Q. revert i j Ni N Nj Q. induction l as [|v l IH]; intros [|i] [|j]; simpl; try discriminate; try congruence.
                ** intros [= ->] N _. simpl. rewrite Nat.eqb_refl. simpl. intro Q. apply (Z l ltac:(lia) _ N).
                ** intros N [= ->] _. simpl. rewrite Nat.eqb_refl. simpl. intro Q. apply (Z l ltac:(lia) _ N).
                ** intros N1 N2 Nj Q. destruct (isa a v); simpl in Q.
                   --- apply (Z l ltac:(lia) _ N1).
                   --- apply (IH i j); auto.
        * set (a' := alloc (n_heap st)) in *. assert (Na : a <> a') by congruence.
          unfold rc_drop, deref. rewrite upd_ne by exact Na. rewrite Hc. simpl.
          assert (E2 : Nat.eqb (strong c) 1 = false) by (apply Nat.eqb_neq; exact E1). rewrite E2.
          rewrite upd_ne, upd_eq by congruence. simpl.
          eexists _, _. split; [reflexivity|]. split; [reflexivity|]. simpl. apply NInv_intro; simpl.
          -- intro b. pose proof (cnt_set b (n_vars st) i (Some a) (Some a') Ni) as Cs. simpl in Cs.
             destruct (Nat.eq_dec b a') as [->|Nb'].
             ++ rewrite upd_eq. simpl. rewrite Nat.eqb_refl in Cs.
                assert (E : Nat.eqb a a' = false) by (apply Nat.eqb_neq; exact Na). rewrite E in Cs. lia.
             ++ rewrite upd_ne by exact Nb'. assert (E : Nat.eqb a' b = false) by (apply Nat.eqb_neq; congruence). rewrite E in Cs.
                destruct (Nat.eq_dec b a) as [->|Nb].
                ** rewrite upd_eq. simpl. rewrite Nat.eqb_refl in Cs. lia.
                ** rewrite !upd_ne by congruence. assert (E' : Nat.eqb a b = false) by (apply Nat.eqb_neq; congruence). rewrite E' in Cs.
                   specialize (C b). destruct (n_heap st b); lia.
          -- rewrite !set_nth_length. exact L.
          -- intros j v. rewrite !nth_set_nth. destruct (Nat.eqb_spec i j) as [<-|Nj].
             ++ rewrite Ni, Qv. intros [= <-]. simpl. rewrite upd_eq. reflexivity.
             ++ intro N. rewrite (V' j v N). f_equal. destruct v as [b|]; simpl; [|reflexivity].
                assert (b <> a') by (intros ->; apply cnt_pos in N; lia).
                rewrite upd_ne by assumption. destruct (Nat.eq_dec b a) as [->|Nb].
                ** rewrite upd_eq, Hc. reflexivity.
                ** rewrite !upd_ne by assumption. reflexivity.
      + rewrite Q. eexists _, _. split; [reflexivity|]. split; [reflexivity|exact I].
      + rewrite Q. eexists _, _. split; [reflexivity|]. split; [reflexivity|exact I].
    - pose proof (NInv_var st vs i I) as Q. destruct (nth_error (n_vars st) i) as [[a|]|] eqn:Ni.
      + destruct Q as (c & Hc & Qv & P & Q). rewrite Qv. unfold rc_drop, deref. rewrite Hc. simpl.
        eexists _, _. split; [reflexivity|]. split; [reflexivity|]. simpl.
        assert (Cn : forall b, cnt b (set_nth (n_vars st) i None) + (if Nat.eqb a b then 1 else 0) = cnt b (n_vars st)).
        { intro b. pose proof (cnt_set b (n_vars st) i (Some a) None Ni) as Cs. simpl in Cs. lia. }
        apply NInv_intro; simpl.
        * intro b. specialize (Cn b). destruct (Nat.eq_dec b a) as [->|Nb].
          -- rewrite upd_eq. rewrite Nat.eqb_refl in Cn. destruct (Nat.eqb_spec (strong c) 1); simpl; lia.
          -- rewrite upd_ne by exact Nb. assert (E : Nat.eqb a b = false) by (apply Nat.eqb_neq; congruence). rewrite E in Cn.
             specialize (C b). destruct (n_heap st b); lia.
        * rewrite !set_nth_length. exact L.
        * intros j v. rewrite !nth_set_nth. destruct (Nat.eqb_spec i j) as [<-|Nj].
          -- rewrite Ni, Qv. intros [= <-]. reflexivity.
          -- intro N. rewrite (V' j v N). f_equal. destruct v as [b|]; simpl; [|reflexivity].
             destruct (Nat.eq_dec b a) as [->|Nb]; [|rewrite upd_ne by exact Nb; reflexivity].
             rewrite upd_eq, Hc. simpl. destruct (Nat.eqb_spec (strong c) 1) as [E1|]; [|reflexivity].
             exfalso. specialize (Cn a). rewrite Nat.eqb_refl in Cn.
             assert (N' : nth_error (set_nth (n_vars st) i None) j = Some (Some a)).
             { rewrite nth_set_nth. apply Nat.eqb_neq in Nj. rewrite Nj. exact N. }
             apply cnt_pos in N'. lia.
      + rewrite Q. eexists _, _. split; [reflexivity|]. split; [reflexivity|exact I].
      + rewrite Q. eexists _, _. split; [reflexivity|]. split; [reflexivity|exact I].
    - pose proof (NInv_var st vs i I) as Q. destruct (nth_error (n_vars st) i) as [[a|]|] eqn:Ni.
      + destruct Q as (c & Hc & Qv & _). rewrite Qv. unfold deref. rewrite Hc. simpl.
        eexists _, _. split; [reflexivity|]. split; [reflexivity|exact I].
      + rewrite Q. eexists _, _. split; [reflexivity|]. split; [reflexivity|exact I].
      + rewrite Q. eexists _, _. split; [reflexivity|]. split; [reflexivity|exact I].
    - pose proof (NInv_var st vs i I) as Q. pose proof (NInv_var st vs j I) as Q'.
      destruct (nth_error (n_vars st) i) as [[a|]|] eqn:Ni.
      + destruct Q as (c & Hc & Qv & _). rewrite Qv. destruct (nth_error (n_vars st) j) as [[b|]|] eqn:Nj.
        * destruct Q' as (d & Hd & Qv' & _). rewrite Qv'. unfold deref. rewrite Hc, Hd. simpl.
          eexists _, _. split; [reflexivity|]. split; [reflexivity|exact I].
        * rewrite Q'. eexists _, _. split; [reflexivity|]. split; [reflexivity|exact I].
        * rewrite Q'. eexists _, _. split; [reflexivity|]. split; [reflexivity|exact I].
      + rewrite Q. eexists _, _. split; [reflexivity|]. split; [reflexivity|exact I].
      + rewrite Q. eexists _, _. split; [reflexivity|]. split; [reflexivity|exact I].
  Qed.

  Lemma init_ok : NInv n_init [].
  Proof. apply NInv_intro; simpl; [reflexivity|reflexivity|]. intros [|i] v; discriminate. Qed.

  Lemma exec_ok ops : forall st vs, NInv st vs ->
    exists st', n_exec alloc st ops = Ret (fst (v_exec vs ops), st') /\ NInv st' (snd (v_exec vs ops)).
  Proof.
    induction ops as [|op ops IH]; intros st vs I; simpl; [eauto|].
    destruct (step_ok st vs op I) as (o & st1 & R & Eo & I1). rewrite R. simpl.
    destruct (v_step vs op) as [o1 vs1]. simpl in *. subst o.
    destruct (IH st1 vs1 I1) as (st2 & R2 & I2). rewrite R2. simpl.
    destruct (v_exec vs1 ops) as [o2 vs2]. eauto.
  Qed.

  (** Memory: an allocation is live exactly while some name refers to it. *)
  Lemma names_refine ops : exists st,
    n_exec alloc n_init ops = Ret (fst (v_exec [] ops), st) /\
    map (see st) (n_vars st) = snd (v_exec [] ops) /\
    (forall a, n_heap st a = None <-> ~ In (Some a) (n_vars st)).
  Proof.
    destruct (exec_ok ops n_init [] init_ok) as (st & R & I). exists st. split; [exact R|]. destruct I as [C [L V] Lv]. split.
    - assert (Z : forall (l : list (option string)) m, length l = length m -> (forall i, nth_error l i = option_map (see st) (nth_error m i)) -> map (see st) m = l).
      { induction l as [|x l IHl]; intros [|y m] Le N; try discriminate; [reflexivity|]. simpl. f_equal.
        - specialize (N 0). simpl in N. congruence.
        - apply IHl; [simpl in Le; lia|]. intro i. exact (N (S i)). }
      apply Z; [exact L|exact V].
    - intro a. split.
      + intros Hn J. apply In_nth_error in J. destruct J as (i & J). destruct (Lv i a J). congruence.
      + intro J. specialize (C a). destruct (n_heap st a) as [c|]; [|reflexivity]. exfalso. destruct C as [P Q]. rewrite Q in P.
        unfold cnt in P. destruct (filter (isa a) (n_vars st)) as [|v f] eqn:F; simpl in P; [lia|].
        assert (K : In v (filter (isa a) (n_vars st))) by (rewrite F; left; reflexivity). apply filter_In in K. destruct K as [K1 K2].
        apply isa_iff in K2. subst. auto.
  Qed.
End N.
