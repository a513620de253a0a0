(** The parser reads its input from left to right: what it does with the first tokens does not depend on the rest. *)
From Coq Require Import String List Arith Lia.
From Verif.Model Require Import Ord BTree Outcome Utils Grammar StartGrammar Tokens Tree State Earley.
From Verif.Spec Require Import Reach Cfg BuildSpec EarleySpec.
From Verif.Proofs Require Import OrdFacts BTreeFacts LoopFacts EarleyItems EarleyMore.
Import ListNotations.

(** ** Positions and segments *)
Section Seg.
  Context {A : Type}.
  Lemma seg_prefix (u v : list A) i k : k <= length u -> seg (u ++ v) i k = seg u i k.
  Proof.
    intro L. unfold seg. destruct (le_lt_dec i k) as [I|I]; [|replace (k - i) with 0 by lia; reflexivity].
    rewrite skipn_app, firstn_app, skipn_length. replace (k - i - (length u - i)) with 0 by lia. apply app_nil_r.
  Qed.
  Lemma firstn_prefix (u v : list A) k : k <= length u -> firstn k (u ++ v) = firstn k u.
  Proof. intro L. rewrite firstn_app. replace (k - length u) with 0 by lia. apply app_nil_r. Qed.
End Seg.
Section Positions.
  Context {T NT : Type}.
  Variable P : NT -> list (Elem T NT) -> Prop.
  Variable S : NT.
  Lemma predicted_shrink (u v : list T) i A : predicted P S (u ++ v) i A -> i <= length u -> predicted P S u i A.
  Proof.
    induction 1 as [|i A pre B post k Pi IH R L1 L2 G]; intro L; [constructor|].
    econstructor; [apply IH; lia|exact R|exact L1|exact L|]. rewrite <- (seg_prefix u v) by exact L. exact G.
  Qed.
  Lemma predicted_grow (u v : list T) i A : predicted P S u i A -> predicted P S (u ++ v) i A.
  Proof.
    induction 1 as [|i A pre B post k Pi IH R L1 L2 G]; [constructor|].
    econstructor; [exact IH|exact R|exact L1|rewrite app_length; lia|]. rewrite seg_prefix by exact L2. exact G.
  Qed.
  Lemma two_places_prefix (u v : list T) k : k <= length u -> (two_places P S (u ++ v) k <-> two_places P S u k).
  Proof.
    intro L. split; intros (i & A & pre & mid & post & Pr & R & Ne & L1 & L2 & G1 & G2); exists i, A, pre, mid, post.
    - rewrite seg_prefix in G1, G2 by exact L. repeat (split; [first [assumption | apply (predicted_shrink u v); [exact Pr|lia]]|]). exact G2.
    - rewrite !seg_prefix by exact L. split; [apply predicted_grow; exact Pr|]. repeat (split; [first [assumption|rewrite app_length; lia]|]). exact G2.
  Qed.
End Positions.

(** ** The tree only grows *)
Section Grow.
  Context {T NT AK AV V : Type} `{Ord T} `{Ord NT} `{Ord AK} `{Ord V}.
  Implicit Types t : Inner T AK V.
  Definition grows t t' : Prop :=
    (forall n s, get_node t n = Ret s -> exists s', get_node t' n = Ret s' /\ incl s s') /\
    (forall a c, get_alt t a = Ret c -> get_alt t' a = Ret c).
  Lemma grows_refl t : grows t t.
  Proof. split; [intros n s G; exists s; split; [exact G|apply incl_refl]|auto]. Qed.
  Lemma grows_trans t1 t2 t3 : grows t1 t2 -> grows t2 t3 -> grows t1 t3.
  Proof.
    intros [A1 B1] [A2 B2]. split; [|auto]. intros n s G. destruct (A1 n s G) as (s' & G' & I).
    destruct (A2 n s' G') as (s'' & G'' & I'). exists s''. split; [exact G''|]. exact (incl_tran I I').
  Qed.
  Lemma expect_Ret {X} (o : option X) m x : expect o m = Ret x <-> o = Some x.
  Proof. destruct o; cbn; split; congruence. Qed.
  Lemma grows_nodes t l : grows t (Build_Inner (in_nodes t ++ l) (in_alts t)).
  Proof.
    split; [|auto]. intros n s G. exists s. split; [|apply incl_refl]. unfold get_node in *. rewrite expect_Ret in *. cbn.
    rewrite nth_error_app1; [exact G|]. apply nth_error_Some. congruence.
  Qed.
  Lemma grows_make_alt t c : grows t (snd (in_make_alt t c)).
  Proof.
    unfold in_make_alt, altset_add. destruct (bt_get c _); cbn; [destruct t as [nn aa]; apply grows_refl|].
    split; [intros n s G; exists s; split; [exact G|apply incl_refl]|]. intros a d G. unfold get_alt in *. rewrite expect_Ret in *. cbn.
    rewrite nth_error_app1; [exact G|]. apply nth_error_Some. congruence.
  Qed.
  Lemma nth_set {A} (l : list A) i x j y : nth_error l j = Some y -> nth_error (list_set l i x) j = Some (if Nat.eqb i j then x else y).
  Proof.
    revert i j. induction l as [|a l IH]; intros i j E; [destruct j; discriminate|]. destruct i, j; cbn in *; try exact E; [reflexivity|].
    apply IH. exact E.
  Qed.
  Lemma grows_add t n a c t' : in_add_node_alt n a t = Ret (c, t') -> grows t t'.
  Proof.
    unfold in_add_node_alt. destruct (get_node t n) as [s|m|] eqn:G; try discriminate. cbn [obind bs_insert]. intros [= _ <-].
    split; [|auto]. intros k r Gk. unfold get_node in *. rewrite expect_Ret in *. cbn [in_nodes].
    rewrite (nth_set _ n (bs_add a s) k r Gk). destruct (Nat.eqb_spec n k) as [<-|N].
    - exists (bs_add a s). split; [reflexivity|]. rewrite Gk in G. injection G as <-. intros x I. apply bs_add_In_old. exact I.
    - exists r. split; [reflexivity|apply incl_refl].
  Qed.
  Lemma grows_iter {I} (f : I -> Inner T AK V -> outcome (WasChanged * Inner T AK V)) :
    (forall i t c t', f i t = Ret (c, t') -> grows t t') ->
    forall l c0 t c t', change_iter_from f c0 l t = Ret (c, t') -> grows t t'.
  Proof.
    intros F l. induction l as [|i l IH]; intros c0 t c t' R; cbn [change_iter_from] in R; [injection R as _ <-; apply grows_refl|].
    destruct (f i t) as [[d t1]|m|] eqn:E; try discriminate. cbn [obind] in R. exact (grows_trans _ _ _ (F _ _ _ _ E) (IH _ _ _ _ R)).
  Qed.
  Lemma grows_add_all n m t c t' : in_add_all n m t = Ret (c, t') -> grows t t'.
  Proof.
    unfold in_add_all. destruct (get_node t m) as [s|e|]; try discriminate. cbn [obind]. apply grows_iter. intros i u d u'. apply grows_add.
  Qed.
  Lemma grows_node_alt (c : ContentInner T AK V) t n t' :
    (let '(node, t1) := in_make_node t in let '(alt, t2) := in_make_alt t1 c in '(_, t3) <- in_add_node_alt node alt t2 ;; Ret (node, t3)) = Ret (n, t') ->
    grows t t'.
  Proof.
    cbn [in_make_node]. set (t1 := Build_Inner (in_nodes t ++ [[]]) (in_alts t)). pose proof (grows_make_alt t1 c) as G2.
    destruct (in_make_alt t1 c) as [a t2]. cbn [snd] in G2. destruct (in_add_node_alt _ a t2) as [[d t3]|m|] eqn:E; try discriminate.
    cbn [obind]. intros [= _ <-]. exact (grows_trans _ _ _ (grows_nodes t [[]]) (grows_trans _ _ _ G2 (grows_add _ _ _ _ _ E))).
  Qed.
  Lemma grows_reads t t' : grows t t' -> forall n tr, reads t n tr -> reads t' n tr.
  Proof.
    intros [A B]. fix F 3. intros n tr R. destruct R as [n s a k v G I C|n s a x ns cs G I C Rs].
    - destruct (A n s G) as (s' & G' & In'). exact (reads_leaf t' n s' a k v G' (In' _ I) (B _ _ C)).
    - destruct (A n s G) as (s' & G' & In'). apply (reads_branch t' n s' a x ns cs G' (In' _ I) (B _ _ C)).
      clear - F Rs. revert ns cs Rs. fix Fs 3. intros ns cs Rs. destruct Rs as [|m ms c cs R Rs]; [constructor|constructor; [apply F; exact R|apply Fs; exact Rs]].
  Qed.

  Variable lay : layout (StartNonTerminal NT).
  Variable sg : StartGrammar T NT AK AV.
  Local Notation ESet := (EarleyStateSet T NT AK AV).
  Lemma grows_scan st tok t o t' : scan (NT := NT) (AV := AV) st tok t = Ret (o, t') -> grows t t'.
  Proof.
    unfold scan. destruct (next_elem_state _) as [[e ps]|]; [|intros [= _ <-]; apply grows_refl].
    destruct (as_term _) as [tm|]; [|intros [= _ <-]; apply grows_refl]. destruct (has_kind _ _); [|intros [= _ <-]; apply grows_refl].
    destruct (in_make_leaf_node _ _ t) as [[n t1]|m|] eqn:E; try discriminate. cbn [obind]. intros [= _ <-]. exact (grows_node_alt _ _ _ _ E).
  Qed.
  Lemma grows_insert st (s : ESet) t c s' t' : insert lay st (s, t) = Ret (c, (s', t')) -> grows t t'.
  Proof.
    unfold insert. destruct (bt_get _ s) as [v|]; [|intros [= _ _ <-]; apply grows_refl]. destruct (assert_ _ _); try discriminate. cbn [obind].
    destruct (merge_values _ _ t) as [[d t1]|m|] eqn:E; try discriminate. cbn [obind]. intros [= _ _ <-]. unfold merge_values in E.
    eapply grows_iter; [|exact E]. intros [i j] u e u'. apply grows_add_all.
  Qed.
  Lemma grows_scans tok : forall sts (s : ESet) t s' t', from_scans lay sts tok (s, t) = Ret (s', t') -> grows t t'.
  Proof.
    induction sts as [|st sts IH]; intros s t s' t' R; cbn [from_scans] in R; [injection R as _ <-; apply grows_refl|].
    destruct (scan st tok t) as [[o t1]|m|] eqn:E; try discriminate. cbn [obind] in R. apply (grows_trans _ t1); [exact (grows_scan _ _ _ _ _ E)|].
    destruct o as [st'|]; [|exact (IH _ _ _ _ R)]. destruct (insert lay st' (s, t1)) as [[c [s2 t2]]|m|] eqn:E2; try discriminate. cbn [obind] in R.
    exact (grows_trans _ _ _ (grows_insert _ _ _ _ _ _ E2) (IH _ _ _ _ R)).
  Qed.
  Lemma grows_complete self : forall sts t l t', complete_from (T := T) (NT := NT) (AV := AV) self sts t = Ret (l, t') -> grows t t'.
  Proof.
    induction sts as [|st sts IH]; intros t l t' R; cbn [complete_from] in R; [injection R as _ <-; apply grows_refl|].
    destruct (next_elem_state _) as [[e ps]|]; [|exact (IH _ _ _ R)]. destruct (as_nonterm _) as [nt|]; [|exact (IH _ _ _ R)].
    destruct (eqb nt _); [|exact (IH _ _ _ R)]. destruct (expect _ _) as [ac|m|]; try discriminate. cbn [obind] in R.
    destruct (in_make_branch_node ac _ t) as [[n t1]|m|] eqn:E; try discriminate. cbn [obind] in R.
    destruct (complete_from self sts t1) as [[r t2]|m|] eqn:E2; try discriminate. cbn [obind] in R. injection R as _ <-.
    exact (grows_trans _ _ _ (grows_node_alt _ _ _ _ E) (IH _ _ _ E2)).
  Qed.
  Lemma grows_closure (prev : list ESet) cur : forall sts t l t', closure_of sg sts prev cur t = Ret (l, t') -> grows t t'.
  Proof.
    induction sts as [|st sts IH]; intros t l t' R; cbn [closure_of] in R; [injection R as _ <-; apply grows_refl|].
    destruct (complete st prev cur t) as [[c t1]|m|] eqn:E; try discriminate. cbn [obind] in R.
    destruct (closure_of sg sts prev cur t1) as [[r t2]|m|] eqn:E2; try discriminate. cbn [obind] in R. injection R as _ <-.
    apply (grows_trans _ t1); [|exact (IH _ _ _ E2)]. unfold complete in E. destruct (is_complete _); [|injection E as _ <-; apply grows_refl].
    match type of E with obind ?x _ = _ => destruct x as [os|m|] end; try discriminate. cbn [obind] in E. exact (grows_complete _ _ _ _ _ E).
  Qed.
  Lemma grows_inserts : forall l c0 (s : ESet) t c s' t', change_iter_from (insert lay) c0 l (s, t) = Ret (c, (s', t')) -> grows t t'.
  Proof.
    induction l as [|i l IH]; intros c0 s t c s' t' R; cbn [change_iter_from] in R; [injection R as _ _ <-; apply grows_refl|].
    destruct (insert lay i (s, t)) as [[d [s1 t1]]|m|] eqn:E; try discriminate. cbn [obind] in R.
    exact (grows_trans _ _ _ (grows_insert _ _ _ _ _ _ E) (IH _ _ _ _ _ _ R)).
  Qed.
  Lemma grows_close (prev : list ESet) s t n s' t' : close_state lay sg prev (s, t) n = Ret (s', t') -> grows t t'.
  Proof.
    unfold close_state. destruct (assert_ _ _); try discriminate. cbn [obind]. intro R.
    apply (change_loop_inv (close_round lay sg prev) (fun st => grows t (snd st))) in R; [exact (proj1 R)| |apply grows_refl].
    intros [s1 t1] c [s2 t2] G E. cbn [snd] in *. unfold close_round in E. destruct (closure_of _ _ _ _ t1) as [[cl t3]|m|] eqn:E3; try discriminate.
    cbn [obind] in E. exact (grows_trans _ _ _ G (grows_trans _ _ _ (grows_closure _ _ _ _ _ _ E3) (grows_inserts _ _ _ _ _ _ _ E))).
  Qed.
  Lemma grows_tokens n : forall toks (sets : list ESet) t sets' t', parse_tokens lay sg toks sets t n = Ret (sets', t') -> grows t t'.
  Proof.
    induction toks as [|tok toks IH]; intros sets t sets' t' R; cbn [parse_tokens] in R; [injection R as _ <-; apply grows_refl|].
    destruct (expect _ _) as [l|m|]; try discriminate. cbn [obind] in R. unfold shift in R.
    destruct (from_scans lay _ tok ([], t)) as [[s1 t1]|m|] eqn:E1; try discriminate. cbn [obind] in R.
    destruct (close_state lay sg sets (s1, t1) n) as [[s2 t2]|m|] eqn:E2; try discriminate. cbn [obind] in R.
    exact (grows_trans _ _ _ (grows_scans _ _ _ _ _ _ E1) (grows_trans _ _ _ (grows_close _ _ _ _ _ _ E2) (IH _ _ _ _ R))).
  Qed.

  Lemma tokens_app n : forall u v (sets : list ESet) t,
    parse_tokens lay sg (u ++ v) sets t n = ('(sets', t') <- parse_tokens lay sg u sets t n ;; parse_tokens lay sg v sets' t' n).
  Proof.
    induction u as [|tok u IH]; intros v sets t; [reflexivity|]. cbn [app parse_tokens].
    destruct (expect _ _) as [l|m|]; [|reflexivity..]. cbn [obind]. destruct (shift lay l tok t) as [s|m|]; [|reflexivity..]. cbn [obind].
    destruct (close_state lay sg sets s n) as [[s2 t2]|m|]; [|reflexivity..]. cbn [obind]. apply IH.
  Qed.
  Lemma parse_grows u v t0 o t o' t' : runs_to (fun n => parse lay sg u t0 n) (Ret (o, t)) ->
    runs_to (fun n => parse lay sg (u ++ v) t0 n) (Ret (o', t')) -> grows t t'.
  Proof.
    intros [_ [n1 E1]] [_ [n2 E2]]. specialize (E1 (n1 + n2) ltac:(lia)). specialize (E2 (n1 + n2) ltac:(lia)). revert E1 E2.
    generalize (n1 + n2). intros n. unfold parse. destruct (new_start lay sg t0) as [s|m|]; try discriminate. cbn [obind].
    destruct (close_state lay sg [] s n) as [[s1 t1]|m|]; try discriminate. cbn [obind]. rewrite tokens_app.
    destruct (parse_tokens lay sg u [s1] t1 n) as [[sets2 t2]|m|]; try discriminate. cbn [obind].
    destruct (parse_tokens lay sg v sets2 t2 n) as [[sets3 t3]|m|] eqn:E; try discriminate; cbn [obind].
    destruct (expect _ _) as [l|m|]; try discriminate. cbn [obind]. destruct (get_final l) as [r|m|]; try discriminate. cbn [obind]. intros [= _ <-].
    destruct (expect _ _) as [l'|m|]; try discriminate. cbn [obind]. destruct (get_final l') as [r'|m|]; try discriminate. cbn [obind]. intros [= _ <-].
    exact (grows_tokens _ _ _ _ _ _ E).
  Qed.
End Grow.
