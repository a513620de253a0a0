(** The Earley model works on one tree by number; here every one of its steps on the tree is an operation of
    the tree API on handles the parser has been given. *)
From Coq Require Import String List Arith NArith Lia Bool.
From Verif.Model Require Import Ord BTree Outcome Utils Grammar StartGrammar Tokens Tree State Earley.
From Verif.Spec Require Import Reach TreeSpec EarleySpec.
From Verif.Proofs Require Import OrdFacts BTreeFacts LoopFacts GrammarFacts TreeFacts TreeHist.
Import ListNotations.

Lemma get_some_In {K A} `{Ord K} (k : K) (m : btmap K A) v : bt_get k m = Some v -> exists k', In (k', v) m.
Proof.
  induction m as [|[k0 v0] m IH]; simpl; [discriminate|]. destruct (cmp k k0).
  - intros [= ->]. exists k0. left. reflexivity.
  - intro G. destruct (IH G) as (k' & I). exists k'. right. exact I.
  - intro G. destruct (IH G) as (k' & I). exists k'. right. exact I.
Qed.
Lemma insert_Forall {K A} `{Ord K} (Q : A -> Prop) (k : K) v (m : btmap K A) :
  Forall (fun kv => Q (snd kv)) m -> Q v -> Forall (fun kv => Q (snd kv)) (bt_insert k v m).
Proof.
  intros F q. induction F as [|[k0 v0] m Fx F IH]; simpl; [constructor; [exact q|constructor]|].
  destruct (cmp k k0); constructor; auto.
Qed.

Section Link.
  Context {T NT AK AV V : Type} `{OrdEq T} `{OrdEq NT} `{OrdEq AK} `{OrdEq V}.
  Local Notation wld := (world T AK V).
  Local Notation hist := (history T AK V).
  Local Notation tree := (Inner T AK V).
  Local Notation nd h i := {| nd_index := i; nd_inner := h |}.
  Implicit Types (t : tree) (W : wld) (tr : hist).

  Lemma set_get W h t t' : nth_error W h = Some t -> nth_error (w_set W h t') h = Some t'.
  Proof. intro E. unfold w_set. rewrite nth_list_set, Nat.eqb_refl, E. reflexivity. Qed.
  Lemma set_set W h t t' : w_set (w_set W h t) h t' = w_set W h t'.
  Proof. apply list_set_set. Qed.
  Lemma collect_idx h (v : list nat) : collect_indexes h (map (fun i => nd h i) v) = Ret v.
  Proof. rewrite collect_ok; [rewrite map_map; simpl; rewrite map_id; reflexivity|]. intros n I. apply in_map_iff in I. destruct I as (i & <- & _). reflexivity. Qed.

  (** *** The operations coincide *)
  Lemma link_leaf W h t k v n t' : nth_error W h = Some t -> in_make_leaf_node k v t = Ret (n, t') ->
    w_make_leaf_node W h k v = (Ret (nd h n), w_set W h t').
  Proof.
    intros E R. unfold in_make_leaf_node in R. unfold w_make_leaf_node, w_make_node, with_. rewrite E. cbn [expect on].
    destruct (in_make_node t) as [n0 t1]. cbn [on expect wbind]. unfold wbind, w_make_leaf_alt, w_make_alt, with_.
    rewrite (set_get _ _ _ t1 E). simpl. destruct (in_make_alt t1 (CLeaf k v)) as [a t2]. simpl.
    unfold w_add_alt, is_same, with_. simpl. rewrite Nat.eqb_refl. simpl. rewrite set_set, (set_get _ _ _ t2 E). simpl.
    destruct (in_add_node_alt n0 a t2) as [[c t3]|m|]; [|discriminate|discriminate]. simpl in *. injection R as <- <-. rewrite set_set. reflexivity.
  Qed.
  Lemma link_branch W h t x v n t' : nth_error W h = Some t -> in_make_branch_node x v t = Ret (n, t') ->
    w_make_branch_node W h x (map (fun i => nd h i) v) = (Ret (nd h n), w_set W h t').
  Proof.
    intros E R. unfold in_make_branch_node in R. unfold w_make_branch_node, w_make_node, with_. rewrite E. cbn [expect on].
    destruct (in_make_node t) as [n0 t1]. cbn [on expect wbind]. unfold wbind, w_make_branch_alt, w_make_alt, with_.
    rewrite (set_get _ _ _ t1 E). cbn [expect on]. rewrite collect_idx. cbn [expect on]. rewrite ?(set_get _ _ _ t1 E). cbn [expect on].
    destruct (in_make_alt t1 (CBranch x v)) as [a t2]. simpl.
    unfold w_add_alt, is_same, with_. simpl. rewrite Nat.eqb_refl. simpl. rewrite set_set, (set_get _ _ _ t2 E). simpl.
    destruct (in_add_node_alt n0 a t2) as [[c t3]|m|]; [|discriminate|discriminate]. simpl in *. injection R as <- <-. rewrite set_set. reflexivity.
  Qed.
  Lemma link_add_all W h t n m c t' : nth_error W h = Some t -> in_add_all n m t = Ret (c, t') ->
    w_add_all W (nd h n) (nd h m) = (Ret c, w_set W h t').
  Proof.
    intros E R. unfold w_add_all, is_same, with_. simpl. rewrite Nat.eqb_refl. simpl. rewrite E. simpl. rewrite R. reflexivity.
  Qed.

  (** *** What the parser does to the tree, as a history *)
  Variable h : TreeHandle.
  Variable tr0 : hist.
  Variable W0 : wld.
  Hypothesis R0 : run tr0 W0.
  Hypothesis K0 : known_tree tr0 h.

  (** A step of the parser on the tree: it returned, and all handles are of this tree. *)
  Definition parser_step (e : tr_op T AK V * outcome (tr_val T AK V)) : Prop :=
    match e with
    | (TMakeLeafNode h' _ _, Ret _) => h' = h
    | (TMakeBranchNode h' _ ns, Ret _) => h' = h /\ (forall n, In n ns -> nd_inner n = h)
    | (TAddAll n m, Ret _) => nd_inner n = h /\ nd_inner m = h
    | _ => False
    end.
  (** The tree is [t], and the program holds handles for the nodes [K]. *)
  Definition Hold t (K : nat -> Prop) : Prop :=
    exists tr W, run (tr ++ tr0) W /\ nth_error W h = Some t /\ Forall parser_step tr /\
      (forall k, k <> h -> nth_error W k = nth_error W0 k) /\ length W = length W0 /\
      (forall n, K n -> exists o, In (o, Ret (RNode (nd h n))) tr).
  Definition sub (K K' : nat -> Prop) : Prop := forall n, K n -> K' n.
  Lemma sub_refl K : sub K K. Proof. intros n k; exact k. Qed.
  Lemma sub_trans K1 K2 K3 : sub K1 K2 -> sub K2 K3 -> sub K1 K3. Proof. intros A B n k. apply B, A, k. Qed.
  Lemma sub_Forall K K' v : sub K K' -> Forall K v -> Forall K' v.
  Proof. intros S F. exact (Forall_impl _ S F). Qed.

  Lemma set_other W k t : k <> h -> nth_error (w_set W h t) k = nth_error W k.
  Proof. intro N. unfold w_set. rewrite nth_list_set. destruct (Nat.eqb_spec h k); [congruence|reflexivity]. Qed.
  Lemma Hold_leaf t K k v n t' : Hold t K -> in_make_leaf_node k v t = Ret (n, t') -> Hold t' (fun m => m = n \/ K m).
  Proof.
    intros (tr & W & R & E & F & O & L & Kn) M. pose proof (link_leaf W h t k v n t' E M) as St.
    exists ((TMakeLeafNode h k v, Ret (RNode (nd h n))) :: tr), (w_set W h t'). split.
    - simpl. apply (run_step _ W); [exact R| |simpl; rewrite St; reflexivity]. simpl. unfold known_tree. apply in_app_iff. right. exact K0.
    - split; [exact (set_get _ _ _ _ E)|]. split; [constructor; [reflexivity|exact F]|].
      split; [intros j N; rewrite set_other by exact N; apply O; exact N|]. split; [unfold w_set; rewrite list_set_length; exact L|].
      intros m [->|Km]; [eexists; left; reflexivity|]. destruct (Kn m Km) as (o & I). exists o. right. exact I.
  Qed.
  Lemma Hold_branch t K x v n t' : Hold t K -> Forall K v -> in_make_branch_node x v t = Ret (n, t') -> Hold t' (fun m => m = n \/ K m).
  Proof.
    intros (tr & W & R & E & F & O & L & Kn) Fv M. pose proof (link_branch W h t x v n t' E M) as St.
    exists ((TMakeBranchNode h x (map (fun i => nd h i) v), Ret (RNode (nd h n))) :: tr), (w_set W h t'). split.
    - simpl. apply (run_step _ W); [exact R| |simpl; rewrite St; reflexivity]. simpl. split; [unfold known_tree; apply in_app_iff; right; exact K0|].
      apply Forall_forall. intros y Iy. apply in_map_iff in Iy. destruct Iy as (i & <- & Ii). rewrite Forall_forall in Fv.
      left. destruct (Kn i (Fv i Ii)) as (o & I). exists o. apply in_app_iff. left. exact I.
    - split; [exact (set_get _ _ _ _ E)|]. split.
      { constructor; [|exact F]. simpl. split; [reflexivity|]. intros y Iy. apply in_map_iff in Iy. destruct Iy as (i & <- & Ii). reflexivity. }
      split; [intros j N; rewrite set_other by exact N; apply O; exact N|]. split; [unfold w_set; rewrite list_set_length; exact L|].
      intros m [->|Km]; [eexists; left; reflexivity|]. destruct (Kn m Km) as (o & I). exists o. right. exact I.
  Qed.
  Lemma Hold_add_all t K n m c t' : Hold t K -> K n -> K m -> in_add_all n m t = Ret (c, t') -> Hold t' K.
  Proof.
    intros (tr & W & R & E & F & O & L & Kn) Ka Kb M. pose proof (link_add_all W h t n m c t' E M) as St.
    exists ((TAddAll (nd h n) (nd h m), Ret (RChanged c)) :: tr), (w_set W h t'). split.
    - simpl. apply (run_step _ W); [exact R| |simpl; rewrite St; reflexivity]. simpl.
      split; left; [destruct (Kn n Ka) as (o & I)|destruct (Kn m Kb) as (o & I)]; exists o; apply in_app_iff; left; exact I.
    - split; [exact (set_get _ _ _ _ E)|]. split; [constructor; [simpl; auto|exact F]|].
      split; [intros j N; rewrite set_other by exact N; apply O; exact N|]. split; [unfold w_set; rewrite list_set_length; exact L|].
      intros i Ki. destruct (Kn i Ki) as (o & I). exists o. right. exact I.
  Qed.
  Lemma Hold_sub t K K' : sub K' K -> Hold t K -> Hold t K'.
  Proof. intros S (tr & W & R & E & F & O & L & Kn). exists tr, W. repeat (split; [assumption|]). intros n k. apply Kn, S, k. Qed.

  (** *** The parser *)
  Variable lay : layout (StartNonTerminal NT).
  Variable sg : StartGrammar T NT AK AV.
  Local Notation ESet := (EarleyStateSet T NT AK AV).
  Local Notation EState := (EarleyState T NT AK AV).
  Definition stK (K : nat -> Prop) (st : EState) : Prop := Forall K (es_value st).
  Definition setK (K : nat -> Prop) (s : ESet) : Prop := Forall (fun kv => Forall K (snd kv)) s.
  Lemma setK_sub K K' s : sub K K' -> setK K s -> setK K' s.
  Proof. intros S F. unfold setK in *. eapply Forall_impl; [|exact F]. intros kv G. exact (sub_Forall _ _ _ S G). Qed.
  Lemma stK_sub K K' st : sub K K' -> stK K st -> stK K' st.
  Proof. apply sub_Forall. Qed.
  Lemma states_K K s : setK K s -> Forall (stK K) (states s).
  Proof. intro F. unfold states. apply Forall_map. exact F. Qed.

  (** From [t] with handles [K] to [t'] with the handles [K'] of [good]. *)
  Definition goes (K : nat -> Prop) t' (good : (nat -> Prop) -> Prop) : Prop := exists K', sub K K' /\ Hold t' K' /\ good K'.

  Lemma scan_hold st tok t K o t' : Hold t K -> stK K st -> scan st tok t = Ret (o, t') ->
    goes K t' (fun K' => match o with Some st' => stK K' st' | None => True end).
  Proof.
    intros Ho Ks R. unfold scan in R.
    assert (Id : goes K t (fun _ => True)) by (exists K; split; [apply sub_refl|auto]).
    destruct (next_elem_state _) as [[e ps]|]; [|injection R as <- <-; exact Id].
    destruct (as_term (pe_elem e)) as [tm|]; [|injection R as <- <-; exact Id].
    destruct (has_kind tm (tk_kind tok)); [|injection R as <- <-; exact Id].
    destruct (in_make_leaf_node _ _ t) as [[n t1]|m|] eqn:E; try discriminate. simpl in R. injection R as <- <-.
    exists (fun m => m = n \/ K m). split; [intros m; auto|]. split; [exact (Hold_leaf _ _ _ _ _ _ Ho E)|].
    unfold stK. simpl. unfold create_next_value. apply Forall_app. split; [apply (sub_Forall K); [intros m; auto|exact Ks]|]. constructor; [auto|constructor].
  Qed.
  Lemma complete_hold self : forall sts t K r t', Hold t K -> stK K self -> Forall (stK K) sts -> complete_from self sts t = Ret (r, t') ->
    goes K t' (fun K' => Forall (stK K') r).
  Proof.
    induction sts as [|st sts IH]; intros t K r t' Ho Ks F R; cbn [complete_from] in R.
    - injection R as <- <-. exists K. split; [apply sub_refl|]. split; [exact Ho|constructor].
    - inversion F as [|x y F1 F2]; subst.
      destruct (next_elem_state _) as [[e ps]|]; [|exact (IH _ _ _ _ Ho Ks F2 R)].
      destruct (as_nonterm (pe_elem e)) as [nt|]; [|exact (IH _ _ _ _ Ho Ks F2 R)].
      destruct (eqb nt _); [|exact (IH _ _ _ _ Ho Ks F2 R)].
      destruct (as_base _) as [ak|]; simpl in R; [|discriminate].
      destruct (in_make_branch_node ak (es_value self) t) as [[n t1]|m|] eqn:E; try discriminate. simpl in R.
      destruct (complete_from self sts t1) as [[rest t2]|m|] eqn:E2; try discriminate. simpl in R. injection R as <- <-.
      assert (S1 : sub K (fun m => m = n \/ K m)) by (intros m; auto).
      destruct (IH t1 _ rest t2 (Hold_branch _ _ _ _ _ _ Ho Ks E) (stK_sub _ _ _ S1 Ks) (Forall_impl _ (fun st => stK_sub _ _ st S1) F2) E2) as (K2 & S2 & Ho2 & Fr).
      exists K2. split; [exact (sub_trans _ _ _ S1 S2)|]. split; [exact Ho2|]. constructor; [|exact Fr].
      unfold stK. simpl. unfold create_next_value. apply Forall_app. split; [exact (sub_Forall _ _ _ (sub_trans _ _ _ S1 S2) F1)|].
      constructor; [apply S2; auto|constructor].
  Qed.
  Lemma merge_hold K : forall l c t c' t', Forall (fun '(n, m) => K n /\ K m) l -> Hold t K ->
    change_iter_from (fun '(existing_node, new_node) t => in_add_all existing_node new_node t) c l t = Ret (c', t') -> Hold t' K.
  Proof.
    induction l as [|[n m] l IH]; intros c t c' t' F Ho R; simpl in R.
    - injection R as <- <-. exact Ho.
    - inversion F as [|x y F1a F2]; subst. destruct F1a as [F1 F1']. destruct (in_add_all n m t) as [[c1 t1]|e|] eqn:E; try discriminate. simpl in R.
      apply (IH _ _ _ _ F2 (Hold_add_all _ _ _ _ _ _ Ho F1 F1' E) R).
  Qed.
  Lemma insert_hold K st s t c s' t' : Hold t K -> setK K s -> stK K st -> insert lay st (s, t) = Ret (c, (s', t')) -> Hold t' K /\ setK K s'.
  Proof.
    intros Ho Ss Ks R. unfold insert in R. destruct (bt_get (es_key st) s) as [v|] eqn:G.
    - destruct (Nat.eqb _ _); [|discriminate]. simpl in R. unfold merge_values in R.
      destruct (change_iter _ _ t) as [[c1 t1]|e|] eqn:E; try discriminate. simpl in R. injection R as <- <- <-.
      split; [|exact Ss]. apply (merge_hold K _ _ _ _ _) with (3 := E); [|exact Ho].
      assert (Fv : Forall K v).
      { unfold setK in Ss. rewrite Forall_forall in Ss.
        pose proof (get_some_In _ _ _ G) as X.
        destruct X as (k & I). exact (Ss _ I). }
      clear - Fv Ks. unfold stK in Ks. revert Ks. generalize (es_value st) as v'. induction Fv as [|n v Kn Fv IH]; intros [|m v'] F; simpl; constructor.
      + inversion F; auto.
      + inversion F; auto.
    - injection R as <- <- <-. split; [exact Ho|]. apply insert_Forall; [exact Ss|exact Ks].
  Qed.
  Lemma inserts_hold K : forall l c s t c' s' t', Hold t K -> setK K s -> Forall (stK K) l ->
    change_iter_from (insert lay) c l (s, t) = Ret (c', (s', t')) -> Hold t' K /\ setK K s'.
  Proof.
    induction l as [|st l IH]; intros c s t c' s' t' Ho Ss F R; cbn [change_iter_from] in R.
    - injection R as <- <- <-. auto.
    - inversion F as [|x y F1 F2]; subst. destruct (insert lay st (s, t)) as [[c1 [s1 t1]]|e|] eqn:E; try discriminate. cbn [obind] in R.
      destruct (insert_hold K _ _ _ _ _ _ Ho Ss F1 E) as [Ho1 Ss1]. exact (IH _ _ _ _ _ _ Ho1 Ss1 F2 R).
  Qed.
  Lemma scans_hold tok : forall sts s t K s' t', Hold t K -> setK K s -> Forall (stK K) sts -> from_scans lay sts tok (s, t) = Ret (s', t') ->
    goes K t' (fun K' => setK K' s').
  Proof.
    induction sts as [|st sts IH]; intros s t K s' t' Ho Ss F R; cbn [from_scans] in R.
    - injection R as <- <-. exists K. split; [apply sub_refl|auto].
    - inversion F as [|x y F1 F2]; subst. destruct (scan st tok t) as [[o t1]|e|] eqn:E; try discriminate. cbn [obind] in R.
      destruct (scan_hold _ _ _ _ _ _ Ho F1 E) as (K1 & S1 & Ho1 & Go).
      assert (F2' : Forall (stK K1) sts) by (exact (Forall_impl _ (fun st => stK_sub _ _ st S1) F2)).
      destruct o as [st'|].
      + destruct (insert lay st' (s, t1)) as [[c [s2 t2]]|e|] eqn:E2; try discriminate. cbn [obind] in R.
        destruct (insert_hold K1 _ _ _ _ _ _ Ho1 (setK_sub _ _ _ S1 Ss) Go E2) as [Ho2 Ss2].
        destruct (IH _ _ _ _ _ Ho2 Ss2 F2' R) as (K2 & S2 & X). exists K2. split; [exact (sub_trans _ _ _ S1 S2)|exact X].
      + destruct (IH _ _ _ _ _ Ho1 (setK_sub _ _ _ S1 Ss) F2' R) as (K2 & S2 & X). exists K2. split; [exact (sub_trans _ _ _ S1 S2)|exact X].
  Qed.
  Lemma predict_K K st n : Forall (stK K) (predict sg st n).
  Proof.
    unfold predict. destruct (next_elem _) as [e|]; [|constructor]. destruct (as_nonterm e) as [nt|]; [|constructor].
    destruct (try_get_rule sg nt) as [r|]; [|constructor]. apply Forall_map. apply Forall_forall. intros p _. constructor.
  Qed.
  Lemma closure_hold prev cur : forall sts t K r t', Hold t K -> Forall (setK K) prev -> setK K cur -> Forall (stK K) sts ->
    closure_of sg sts prev cur t = Ret (r, t') -> goes K t' (fun K' => Forall (stK K') r).
  Proof.
    induction sts as [|st sts IH]; intros t K r t' Ho Sp Sc F R; cbn [closure_of] in R.
    - injection R as <- <-. exists K. split; [apply sub_refl|]. split; [exact Ho|constructor].
    - inversion F as [|x y F1 F2]; subst. destruct (complete st prev cur t) as [[cs t1]|e|] eqn:E; try discriminate. cbn [obind] in R.
      destruct (closure_of sg sts prev cur t1) as [[rest t2]|e|] eqn:E2; try discriminate. cbn [obind] in R. injection R as <- <-.
      assert (X : goes K t1 (fun K' => Forall (stK K') cs)).
      { unfold complete in E. destruct (is_complete _).
        - destruct (Nat.eqb _ _); simpl in E.
          + exact (complete_hold _ _ _ _ _ _ Ho F1 (states_K _ _ Sc) E).
          + destruct (nth_error prev _) as [os|] eqn:N; simpl in E; [|discriminate].
            rewrite Forall_forall in Sp. exact (complete_hold _ _ _ _ _ _ Ho F1 (states_K _ _ (Sp _ (nth_error_In _ _ N))) E).
        - injection E as <- <-. exists K. split; [apply sub_refl|]. split; [exact Ho|constructor]. }
      destruct X as (K1 & S1 & Ho1 & Fc).
      destruct (IH t1 K1 rest t2 Ho1) as (K2 & S2 & Ho2 & Fr); [exact (Forall_impl _ (fun s => setK_sub _ _ s S1) Sp)|exact (setK_sub _ _ _ S1 Sc)|exact (Forall_impl _ (fun st => stK_sub _ _ st S1) F2)|exact E2|].
      exists K2. split; [exact (sub_trans _ _ _ S1 S2)|]. split; [exact Ho2|]. apply Forall_app. split; [|exact Fr].
      apply Forall_app. split; [apply predict_K|]. exact (Forall_impl _ (fun st => stK_sub _ _ st S2) Fc).
  Qed.
  Lemma round_hold prev s t K c s' t' : Hold t K -> Forall (setK K) prev -> setK K s -> close_round lay sg prev (s, t) = Ret (c, (s', t')) ->
    goes K t' (fun K' => setK K' s').
  Proof.
    intros Ho Sp Ss R. unfold close_round in R. destruct (closure_of sg (states s) prev s t) as [[cl t1]|e|] eqn:E; try discriminate. cbn [obind] in R.
    destruct (closure_hold _ _ _ _ _ _ _ Ho Sp Ss (states_K _ _ Ss) E) as (K1 & S1 & Ho1 & F). unfold change_iter in R.
    destruct (inserts_hold K1 _ _ _ _ _ _ _ Ho1 (setK_sub _ _ _ S1 Ss) F R) as [Ho2 Ss2]. exists K1. auto.
  Qed.
  Lemma close_hold prev fuel : forall s t K s' t', Hold t K -> Forall (setK K) prev -> setK K s ->
    change_loop (close_round lay sg prev) fuel (s, t) = Ret (s', t') -> goes K t' (fun K' => setK K' s').
  Proof.
    induction fuel as [|fuel IH]; intros s t K s' t' Ho Sp Ss R; cbn [change_loop] in R; [discriminate|].
    destruct (close_round lay sg prev (s, t)) as [[c [s1 t1]]|e|] eqn:E; try discriminate. cbn [obind] in R.
    destruct (round_hold _ _ _ _ _ _ _ Ho Sp Ss E) as (K1 & S1 & Ho1 & Ss1).
    destruct c; cbn [obind] in R.
    - destruct (IH _ _ K1 _ _ Ho1 (Forall_impl _ (fun s => setK_sub _ _ s S1) Sp) Ss1 R) as (K2 & S2 & X).
      exists K2. split; [exact (sub_trans _ _ _ S1 S2)|exact X].
    - injection R as <- <-. exists K1. auto.
  Qed.
  Lemma close_state_hold prev fuel s t K s' t' : Hold t K -> Forall (setK K) prev -> setK K s ->
    close_state lay sg prev (s, t) fuel = Ret (s', t') -> goes K t' (fun K' => setK K' s').
  Proof.
    intros Ho Sp Ss R. unfold close_state in R. cbn [fst] in R. destruct s; [discriminate|]. cbn [assert_ obind] in R.
    exact (close_hold _ _ _ _ _ _ _ Ho Sp Ss R).
  Qed.
  Lemma last_In {A} (l : list A) x : last (map Some l) None = Some x -> In x l.
  Proof. induction l as [|a l IH]; [discriminate|]. destruct l as [|b l]; [intros [= ->]; left; reflexivity|]. intro E. right. apply IH. exact E. Qed.
  Lemma tokens_hold fuel : forall toks sets t K sets' t', Hold t K -> Forall (setK K) sets ->
    parse_tokens lay sg toks sets t fuel = Ret (sets', t') -> goes K t' (fun K' => Forall (setK K') sets').
  Proof.
    induction toks as [|tok toks IH]; intros sets t K sets' t' Ho Ss R; cbn [parse_tokens] in R.
    - injection R as <- <-. exists K. split; [apply sub_refl|auto].
    - destruct (last (map Some sets) None) as [l|] eqn:El; [|discriminate]. cbn [expect obind] in R.
      unfold shift in R. destruct (from_scans lay (states l) tok ([], t)) as [[s1 t1]|e|] eqn:E; try discriminate. cbn [obind] in R.
      destruct (close_state lay sg sets (s1, t1) fuel) as [[s2 t2]|e|] eqn:E2; try discriminate. cbn [obind] in R.
      rewrite Forall_forall in Ss. pose proof (Ss _ (last_In _ _ El)) as Sl. rewrite <- Forall_forall in Ss.
      destruct (scans_hold tok _ [] _ _ _ _ Ho (Forall_nil _) (states_K _ _ Sl) E) as (K1 & S1 & Ho1 & Ss1).
      destruct (close_state_hold _ _ _ _ _ _ _ Ho1 (Forall_impl _ (fun s => setK_sub _ _ s S1) Ss) Ss1 E2) as (K2 & S2 & Ho2 & Ss2).
      pose proof (sub_trans _ _ _ S1 S2) as S12.
      destruct (IH (sets ++ [s2]) t2 K2 sets' t' Ho2) as (K3 & S3 & X); [|exact R|].
      { apply Forall_app. split; [exact (Forall_impl _ (fun s => setK_sub _ _ s S12) Ss)|]. constructor; [exact Ss2|constructor]. }
      exists K3. split; [exact (sub_trans _ _ _ S12 S3)|exact X].
  Qed.
  Lemma from_states_hold K : forall sts s t s' t', Hold t K -> setK K s -> Forall (stK K) sts -> from_states lay sts (s, t) = Ret (s', t') -> Hold t' K /\ setK K s'.
  Proof.
    induction sts as [|st sts IH]; intros s t s' t' Ho Ss F R; cbn [from_states] in R; [injection R as <- <-; auto|].
    inversion F as [|x y F1 F2]; subst. destruct (insert lay st (s, t)) as [[c [s1 t1]]|e|] eqn:E; try discriminate. cbn [obind] in R.
    destruct (insert_hold K _ _ _ _ _ _ Ho Ss F1 E) as [Ho1 Ss1]. exact (IH _ _ _ _ Ho1 Ss1 F2 R).
  Qed.
  Lemma final_K K s m : setK K s -> get_final s = Ret (Some m) -> K m.
  Proof.
    induction s as [|[k v] s IH]; intros Ss R; cbn [get_final] in R; [discriminate|]. inversion Ss as [|x y Fv F]; subst. cbn [snd] in Fv.
    destruct (is_final_key k); [|exact (IH F R)]. destruct v as [|n [|]]; try discriminate. simpl in R. injection R as <-. inversion Fv; assumption.
  Qed.

  (** A parse that returns is a history of API calls that all returned, each on handles of this tree that
      earlier calls of the parse handed out. *)
  Theorem parse_history tokens t fuel o t' : nth_error W0 h = Some t -> parse lay sg tokens t fuel = Ret (o, t') ->
    exists tr W, run (tr ++ tr0) W /\ nth_error W h = Some t' /\ Forall parser_step tr /\
      (forall k, k <> h -> nth_error W k = nth_error W0 k) /\ length W = length W0 /\
      (forall m, o = Some m -> exists op, In (op, Ret (RNode (nd h m))) tr).
  Proof.
    intros E R. assert (Ho : Hold t (fun _ => False)).
    { exists [], W0. split; [exact R0|]. split; [exact E|]. split; [constructor|]. split; [auto|]. split; [reflexivity|]. intros n []. }
    unfold parse, new_start in R. destruct (get_rule sg _) as [r|e|]; try discriminate. cbn [obind] in R.
    destruct (from_states lay _ ([], t)) as [[s1 t1]|e|] eqn:E1; try discriminate. cbn [obind] in R.
    destruct (close_state lay sg [] (s1, t1) fuel) as [[s2 t2]|e|] eqn:E2; try discriminate. cbn [obind] in R.
    destruct (parse_tokens lay sg tokens [s2] t2 fuel) as [[sets t3]|e|] eqn:E3; try discriminate. cbn [obind] in R.
    destruct (last (map Some sets) None) as [l|] eqn:El; [|discriminate]. cbn [expect obind] in R.
    destruct (get_final l) as [o'|e|] eqn:E4; try discriminate. cbn [obind] in R. injection R as <- <-.
    destruct (from_states_hold (fun _ => False) (map (fun p => from_prod_start p 0) (rule_prods r)) [] t s1 t1 Ho (Forall_nil _)) as [Ho1 Ss1]; [|exact E1|].
    { apply Forall_map. apply Forall_forall. intros p _. constructor. }
    destruct (close_state_hold [] _ _ _ _ _ _ Ho1 (Forall_nil _) Ss1 E2) as (K2 & _ & Ho2 & Ss2).
    destruct (tokens_hold _ _ [s2] _ _ _ _ Ho2 (Forall_cons _ Ss2 (Forall_nil _)) E3) as (K3 & _ & Ho3 & Ss3).
    destruct Ho3 as (tr & W & X1 & X2 & X3 & X4 & X5 & X6). exists tr, W. repeat (split; [assumption|]).
    intros m ->. apply X6. rewrite Forall_forall in Ss3. exact (final_K _ _ _ (Ss3 _ (last_In _ _ El)) E4).
  Qed.
End Link.
