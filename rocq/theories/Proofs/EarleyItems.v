(** Earley items, independent of the algorithm that computes them. *)
From Coq Require Import String List Arith Lia.
From Verif.Model Require Import Ord BTree Outcome Utils Grammar StartGrammar Tokens Tree State.
From Verif.Spec Require Import Reach Cfg BuildSpec NullSpec EarleySpec.
From Verif.Proofs Require Import OrdFacts BTreeFacts GrammarFacts StartFacts NullableFacts.
Import ListNotations.

(** ** Segments *)
Section Seg.
  Context {A : Type}.
  Implicit Types (w u : list A).
  Lemma seg_same w i : seg w i i = [].
  Proof. unfold seg. rewrite Nat.sub_diag. reflexivity. Qed.
  Lemma seg_length w i k : i <= k -> k <= length w -> length (seg w i k) = k - i.
  Proof. intros L1 L2. unfold seg. rewrite firstn_length, skipn_length. lia. Qed.
  Lemma skipn_add w i j : skipn (i + j) w = skipn j (skipn i w).
  Proof. revert w. induction i as [|i IH]; intros [|x w]; simpl; try reflexivity; [symmetry; apply skipn_nil|apply IH]. Qed.
  Lemma seg_app w i j k : i <= j -> j <= k -> seg w i k = seg w i j ++ seg w j k.
  Proof.
    intros L1 L2. unfold seg. replace (k - i) with ((j - i) + (k - j)) by lia.
    replace (skipn j w) with (skipn (j - i) (skipn i w)) by (rewrite <- skipn_add; f_equal; lia).
    generalize (skipn i w) (j - i) (k - j). clear. intros l a b. revert l.
    induction a as [|a IH]; intros [|x l]; simpl; try reflexivity; [rewrite firstn_nil; reflexivity|]. f_equal. apply IH.
  Qed.
  Lemma seg_0 w k : seg w 0 k = firstn k w.
  Proof. unfold seg. rewrite Nat.sub_0_r. reflexivity. Qed.
  Lemma seg_all w : seg w 0 (length w) = w.
  Proof. rewrite seg_0. apply firstn_all. Qed.
  Lemma seg_one w k x : nth_error w k = Some x -> seg w k (S k) = [x].
  Proof.
    intro E. unfold seg. replace (S k - k) with 1 by lia. revert w E.
    induction k as [|k IH]; intros [|y w] E; try discriminate; simpl in *; [congruence|]. apply IH. exact E.
  Qed.
  Lemma seg_mid x u y : seg (x ++ u ++ y) (length x) (length x + length u) = u.
  Proof.
    unfold seg. replace (length x + length u - length x) with (length u) by lia.
    rewrite skipn_app, skipn_all, Nat.sub_diag. simpl. rewrite firstn_app, firstn_all, Nat.sub_diag. simpl. apply app_nil_r.
  Qed.
  Lemma seg_split w i k : i <= k -> k <= length w -> w = firstn i w ++ seg w i k ++ skipn k w.
  Proof.
    intros L1 L2. unfold seg. rewrite <- (firstn_skipn i w) at 1. f_equal.
    rewrite <- (firstn_skipn (k - i) (skipn i w)) at 1. f_equal. rewrite <- skipn_add. f_equal. lia.
  Qed.
  Lemma seg_map {B} (f : A -> B) w i k : seg (map f w) i k = map f (seg w i k).
  Proof. unfold seg. rewrite skipn_map, firstn_map. reflexivity. Qed.
  Lemma firstn_S_nth w k x : nth_error w k = Some x -> firstn (S k) w = firstn k w ++ [x].
  Proof. revert w. induction k as [|k IH]; intros [|y w] E; try discriminate; simpl in *; [congruence|]. f_equal. apply IH. exact E. Qed.
  Lemma skipn_nth w k x : nth_error w k = Some x -> skipn k w = x :: skipn (S k) w.
  Proof. revert w. induction k as [|k IH]; intros [|y w] E; try discriminate; simpl in *; [congruence|]. apply IH. exact E. Qed.
End Seg.

(** ** The wrapped grammar *)
Definition wrapg {T NT AK AV} `{Ord NT} (g : Grammar T NT AK AV) : StartGrammar T NT AK AV :=
  calls_grammar Start (wrap_start_call g :: map wrap_rule_call (rules g)).

Section Items.
  Context {T NT AK AV V : Type} `{OrdEq T} `{OrdEq NT}.
  Variable g : Grammar T NT AK AV.
  Hypothesis Bg : accepted g.
  Local Notation SP := (Prod (StreamTerminal T) (StartNonTerminal NT) (StartActionKey AK) (StartActionValue AV)).
  Local Notation sg := (wrapg g).
  Local Notation P := (rhs_of g).
  Local Notation S0 := (start_nt g).

  Definition p0 : SP := Build_Prod Start 0 (start_prod_inner g).
  Definition wP (A : NT) (ix : nat) (q : ProdInner T NT AK AV) : SP := Build_Prod (NTerm A) ix (wrap_prod q).

  Lemma sg_wf : rs_wf sg.
  Proof. apply calls_rs_wf. Qed.
  Lemma sprod_inv (p : SP) : In p (prods sg) -> p = p0 \/ exists A ix q, p = wP A ix q /\ nth_prod g A ix q.
  Proof.
    intro I. apply (prods_In sg sg_wf) in I. destruct I as (r & I & J). apply (wrap_In g Bg) in I.
    destruct p as [[|A] ix q]; simpl in *.
    - subst r. simpl in J. destruct ix as [|ix]; simpl in J; [injection J as <-; left; reflexivity|]. destruct ix; discriminate.
    - destruct I as (r0 & I & ->). simpl in J. rewrite nth_error_map in J.
      destruct (nth_error (r_prods r0) ix) as [q0|] eqn:E; [|discriminate]. injection J as <-.
      right. exists A, ix, q0. split; [reflexivity|]. exists r0. auto.
  Qed.
  Lemma p0_prod : In p0 (prods sg).
  Proof. apply (prods_In sg sg_wf). eexists. split; [apply (wrap_In g Bg); simpl; reflexivity|]. reflexivity. Qed.
  Lemma wP_prod A ix q : nth_prod g A ix q -> In (wP A ix q) (prods sg).
  Proof.
    intros (r & I & J). apply (prods_In sg sg_wf). eexists. split.
    - apply (wrap_In g Bg). simpl. exists r. split; [exact I|reflexivity].
    - simpl. rewrite nth_error_map, J. reflexivity.
  Qed.
  Lemma wP_elements A ix q : elements (wP A ix q) = map wrap_sym (elements_iter q).
  Proof. unfold elements, elements_iter. simpl. rewrite !map_map. reflexivity. Qed.
  Lemma p0_elements : elements p0 = [NonTerm (NTerm S0); Term EndOfStream].
  Proof. reflexivity. Qed.
  Lemma wrap_sym_inj (e e' : Elem T NT) : wrap_sym e = wrap_sym e' -> e = e'.
  Proof. destruct e, e'; simpl; congruence. Qed.
  Lemma nth_prod_rhs A ix q : nth_prod g A ix q -> P A (elements_iter q).
  Proof. intro N. exists q. split; [apply prod_of_nth; exists ix; exact N|reflexivity]. Qed.
  Lemma rhs_nth_prod A rhs : P A rhs -> exists ix q, nth_prod g A ix q /\ rhs = elements_iter q.
  Proof. intros (q & Pr & ->). apply prod_of_nth in Pr. destruct Pr as (ix & N). exists ix, q. auto. Qed.

  Variable w : list (Token T V).
  Local Notation kw := (map tk_kind w).

  Section Gen.
    Context {Lb : Type}.
    Variable lfl : SP * nat * nat -> nat -> Token T V -> Lb.
    Variable brl : SP * nat * nat -> SP -> nat -> nat -> list Lb -> Lb.

    (** [item k p d i ls]: after the first [k] tokens, production [p], begun at [i], has its first [d]
        symbols recognised; [ls] are labels of the pieces (a label may depend on the place the piece is for). *)
    Inductive item : nat -> SP -> nat -> nat -> list Lb -> Prop :=
    | it_start : item 0 p0 0 0 []
    | it_predict k q d i ls p : item k q d i ls -> nth_error (elements q) d = Some (NonTerm (p_head p)) ->
        In p (prods sg) -> item k p 0 k []
    | it_scan k q d i ls tok : item k q d i ls -> nth_error (elements q) d = Some (Term (STerm (tk_kind tok))) ->
        nth_error w k = Some tok -> item (S k) q (S d) i (ls ++ [lfl (q, d, i) k tok])
    | it_complete j q d i ls k p ls' : item j q d i ls -> nth_error (elements q) d = Some (NonTerm (p_head p)) ->
        item k p (length (elements p)) j ls' -> item k q (S d) i (ls ++ [brl (q, d, i) p j k ls']).

    Lemma item_facts k p d i ls : item k p d i ls ->
      i <= k /\ k <= length w /\ d <= length (elements p) /\ length ls = d /\ In p (prods sg).
    Proof.
      intro I. induction I as [|k q d i ls p _ IH N Ip|k q d i ls tok _ IH N E|j q d i ls k p ls' _ IH1 N _ IH2].
      - repeat (split; [simpl; lia|]). exact p0_prod.
      - destruct IH as (L1 & L2 & _). repeat (split; [simpl; lia|]). exact Ip.
      - destruct IH as (L1 & L2 & L3 & L4 & Ip).
        assert (k < length w) by (apply nth_error_Some; congruence).
        assert (d < length (elements q)) by (apply nth_error_Some; congruence).
        rewrite app_length. simpl. repeat (split; [lia|]). exact Ip.
      - destruct IH1 as (L1 & L2 & L3 & L4 & Ip). destruct IH2 as (M1 & M2 & _).
        assert (d < length (elements q)) by (apply nth_error_Some; congruence).
        rewrite app_length. simpl. repeat (split; [lia|]). exact Ip.
    Qed.
    Lemma item_p0 k p d i ls : item k p d i ls -> p = p0 -> i = 0 /\ d <= 1 /\ (d = 0 -> k = 0).
    Proof.
      intro I. induction I as [|k q d i ls p Iq IH N Ip|k q d i ls tok Iq IH N E|j q d i ls k p ls' Iq IH1 N _ _]; intro Ep.
      - lia.
      - exfalso. subst p. simpl in N. destruct (sprod_inv q) as [->|(A & ix & q0 & -> & _)].
        + apply item_facts in Iq. tauto.
        + destruct d as [|[|[|d]]]; simpl in N; discriminate.
        + rewrite wP_elements, nth_error_map in N. destruct (nth_error (elements_iter q0) d) as [[?|?]|]; discriminate.
      - exfalso. subst q. destruct (IH eq_refl) as (_ & L & _). destruct d as [|[|d]]; simpl in N; try discriminate. lia.
      - subst q. destruct (IH1 eq_refl) as (E & L & _). destruct d as [|[|d]]; simpl in N; [|discriminate|lia]. lia.
    Qed.
  End Gen.

  (** The same items whatever the labels. *)
  Lemma item_change {La Lb} lfa bra lfb brb k p d i (ls : list La) :
    item lfa bra k p d i ls -> exists ls' : list Lb, item lfb brb k p d i ls'.
  Proof.
    intro I. induction I as [|k q d i ls p _ [l1 IH] N Ip|k q d i ls tok _ [l1 IH] N E|j q d i ls k p ls' _ [l1 IH1] N _ [l2 IH2]];
      eexists; econstructor; eassumption.
  Qed.

  (** ** Items with derivation trees *)
  Definition tleaf (_ : SP * nat * nat) (_ : nat) (tok : Token T V) : ptree T AK V := PLeaf (tk_kind tok) (tk_value tok).
  Definition tbranch (dflt : AK) (_ : SP * nat * nat) (p : SP) (_ _ : nat) (ts : list (ptree T AK V)) : ptree T AK V :=
    PBranch (match as_base (action_key p) with Some ak => ak | None => dflt end) ts.

  Scheme dtree_mut := Induction for dtree Sort Prop
    with dtrees_mut := Induction for dtrees Sort Prop.
  Combined Scheme dtree_dtrees_ind from dtree_mut, dtrees_mut.

  Section Advance.
    Variable dflt : AK.
    Local Notation itemt := (item tleaf (tbranch dflt)).

    Lemma nth_skipn {A} (l : list A) d x r : skipn d l = x :: r -> nth_error l d = Some x /\ skipn (S d) l = r.
    Proof. revert l. induction d as [|d IH]; intros [|y l] E; try discriminate; simpl in *; [injection E as -> ->; auto|]. apply IH. exact E. Qed.

    Lemma advance :
      (forall e ts c, dtree g e ts c -> forall x y q d i cs, w = x ++ ts ++ y ->
         itemt (length x) q d i cs -> nth_error (elements q) d = Some (wrap_sym e) ->
         itemt (length x + length ts) q (S d) i (cs ++ [c])) /\
      (forall es ts cs', dtrees g es ts cs' -> forall x y q d i cs rest, w = x ++ ts ++ y ->
         itemt (length x) q d i cs -> skipn d (elements q) = map wrap_sym es ++ rest ->
         itemt (length x + length ts) q (d + length es) i (cs ++ cs')).
    Proof.
      apply dtree_dtrees_ind.
      - intros k v x y q d i cs Ew I N. simpl. rewrite Nat.add_1_r.
        apply (it_scan tleaf (tbranch dflt) (length x) q d i cs (Build_Token k v)); [exact I|exact N|].
        rewrite Ew. rewrite nth_error_app2 by lia. rewrite Nat.sub_diag. reflexivity.
      - intros A p ts cs' Pr _ IH x y q d i cs Ew I N. apply prod_of_nth in Pr. destruct Pr as (ix & Np).
        set (k := length x + length ts).
        pose proof (it_predict tleaf (tbranch dflt) _ q d i cs (wP A ix p) I N (wP_prod A ix p Np)) as I1.
        specialize (IH x y (wP A ix p) 0 (length x) [] [] Ew I1). simpl skipn in IH. rewrite wP_elements, app_nil_r in IH.
        specialize (IH eq_refl). simpl in IH.
        apply (it_complete tleaf (tbranch dflt) (length x) q d i cs k (wP A ix p) cs'); [exact I|exact N|].
        rewrite wP_elements, map_length. unfold elements_iter. exact IH.
      - intros x y q d i cs rest Ew I _. simpl. rewrite !Nat.add_0_r, app_nil_r. exact I.
      - intros e es ts us c cs' _ IH1 _ IH2 x y q d i cs rest Ew I E. simpl in E.
        destruct (nth_skipn _ _ _ _ E) as [N E'].
        rewrite <- app_assoc in Ew. specialize (IH1 x (us ++ y) q d i cs Ew I N).
        rewrite app_length. replace (length x + (length ts + length us)) with (length (x ++ ts) + length us) by (rewrite app_length; lia).
        replace (d + length (e :: es)) with (S d + length es) by (simpl; lia).
        replace (cs ++ c :: cs') with ((cs ++ [c]) ++ cs') by (rewrite <- app_assoc; reflexivity).
        apply (IH2 (x ++ ts) y q (S d) i (cs ++ [c]) rest).
        + rewrite <- app_assoc. exact Ew.
        + rewrite app_length. exact IH1.
        + exact E'.
    Qed.
    Lemma dtree_item tr : dtree g (NonTerm S0) w tr -> itemt (length w) p0 1 0 [tr].
    Proof.
      intro D. apply (proj1 advance) with (x := []) (y := []) (q := p0) (d := 0) (i := 0) (cs := []) in D.
      - exact D.
      - rewrite app_nil_r. reflexivity.
      - constructor.
      - reflexivity.
    Qed.
  End Advance.

  (** Derivable words and derivation trees. *)
  Lemma gen_dtrees es u : gen P es u -> forall ts, u = map tk_kind ts -> exists cs : list (ptree T AK V), dtrees g es ts cs.
  Proof.
    intro G. induction G as [|t es u _ IH|A rhs es u1 u2 (p & Pr & ->) _ IH1 _ IH2]; intros ts E.
    - symmetry in E. apply map_eq_nil in E. subst. exists []. constructor.
    - destruct ts as [|[k v] ts]; [discriminate|]. simpl in E. injection E as -> E. destruct (IH ts E) as (cs & D).
      exists (PLeaf k v :: cs). apply (dtrees_cons g (Term k) es [Build_Token k v] ts); [constructor|exact D].
    - symmetry in E. apply map_eq_app in E. destruct E as (t1 & t2 & -> & <- & <-).
      destruct (IH1 t1 eq_refl) as (c1 & D1). destruct (IH2 t2 eq_refl) as (c2 & D2).
      exists (PBranch (pi_action_key p) c1 :: c2). constructor; [econstructor; eassumption|exact D2].
  Qed.
  Lemma dtree_gen :
    (forall e ts (c : ptree T AK V), dtree g e ts c -> gen P [e] (map tk_kind ts)) /\
    (forall es ts (cs : list (ptree T AK V)), dtrees g es ts cs -> gen P es (map tk_kind ts)).
  Proof.
    apply dtree_dtrees_ind.
    - intros k v. simpl. constructor. constructor.
    - intros A p ts cs Pr _ IH. rewrite <- (app_nil_r (map tk_kind ts)).
      apply (gen_nonterm P A (map pe_elem (pi_elements p))); [exists p; auto|exact IH|constructor].
    - constructor.
    - intros e es ts us c cs _ IH1 _ IH2. rewrite map_app. exact (gen_app P [e] es _ _ IH1 IH2).
  Qed.

  (** ** Items and the specification *)
  Section Spec.
    Context {Lb : Type} (lfl : SP * nat * nat -> nat -> Token T V -> Lb) (brl : SP * nat * nat -> SP -> nat -> nat -> list Lb -> Lb).
    Local Notation itm := (item lfl brl).
    Local Notation predicted := (predicted P S0 kw).

    Lemma advance_gen es u : gen P es u -> forall x y q d i ls rest, kw = x ++ u ++ y ->
      itm (length x) q d i ls -> skipn d (elements q) = map wrap_sym es ++ rest ->
      exists ls', itm (length x + length u) q (d + length es) i ls'.
    Proof.
      intro G. induction G as [|t es u _ IH|A rhs es u1 u2 PA _ IH1 _ IH2]; intros x y q d i ls rest E I Es; simpl in Es.
      - simpl. rewrite !Nat.add_0_r. eauto.
      - destruct (nth_skipn _ _ _ _ Es) as [Nx Es'].
        assert (X : exists tok, nth_error w (length x) = Some tok /\ tk_kind tok = t).
        { assert (Ek : nth_error kw (length x) = Some t) by (rewrite E, nth_error_app2, Nat.sub_diag by lia; reflexivity).
          rewrite nth_error_map in Ek. destruct (nth_error w (length x)) as [tok|]; [|discriminate]. injection Ek as Ek. eauto. }
        destruct X as (tok & Ew & <-).
        pose proof (it_scan lfl brl _ q d i ls tok I Nx Ew) as I1.
        destruct (IH (x ++ [tk_kind tok]) y q (S d) i (ls ++ [lfl (q, d, i) (length x) tok]) rest) as (ls' & I').
        + rewrite E, <- app_assoc. reflexivity.
        + rewrite app_length. simpl. rewrite Nat.add_1_r. exact I1.
        + exact Es'.
        + exists ls'. rewrite app_length in I'. simpl in *. replace (length x + S (length u)) with (length x + 1 + length u) by lia.
          replace (d + S (length es)) with (S (d + length es)) by lia. exact I'.
      - destruct (nth_skipn _ _ _ _ Es) as [Nx Es']. destruct (rhs_nth_prod _ _ PA) as (ix & q1 & N1 & ->).
        rewrite <- app_assoc in E.
        pose proof (it_predict lfl brl _ q d i ls (wP A ix q1) I Nx (wP_prod A ix q1 N1)) as I1.
        destruct (IH1 x (u2 ++ y) (wP A ix q1) 0 (length x) [] [] E I1) as (ls1 & I2).
        { simpl skipn. rewrite wP_elements, app_nil_r. reflexivity. }
        simpl in I2. replace (length (elements_iter q1)) with (length (elements (wP A ix q1))) in I2 by (rewrite wP_elements, map_length; reflexivity).
        pose proof (it_complete lfl brl _ q d i ls _ (wP A ix q1) ls1 I Nx I2) as I3.
        destruct (IH2 (x ++ u1) y q (S d) i (ls ++ [brl (q, d, i) (wP A ix q1) (length x) (length x + length u1) ls1]) rest) as (ls' & I').
        + rewrite E, <- app_assoc. reflexivity.
        + rewrite app_length. exact I3.
        + exact Es'.
        + exists ls'. rewrite app_length in *. replace (length x + (length u1 + length u2)) with (length x + length u1 + length u2) by lia.
          simpl. replace (d + S (length es)) with (S (d + length es)) by lia. exact I'.
    Qed.
    Lemma advance_seg es q d i j k ls rest : gen P es (seg kw j k) -> j <= k -> k <= length w ->
      itm j q d i ls -> skipn d (elements q) = map wrap_sym es ++ rest -> exists ls', itm k q (d + length es) i ls'.
    Proof.
      intros G L1 L2 I Es. assert (L2' : k <= length kw) by (rewrite map_length; exact L2).
      assert (Lj : length (firstn j kw) = j) by (rewrite firstn_length; lia).
      destruct (advance_gen es _ G (firstn j kw) (skipn k kw) q d i ls rest) as (ls' & I').
      - apply seg_split; assumption.
      - rewrite Lj. exact I.
      - exact Es.
      - exists ls'. rewrite Lj, seg_length in I' by assumption. replace (j + (k - j)) with k in I' by lia. exact I'.
    Qed.

    Definition item_spec (k : nat) (p : SP) (d i : nat) : Prop :=
      i <= k /\ k <= length w /\
      ((p = p0 /\ i = 0 /\ ((d = 0 /\ k = 0) \/ (d = 1 /\ gen P [NonTerm S0] (seg kw 0 k)))) \/
       (exists A ix q, p = wP A ix q /\ nth_prod g A ix q /\ predicted i A /\ d <= length (elements_iter q) /\
          gen P (firstn d (elements_iter q)) (seg kw i k))).

    Lemma item_sound k p d i ls : itm k p d i ls -> item_spec k p d i.
    Proof.
      intro I. induction I as [|k q d i ls p Iq IH N Ip|k q d i ls tok Iq IH N E|j q d i ls k p ls' Iq IH1 N Ip IH2].
      - split; [lia|]. split; [lia|]. left. auto.
      - destruct (item_facts lfl brl _ _ _ _ _ Iq) as (L1 & L2 & L3 & _). split; [lia|]. split; [lia|]. right.
        assert (X : exists A, p_head p = NTerm A /\ predicted k A).
        { destruct IH as (_ & _ & [(-> & -> & [(-> & ->)|(-> & _)])|(A & ix & q0 & -> & Nq & Pr & Ld & G)]).
          - simpl in N. injection N as <-. exists S0. split; [reflexivity|constructor].
          - simpl in N. discriminate.
          - rewrite wP_elements, nth_error_map in N. destruct (nth_error (elements_iter q0) d) as [[t|B]|] eqn:E; try discriminate.
            simpl in N. injection N as <-. exists B. split; [reflexivity|].
            apply (predicted_next P S0 kw i A (firstn d (elements_iter q0)) B (skipn (S d) (elements_iter q0)) k Pr); auto.
            + rewrite <- (skipn_nth _ _ _ E), firstn_skipn. exact (nth_prod_rhs _ _ _ Nq).
            + rewrite map_length. exact L2. }
        destruct X as (A & Eh & Pr). destruct (sprod_inv p Ip) as [->|(A' & ix & q0 & -> & Nq)]; [discriminate|].
        simpl in Eh. injection Eh as ->. exists A, ix, q0. repeat (split; [auto|]); [lia|]. simpl. rewrite seg_same. constructor.
      - destruct (item_facts lfl brl _ _ _ _ _ Iq) as (L1 & L2 & L3 & _).
        assert (Lk : k < length w) by (apply nth_error_Some; congruence).
        split; [lia|]. split; [lia|]. right.
        destruct IH as (_ & _ & [(-> & -> & [(-> & ->)|(-> & _)])|(A & ix & q0 & -> & Nq & Pr & Ld & G)]); try (simpl in N; discriminate).
        rewrite wP_elements, nth_error_map in N. destruct (nth_error (elements_iter q0) d) as [[t|B]|] eqn:E1; try discriminate.
        simpl in N. injection N as ->. exists A, ix, q0. repeat (split; [auto|]).
        + assert (d < length (elements_iter q0)) by (apply nth_error_Some; congruence). lia.
        + rewrite (firstn_S_nth _ _ _ E1), (seg_app _ i k (S k)) by lia. apply gen_app; [exact G|].
          rewrite (seg_one _ k (tk_kind tok)) by (rewrite nth_error_map, E; reflexivity). constructor. constructor.
      - destruct (item_facts lfl brl _ _ _ _ _ Iq) as (L1 & L2 & L3 & _). destruct (item_facts lfl brl _ _ _ _ _ Ip) as (M1 & M2 & _ & _ & Ipp).
        split; [lia|]. split; [lia|].
        assert (X : exists B, p_head p = NTerm B /\ gen P [NonTerm B] (seg kw j k)).
        { destruct IH2 as (_ & _ & [(-> & _ & [(E & _)|(E & _)])|(B & ix & p1 & -> & Np & _ & _ & G)]); try (simpl in E; discriminate).
          exists B. split; [reflexivity|]. rewrite wP_elements, map_length, firstn_all in G. apply lang_iff.
          exists (elements_iter p1). split; [exact (nth_prod_rhs _ _ _ Np)|exact G]. }
        destruct X as (B & Eh & GB). rewrite Eh in N.
        destruct IH1 as (_ & _ & [(-> & -> & [(-> & ->)|(-> & _)])|(A & ix & q0 & -> & Nq & Pr & Ld & G)]).
        + simpl in N. injection N as <-. left. split; [reflexivity|]. split; [reflexivity|]. right. auto.
        + simpl in N. discriminate.
        + right. rewrite wP_elements, nth_error_map in N. destruct (nth_error (elements_iter q0) d) as [[t|B']|] eqn:E1; try discriminate.
          simpl in N. injection N as ->. exists A, ix, q0. repeat (split; [auto|]).
          * assert (d < length (elements_iter q0)) by (apply nth_error_Some; congruence). lia.
          * rewrite (firstn_S_nth _ _ _ E1), (seg_app _ i j k) by lia. apply gen_app; assumption.
    Qed.

    Lemma predicted_range i A : predicted i A -> i <= length kw.
    Proof. intro Pr. destruct Pr; [lia|assumption]. Qed.
    Lemma predicted_item i A : predicted i A -> forall ix q, nth_prod g A ix q -> itm i (wP A ix q) 0 i [].
    Proof.
      intro Pr. induction Pr as [|i A pre B post k Pr IH PA L1 L2 G]; intros ix q N.
      - apply (it_predict lfl brl 0 p0 0 0 [] (wP S0 ix q)); [constructor|reflexivity|apply wP_prod; exact N].
      - destruct (rhs_nth_prod _ _ PA) as (ix1 & q1 & N1 & E1). specialize (IH ix1 q1 N1).
        assert (Es : skipn 0 (elements (wP A ix1 q1)) = map wrap_sym pre ++ wrap_sym (NonTerm B) :: map wrap_sym post).
        { simpl skipn. rewrite wP_elements, <- E1, map_app. reflexivity. }
        rewrite map_length in L2.
        destruct (advance_seg pre (wP A ix1 q1) 0 i i k [] _ G L1 L2 IH Es) as (ls' & I'). simpl in I'.
        apply (it_predict lfl brl k (wP A ix1 q1) (length pre) i ls' (wP B ix q) I'); [|apply wP_prod; exact N].
        rewrite wP_elements, <- E1, map_app. rewrite nth_error_app2 by (rewrite map_length; lia).
        rewrite map_length, Nat.sub_diag. reflexivity.
    Qed.
    Lemma item_exists k p d i : item_spec k p d i -> exists ls, itm k p d i ls.
    Proof.
      intros (L1 & L2 & [(-> & -> & [(-> & ->)|(-> & G)])|(A & ix & q & -> & N & Pr & Ld & G)]).
      - exists []. constructor.
      - destruct (advance_seg [NonTerm S0] p0 0 0 0 k [] [Term EndOfStream] G L1 L2 (it_start lfl brl) eq_refl) as (ls & I).
        exists ls. exact I.
      - pose proof (predicted_item i A Pr ix q N) as I0.
        destruct (advance_seg (firstn d (elements_iter q)) (wP A ix q) 0 i i k [] (map wrap_sym (skipn d (elements_iter q))) G L1 L2 I0) as (ls & I).
        + simpl skipn. rewrite wP_elements, <- map_app, firstn_skipn. reflexivity.
        + exists ls. rewrite firstn_length, Nat.min_l in I by exact Ld. exact I.
    Qed.
    Lemma item_iff k p d i : (exists ls, itm k p d i ls) <-> item_spec k p d i.
    Proof. split; [intros (ls & I); exact (item_sound _ _ _ _ _ I)|apply item_exists]. Qed.

    (** Two places at once. *)
    Definition collision (k : nat) : Prop :=
      exists p d d' i ls ls', itm k p d i ls /\ itm k p d' i ls' /\ d <> d'.
    (** The panic it causes. *)
    Definition clash (msg : String.string) (k : nat) : Prop := msg = "assertion failed: `(left == right)`"%string /\ collision k.
    Lemma collision_iff k : collision k <-> two_places P S0 kw k \/ (k = 0 /\ lang P S0 []).
    Proof.
      split.
      - intros (p & d & d' & i & ls & ls' & I1 & I2 & N).
        apply item_sound in I1. apply item_sound in I2.
        assert (X : forall d d', item_spec k p d i -> item_spec k p d' i -> d < d' -> two_places P S0 kw k \/ (k = 0 /\ lang P S0 [])).
        { clear N I1 I2 d d' ls ls'. intros d d' (L1 & L2 & D1) (_ & _ & D2) Ld.
          destruct D1 as [(-> & -> & [(-> & ->)|(-> & G1)])|(A & ix & q & -> & Nq & Pr & Ld1 & G1)].
          - destruct D2 as [(_ & _ & [(-> & _)|(-> & G2)])|(A & ix & q & E & _)]; [lia| |discriminate].
            right. rewrite seg_same in G2. auto.
          - destruct D2 as [(_ & _ & [(-> & _)|(-> & G2)])|(A & ix & q & E & _)]; [lia|lia|discriminate].
          - destruct D2 as [(E & _)|(A' & ix' & q' & E & Nq' & _ & Ld2 & G2)]; [discriminate|].
            injection E as <- <- E. assert (q' = q) as -> by exact (nth_prod_fun g (acc_wf g Bg) A ix q' q Nq' Nq).
            left. exists i, A, (firstn d (elements_iter q)), (firstn (d' - d) (skipn d (elements_iter q))), (skipn d' (elements_iter q)).
            assert (E1 : firstn d (elements_iter q) ++ firstn (d' - d) (skipn d (elements_iter q)) = firstn d' (elements_iter q)).
            { rewrite <- (firstn_skipn d (firstn d' (elements_iter q))). f_equal.
              - rewrite firstn_firstn. f_equal. lia.
              - rewrite firstn_skipn_comm. do 2 f_equal. lia. }
            split; [exact Pr|]. split.
            + rewrite app_assoc, E1, firstn_skipn. exact (nth_prod_rhs _ _ _ Nq).
            + split.
              * intro Z. apply (f_equal (@length _)) in Z. rewrite firstn_length, skipn_length in Z. simpl in Z. lia.
              * split; [exact L1|]. split; [rewrite map_length; exact L2|]. split; [exact G1|]. rewrite E1. exact G2. }
        destruct (Nat.lt_total d d') as [L|[L|L]]; [eauto|congruence|eauto].
      - intros [(i & A & pre & mid & post & Pr & PA & Nm & L1 & L2 & G1 & G2)|(-> & G)].
        + rewrite map_length in L2. destruct (rhs_nth_prod _ _ PA) as (ix & q & Nq & Eq).
          assert (F1 : firstn (length pre) (elements_iter q) = pre).
          { rewrite <- Eq, firstn_app, firstn_all, Nat.sub_diag. simpl. apply app_nil_r. }
          assert (F2 : firstn (length (pre ++ mid)) (elements_iter q) = pre ++ mid).
          { rewrite <- Eq, app_assoc, firstn_app, firstn_all, Nat.sub_diag. simpl. apply app_nil_r. }
          assert (Le : length (elements_iter q) = length pre + length mid + length post) by (rewrite <- Eq, !app_length; lia).
          destruct (item_exists k (wP A ix q) (length pre) i) as (ls & I1).
          { split; [exact L1|]. split; [exact L2|]. right. exists A, ix, q. split; [reflexivity|]. split; [exact Nq|]. split; [exact Pr|]. split; [lia|]. rewrite F1. exact G1. }
          destruct (item_exists k (wP A ix q) (length (pre ++ mid)) i) as (ls' & I2).
          { split; [exact L1|]. split; [exact L2|]. right. exists A, ix, q. split; [reflexivity|]. split; [exact Nq|]. split; [exact Pr|].
            split; [rewrite app_length; lia|]. rewrite F2. exact G2. }
          exists (wP A ix q), (length pre), (length (pre ++ mid)), i, ls, ls'. split; [exact I1|]. split; [exact I2|].
          rewrite app_length. destruct mid; [congruence|simpl; lia].
        + destruct (item_exists 0 p0 1 0) as (ls & I).
          { split; [lia|]. split; [lia|]. left. split; [reflexivity|]. split; [reflexivity|]. right. split; [reflexivity|]. rewrite seg_same. exact G. }
          exists p0, 0, 1, 0, [], ls. split; [constructor|]. split; [exact I|lia].
    Qed.

    (** ** Viable prefixes *)
    Inductive pref : list (Elem T NT) -> list T -> Prop :=
    | pref_nil es : pref es []
    | pref_term t es u : pref es u -> pref (Term t :: es) (t :: u)
    | pref_in A rhs es u : P A rhs -> pref rhs u -> pref (NonTerm A :: es) u
    | pref_skip A rhs es u v : P A rhs -> gen P rhs u -> pref es v -> pref (NonTerm A :: es) (u ++ v).

    Lemma pref_app_l es1 es2 u : pref es1 u -> pref (es1 ++ es2) u.
    Proof. intro Q. induction Q; simpl; econstructor; eassumption. Qed.
    Lemma pref_app_r es1 es2 u v : gen P es1 u -> pref es2 v -> pref (es1 ++ es2) (u ++ v).
    Proof.
      intros G Q. induction G as [|t es u _ IH|A rhs es u u' PA G _ _ IH]; simpl; [exact Q|constructor; exact IH|].
      rewrite <- app_assoc. apply pref_skip with (rhs := rhs); assumption.
    Qed.
    Lemma pref_app_inv es1 : forall es2 u, pref (es1 ++ es2) u ->
      pref es1 u \/ exists u1 u2, u = u1 ++ u2 /\ gen P es1 u1 /\ pref es2 u2.
    Proof.
      induction es1 as [|e es1 IH]; intros es2 u Q; simpl in Q.
      - right. exists [], u. split; [reflexivity|]. split; [constructor|exact Q].
      - inversion Q as [|t es u' Q'|A rhs es u' PA Q'|A rhs es u1 v PA G Q']; subst.
        + left. constructor.
        + destruct (IH _ _ Q') as [L|(u1 & u2 & -> & G & Q2)].
          * left. constructor. exact L.
          * right. exists (t :: u1), u2. split; [reflexivity|]. split; [constructor; exact G|exact Q2].
        + left. apply pref_in with (rhs := rhs); assumption.
        + destruct (IH _ _ Q') as [L|(v1 & v2 & -> & G2 & Q2)].
          * left. apply pref_skip with (rhs := rhs); assumption.
          * right. exists (u1 ++ v1), v2. split; [rewrite app_assoc; reflexivity|]. split; [|exact Q2].
            apply gen_nonterm with (rhs := rhs); assumption.
    Qed.
    Lemma pref_step a b u : sstep P a b -> pref b u -> pref a u.
    Proof.
      intros [pre A rhs post PA] Q. apply pref_app_inv in Q. destruct Q as [Q|(u1 & u2 & -> & G1 & Q)]; [apply pref_app_l; exact Q|].
      apply pref_app_r; [exact G1|]. apply pref_app_inv in Q. destruct Q as [Q|(v1 & v2 & -> & G2 & Q)].
      - apply pref_in with (rhs := rhs); assumption.
      - apply pref_skip with (rhs := rhs); assumption.
    Qed.
    Lemma derives_pref a b u : derives_form P a b -> pref b u -> pref a u.
    Proof. intro D. induction D as [|y z _ IH St]; intro Q; [exact Q|]. apply IH. exact (pref_step _ _ _ St Q). Qed.
    Lemma pref_terms u rest : pref (map Term u ++ rest) u.
    Proof. induction u as [|t u IH]; simpl; constructor. exact IH. Qed.

    Lemma pref_item es u : pref es u -> forall x y q d i ls rest, kw = x ++ u ++ y ->
      itm (length x) q d i ls -> skipn d (elements q) = map wrap_sym es ++ rest ->
      exists q' d' i' ls', itm (length x + length u) q' d' i' ls'.
    Proof.
      intro Q. induction Q as [es|t es u _ IH|A rhs es u PA _ IH|A rhs es u v PA G _ IH]; intros x y q d i ls rest E I Es.
      - simpl. rewrite Nat.add_0_r. eauto.
      - simpl in Es. destruct (advance_gen [Term t] [t]) with (x := x) (y := u ++ y) (q := q) (d := d) (i := i) (ls := ls) (rest := map wrap_sym es ++ rest) as (ls1 & I1); auto.
        { constructor. constructor. }
        simpl in I1. destruct (nth_skipn _ _ _ _ Es) as [_ Es'].
        destruct (IH (x ++ [t]) y q (d + 1) i ls1 rest) as (q' & d' & i' & ls' & I').
        + rewrite E, <- app_assoc. reflexivity.
        + rewrite app_length. exact I1.
        + rewrite Nat.add_1_r. exact Es'.
        + exists q', d', i', ls'. rewrite app_length in I'. simpl in *. replace (length x + S (length u)) with (length x + 1 + length u) by lia. exact I'.
      - simpl in Es. destruct (nth_skipn _ _ _ _ Es) as [Nx _]. destruct (rhs_nth_prod _ _ PA) as (ix & q1 & N1 & E1).
        destruct (IH x y (wP A ix q1) 0 (length x) [] [] E) as (q' & d' & i' & ls' & I').
        + apply (it_predict lfl brl _ q d i ls (wP A ix q1) I Nx). apply wP_prod. exact N1.
        + simpl skipn. rewrite wP_elements, E1, app_nil_r. reflexivity.
        + eauto.
      - simpl in Es. rewrite <- app_assoc in E.
        destruct (advance_gen [NonTerm A] u) with (x := x) (y := v ++ y) (q := q) (d := d) (i := i) (ls := ls) (rest := map wrap_sym es ++ rest) as (ls1 & I1); auto.
        { apply lang_iff. exists rhs. auto. }
        destruct (nth_skipn _ _ _ _ Es) as [_ Es'].
        destruct (IH (x ++ u) y q (d + 1) i ls1 rest) as (q' & d' & i' & ls' & I').
        + rewrite E, <- app_assoc. reflexivity.
        + rewrite app_length. exact I1.
        + rewrite Nat.add_1_r. exact Es'.
        + exists q', d', i', ls'. rewrite app_length in *. replace (length x + (length u + length v)) with (length x + length u + length v) by lia. exact I'.
    Qed.

    Lemma star_app {A} (R : A -> A -> Prop) x y z : star R x y -> star R y z -> star R x z.
    Proof. intros S1 S2. induction S2 as [|u v _ IH St]; [exact S1|]. exact (star_step _ _ _ _ IH St). Qed.
    Lemma derives_ctx a b pre post : derives_form P a b -> derives_form P (pre ++ a ++ post) (pre ++ b ++ post).
    Proof.
      intro D. induction D as [|y z _ IH St]; [constructor|]. refine (star_step _ _ _ _ IH _).
      destruct St as [pr A rhs po PA]. pose proof (sstep_intro P (pre ++ pr) A rhs (po ++ post) PA) as St.
      repeat (rewrite <- ?app_assoc in St; rewrite <- ?app_assoc; simpl in *). exact St.
    Qed.
    Lemma gen_derives es u : gen P es u -> derives_form P es (map Term u).
    Proof.
      intro G. induction G as [|t es u _ IH|A rhs es u v PA _ IH1 _ IH2].
      - constructor.
      - pose proof (derives_ctx _ _ [Term t] [] IH) as D. rewrite !app_nil_r in D. exact D.
      - rewrite map_app. apply (star_app _ _ (rhs ++ es)).
        + refine (star_step _ _ _ _ (star_refl _ _) _). exact (sstep_intro P [] A rhs es PA).
        + apply (star_app _ _ (map Term u ++ es)).
          * pose proof (derives_ctx _ _ [] es IH1) as D. exact D.
          * pose proof (derives_ctx _ _ (map Term u) [] IH2) as D. rewrite !app_nil_r in D. exact D.
    Qed.
    Lemma predicted_derives i A : predicted i A -> exists rest, derives_form P [NonTerm S0] (map Term (seg kw 0 i) ++ NonTerm A :: rest).
    Proof.
      intro Pr. induction Pr as [|i A pre B post k Pr (rest & IH) PA L1 L2 G].
      - exists []. constructor.
      - exists (post ++ rest). refine (star_app _ _ _ _ IH _).
        apply (star_app _ _ (map Term (seg kw 0 i) ++ (pre ++ NonTerm B :: post) ++ rest)).
        + refine (star_step _ _ _ _ (star_refl _ _) _). apply sstep_intro. exact PA.
        + pose proof (derives_ctx _ _ (map Term (seg kw 0 i)) (NonTerm B :: post ++ rest) (gen_derives _ _ G)) as D.
          rewrite (seg_app kw 0 i k) by lia. rewrite map_app. rewrite <- !app_assoc in *. exact D.
    Qed.
    Lemma item_viable k : k <= length w -> ((exists p d i ls, itm k p d i ls) <-> viable P S0 (seg kw 0 k)).
    Proof.
      intro Lk. split.
      - intros (p & d & i & ls & I). apply item_sound in I.
        destruct I as (L1 & L2 & [(-> & -> & [(-> & ->)|(-> & G)])|(A & ix & q & -> & N & Pr & Ld & G)]).
        + exists [NonTerm S0]. rewrite seg_same. constructor.
        + exists []. rewrite app_nil_r. apply gen_derives. exact G.
        + destruct (predicted_derives i A Pr) as (rest & D). exists (skipn d (elements_iter q) ++ rest).
          refine (star_app _ _ _ _ D _).
          apply (star_app _ _ (map Term (seg kw 0 i) ++ elements_iter q ++ rest)).
          * refine (star_step _ _ _ _ (star_refl _ _) _). apply sstep_intro. exact (nth_prod_rhs _ _ _ N).
          * pose proof (derives_ctx _ _ (map Term (seg kw 0 i)) (skipn d (elements_iter q) ++ rest) (gen_derives _ _ G)) as D1.
            rewrite (app_assoc (firstn _ _)), firstn_skipn in D1. rewrite (seg_app kw 0 i k) by lia. rewrite map_app, <- !app_assoc. exact D1.
      - intros (rest & D).
        assert (Q : pref [NonTerm S0] (seg kw 0 k)) by (apply (derives_pref _ _ _ D); apply pref_terms).
        destruct (pref_item _ _ Q [] (skipn k kw) p0 0 0 [] [Term EndOfStream]) as (q' & d' & i' & ls' & I').
        + simpl. rewrite seg_0, firstn_skipn. reflexivity.
        + constructor.
        + reflexivity.
        + simpl in I'. rewrite seg_length in I' by (rewrite ?map_length; lia). rewrite Nat.sub_0_r in I'. eauto.
    Qed.
  End Spec.
End Items.
