(** The forest does not depend on where the rules of the grammar live in memory: one run, described exactly. *)
From Coq Require Import String List Arith NArith Lia Bool.
From Verif.Model Require Import Ord BTree Outcome Utils Grammar StartGrammar Tokens Tree State Earley.
From Verif.Spec Require Import Reach Cfg BuildSpec NullSpec EarleySpec.
From Verif.Proofs Require Import OrdFacts BTreeFacts LoopFacts GrammarFacts StartFacts NullableFacts TreeFacts TreeHist EarleyItems EarleyRun EarleyParse EarleyMain.
Import ListNotations.

Lemma find_flat_map {A B} (f : B -> bool) (h : A -> list B) l x : find f (flat_map h l) = Some x ->
  exists l1 y l2, l = l1 ++ y :: l2 /\ find f (h y) = Some x /\ forall z x', In z l1 -> In x' (h z) -> f x' = false.
Proof.
  assert (App : forall l1 l2 : list B, find f (l1 ++ l2) = match find f l1 with Some y => Some y | None => find f l2 end).
  { clear. induction l1 as [|a l1 IH]; intro l2; simpl; [reflexivity|]. destruct (f a); [reflexivity|apply IH]. }
  induction l as [|y l IH]; simpl; [discriminate|]. rewrite App. destruct (find f (h y)) as [x0|] eqn:E.
  - intros [= <-]. exists [], y, l. split; [reflexivity|]. split; [exact E|]. intros z x' [].
  - intro F. destruct (IH F) as (l1 & y0 & l2 & -> & F0 & N). exists (y :: l1), y0, l2. split; [reflexivity|]. split; [exact F0|].
    intros z x' [<-|I] J; [|exact (N z x' I J)]. exact (find_none f _ E x' J).
Qed.

Section One.
  Context {T NT AK AV V : Type} `{OrdEq T} `{OrdEq NT} `{OrdEq AK} `{OrdEq V}.
  Variable g : Grammar T NT AK AV.
  Hypothesis Bg : accepted g.
  Local Notation SP := (Prod (StreamTerminal T) (StartNonTerminal NT) (StartActionKey AK) (StartActionValue AV)).
  Local Notation sg := (wrapg g).
  Local Notation tree := (Inner T AK V).
  Local Notation C := (ContentInner T AK V).
  Local Notation Key := (EarleyStateKey T NT AK AV).
  Local Notation ESet := (EarleyStateSet T NT AK AV).
  Local Notation EState := (EarleyState T NT AK AV).
  Variable w : list (Token T V).
  Local Notation itm := (item g w ulf ubr).
  Local Notation ulabs := (nat -> option unit).
  Local Notation LInv := (LInv g w ulf ubr).
  Implicit Types (t : tree) (n m a : nat) (s : ESet) (st self e : EState).

  Definition has t n (c : C) : Prop := exists a, In a (nalts t n) /\ acont t a = Some c.

  (** ** What a round will try to insert *)
  Definition sp st : SP := ps_prod (ek_prod_state (es_key st)).
  Definition si st : nat := ps_index (ek_prod_state (es_key st)).
  Definition so st : nat := ek_origin (es_key st).
  Inductive desc := DP (st : EState) | DC (self st : EState).
  Definition adv st n : EState := mkst (sp st) (S (si st)) (so st) (es_value st ++ [n]).
  Definition dkey (d : desc) : Key := match d with DP st => es_key st | DC _ st => mkk (sp st) (S (si st)) (so st) end.
  (** New nodes are numbered in the order of the completions. *)
  Fixpoint numd n (D : list desc) : list (desc * EState) :=
    match D with
    | [] => []
    | DP st :: D => (DP st, st) :: numd n D
    | DC self st :: D => (DC self st, adv st n) :: numd (S n) D
    end.
  Fixpoint ncomp (D : list desc) : nat :=
    match D with [] => 0 | DP _ :: D => ncomp D | DC _ _ :: D => S (ncomp D) end.
  Lemma numd_app D1 : forall n D2, numd n (D1 ++ D2) = numd n D1 ++ numd (n + ncomp D1) D2.
  Proof.
    induction D1 as [|[st|self st] D1 IH]; intros n D2; simpl; [rewrite Nat.add_0_r; reflexivity| |].
    - rewrite IH. reflexivity.
    - rewrite IH. do 3 f_equal. lia.
  Qed.
  Lemma ncomp_app D1 D2 : ncomp (D1 ++ D2) = ncomp D1 + ncomp D2.
  Proof. induction D1 as [|[st|self st] D1 IH]; simpl; lia. Qed.
  Lemma numd_DP D st e : forall n, In (DP st, e) (numd n D) -> e = st.
  Proof. induction D as [|[st0|self st0] D IH]; intros n I; simpl in I; [destruct I| |]; destruct I as [I|I]; try (injection I; congruence); try discriminate; exact (IH _ I). Qed.
  Lemma numd_DC D self st e : forall n, In (DC self st, e) (numd n D) -> exists m, n <= m /\ e = adv st m.
  Proof.
    induction D as [|[st0|self0 st0] D IH]; intros n I; simpl in I; [destruct I| |]; destruct I as [I|I]; try discriminate.
    - exact (IH _ I).
    - injection I as <- <- <-. exists n. auto.
    - destruct (IH _ I) as (m & L & E). exists m. split; [lia|exact E].
  Qed.
  Lemma numd_In D d e : forall n, In (d, e) (numd n D) -> In d D.
  Proof. induction D as [|[st0|self0 st0] D IH]; intros n I; simpl in I; [destruct I| |]; (destruct I as [I|I]; [injection I as <- _; left; reflexivity|right; exact (IH _ I)]). Qed.
  Lemma numd_ex D d : forall n, In d D -> exists e, In (d, e) (numd n D).
  Proof.
    induction D as [|d0 D IH]; intros n []; [subst d0|].
    - destruct d; simpl; eexists; left; reflexivity.
    - destruct d0; simpl; destruct (IH n H7) as (e & Ie); destruct (IH (S n) H7) as (e' & Ie'); eexists; right; eassumption.
  Qed.
  Lemma numd_key D d e : forall n, In (d, e) (numd n D) -> es_key e = dkey d.
  Proof. induction D as [|[st0|self0 st0] D IH]; intros n I; simpl in I; [destruct I| |]; (destruct I as [I|I]; [injection I as <- <-; reflexivity|exact (IH _ I)]). Qed.
  Lemma numd_find (P : Key -> bool) D : forall n, find (fun e => P (es_key e)) (map snd (numd n D)) =
    option_map snd (find (fun de => P (dkey (fst de))) (numd n D)).
  Proof.
    induction D as [|[st0|self0 st0] D IH]; intro n; simpl; [reflexivity| |].
    - destruct (P (es_key st0)); [reflexivity|apply IH].
    - destruct (P _); [reflexivity|apply IH].
  Qed.
  Lemma numd_find_d (P : Key -> bool) D : forall n, option_map fst (find (fun de => P (dkey (fst de))) (numd n D)) = find (fun d => P (dkey d)) D.
  Proof.
    induction D as [|[st0|self0 st0] D IH]; intro n; simpl; [reflexivity| |].
    - destruct (P (es_key st0)); [reflexivity|apply IH].
    - destruct (P _); [reflexivity|apply IH].
  Qed.
  (** The first entry with a given key comes from the first description with that key. *)
  Lemma find_numd (P : Key -> bool) D n e : find (fun e => P (es_key e)) (map snd (numd n D)) = Some e ->
    exists d, find (fun d => P (dkey d)) D = Some d /\ In (d, e) (numd n D).
  Proof.
    rewrite numd_find. rewrite <- (numd_find_d P D n). destruct (find _ (numd n D)) as [[d e0]|] eqn:F; [|discriminate].
    intros [= <-]. exists d. split; [reflexivity|]. apply find_some in F. exact (proj1 F).
  Qed.
  Lemma find_numd' (P : Key -> bool) D n d : find (fun d => P (dkey d)) D = Some d ->
    exists e, find (fun e => P (es_key e)) (map snd (numd n D)) = Some e /\ In (d, e) (numd n D).
  Proof.
    rewrite numd_find. rewrite <- (numd_find_d P D n). destruct (find _ (numd n D)) as [[d0 e0]|] eqn:F; [|discriminate].
    intros [= ->]. exists e0. split; [reflexivity|]. apply find_some in F. exact (proj1 F).
  Qed.
  (** Each new node belongs to one completion. *)
  Definition fresh_of (de : desc * EState) : list nat :=
    match fst de with DP _ => [] | DC _ _ => skipn (length (es_value (snd de)) - 1) (es_value (snd de)) end.
  Lemma fresh_adv self st m : fresh_of (DC self st, adv st m) = [m].
  Proof. unfold fresh_of. cbn. rewrite app_length. simpl. rewrite Nat.add_sub. rewrite skipn_app, skipn_all, Nat.sub_diag. reflexivity. Qed.
  Lemma numd_ge D : forall n de m, In de (numd n D) -> In m (fresh_of de) -> n <= m.
  Proof.
    intros n [[st|self st] e] m I J; [destruct J|]. destruct (numd_DC _ _ _ _ _ I) as (m' & L & ->). rewrite fresh_adv in J. destruct J as [<-|[]]. exact L.
  Qed.
  Lemma numd_nodup D : forall n, NoDup (flat_map fresh_of (numd n D)).
  Proof.
    induction D as [|[st|self st] D IH]; intro n; cbn [numd flat_map].
    - constructor.
    - exact (IH n).
    - rewrite fresh_adv. constructor; [|apply IH]. intro I. apply in_flat_map in I. destruct I as (de & I & J). apply (numd_ge _ _ _ _ I) in J. lia.
  Qed.

  Definition expects (hd : StartNonTerminal NT) st : bool :=
    match nth_error (elements (sp st)) (si st) with Some (NonTerm nt) => eqb nt hd | _ => false end.
  Lemma expects_iff hd st : expects hd st = true <-> nth_error (elements (sp st)) (si st) = Some (NonTerm hd).
  Proof.
    unfold expects. destruct (nth_error (elements (sp st)) (si st)) as [[x|nt]|]; try (split; discriminate).
    destruct (eqb_spec nt hd) as [->|N]; split; congruence.
  Qed.
  Definition dcomp self (sts : list EState) : list desc := map (DC self) (filter (expects (p_head (sp self))) sts).

  Record made1 (D : list desc) t t1 : Prop := {
    m1_inv : TInv t1;
    m1_len : length (in_nodes t1) = length (in_nodes t) + ncomp D;
    m1_old : forall m, node_ok t m -> nalts t1 m = nalts t m;
    m1_keep : forall b c, acont t b = Some c -> acont t1 b = Some c;
    m1_new : forall self st e, In (DC self st, e) (numd (length (in_nodes t)) D) ->
      exists m a ak, e = adv st m /\ length (in_nodes t) <= m /\ nalts t1 m = [a] /\
        acont t1 a = Some (CBranch ak (es_value self)) /\ action_key (sp self) = ActionKey ak
  }.
  Lemma made1_nil t : TInv t -> made1 [] t t.
  Proof. intro I. constructor; auto. intros ? ? ? []. Qed.
  Lemma made1_app D1 D2 t t1 t2 : made1 D1 t t1 -> made1 D2 t1 t2 -> made1 (D1 ++ D2) t t2.
  Proof.
    intros M1 M2. constructor.
    - apply (m1_inv _ _ _ M2).
    - rewrite (m1_len _ _ _ M2), (m1_len _ _ _ M1), ncomp_app. lia.
    - intros m O. rewrite (m1_old _ _ _ M2); [apply (m1_old _ _ _ M1); exact O|]. unfold node_ok in *. rewrite (m1_len _ _ _ M1). lia.
    - intros b c E. apply (m1_keep _ _ _ M2), (m1_keep _ _ _ M1). exact E.
    - intros self st e I. rewrite numd_app in I. apply in_app_or in I. destruct I as [I|I].
      + destruct (m1_new _ _ _ M1 _ _ _ I) as (m & a & ak & -> & L & N & A & Ak). exists m, a, ak. split; [reflexivity|]. split; [exact L|].
        split; [|split; [exact (m1_keep _ _ _ M2 _ _ A)|exact Ak]]. rewrite (m1_old _ _ _ M2); [exact N|].
        unfold node_ok. unfold nalts in N. destruct (nth_error (in_nodes t1) m) eqn:X; [|discriminate]. exact (nth_lt _ _ _ X).
      + rewrite <- (m1_len _ _ _ M1) in I. destruct (m1_new _ _ _ M2 _ _ _ I) as (m & a & ak & -> & L & X). exists m, a, ak. split; [reflexivity|]. split; [|exact X].
        rewrite (m1_len _ _ _ M1) in L. lia.
  Qed.

  Lemma complete_from_num p j v' ak : action_key p = ActionKey ak -> forall sts t cl t1, TInv t -> Forall (node_ok t) v' ->
    complete_from (mkst p (length (elements p)) j v') sts t = Ret (cl, t1) ->
    made1 (dcomp (mkst p (length (elements p)) j v') sts) t t1 /\
    cl = map snd (numd (length (in_nodes t)) (dcomp (mkst p (length (elements p)) j v') sts)).
  Proof.
    intros Ak. induction sts as [|st sts IH]; intros t cl t1 I F R.
    - cbn in R. injection R as <- <-. split; [apply made1_nil; exact I|reflexivity].
    - destruct (st_eta st) as (q & d & i & v & ->).
      assert (Skip : expects (p_head p) (mkst q d i v) = false -> complete_from (mkst p (length (elements p)) j v') sts t = Ret (cl, t1) ->
        made1 (dcomp (mkst p (length (elements p)) j v') (mkst q d i v :: sts)) t t1 /\
        cl = map snd (numd (length (in_nodes t)) (dcomp (mkst p (length (elements p)) j v') (mkst q d i v :: sts)))).
      { intros E R'. unfold dcomp in *. cbn [filter sp es_key ek_prod_state ps_prod mkst mkk] in *. rewrite E. exact (IH _ _ _ I F R'). }
      cbn [complete_from es_key ek_prod_state mkst mkk] in R. rewrite next_elem_state_mk in R.
      pose proof (elements_nth q d) as En. unfold expects in Skip. cbn [sp si es_key ek_prod_state ps_prod ps_index mkst mkk] in Skip.
      destruct (nth_error (prod_elements q) d) as [x|]; cbn [option_map] in *; [|rewrite En in Skip; exact (Skip eq_refl R)].
      destruct (pe_elem x) as [tm|nt] eqn:Ee; cbn [as_nonterm] in R; [rewrite En in Skip; exact (Skip eq_refl R)|].
      cbn [ps_prod] in R. rewrite En in Skip. destruct (eqb_spec nt (p_head p)) as [Eh|Nh]; [|exact (Skip eq_refl R)].
      subst nt. clear Skip. cbn in Ak.
      assert (Eb : ps_action_key (Build_ProdState p (length (elements p))) = ActionKey ak) by exact Ak.
      rewrite Eb in R. cbn [as_base expect obind es_value ek_origin] in R.
      change (es_value (mkst p (length (elements p)) j v')) with v' in R.
      destruct (make_branch_node_spec ak v' t I F) as (a & t2 & R2 & N2 & A2 & I2 & K2 & _). rewrite R2 in R. cbn [obind] in R.
      destruct (complete_from (mkst p (length (elements p)) j v') sts t2) as [[rest t3]|x0|] eqn:R3; cbn [obind] in R; try discriminate.
      injection R as <- <-.
      assert (F2 : Forall (node_ok t2) v').
      { apply (Forall_impl _ (P := node_ok t)); [|exact F]. intros y O. unfold node_ok in *. rewrite N2, app_length. simpl. lia. }
      destruct (IH t2 rest t3 I2 F2 R3) as [M ->].
      set (self := mkst p (length (elements p)) j v') in *.
      assert (Ed : dcomp self (mkst q d i v :: sts) = DC self (mkst q d i v) :: dcomp self sts).
      { unfold dcomp. cbn [filter]. replace (expects (p_head (sp self)) (mkst q d i v)) with true; [reflexivity|].
        symmetry. apply expects_iff. exact En. }
      assert (L2 : length (in_nodes t2) = S (length (in_nodes t))) by (rewrite N2, app_length; simpl; lia).
      assert (M0 : made1 [DC self (mkst q d i v)] t t2).
      { constructor.
        - exact I2.
        - rewrite L2. simpl. lia.
        - intros m O. unfold nalts. rewrite N2, nth_error_app1 by exact O. reflexivity.
        - exact K2.
        - intros self0 st0 e0 [Iz|[]]. injection Iz as <- <- <-. exists (length (in_nodes t)), a, ak. split; [reflexivity|]. split; [lia|].
          split; [|split; [exact A2|exact Ak]]. unfold nalts. rewrite N2, nth_error_snoc, Nat.eqb_refl. reflexivity. }
      rewrite Ed. split; [exact (made1_app [_] _ _ _ _ M0 M)|]. cbn [numd map snd]. rewrite L2. reflexivity.
  Qed.

  Variable lay : layout (StartNonTerminal NT).
  Hypothesis Inj : lay_inj sg lay.
  Local Notation SInv := (SInv g lay w ulf ubr).

  Definition ddesc (K : nat) (prev : list ESet) (cur : ESet) st : list desc :=
    map DP (predict sg st K) ++
    (if is_complete (ek_prod_state (es_key st))
     then match nth_error (prev ++ [cur]) (so st) with Some sj => dcomp st (states sj) | None => [] end else []).
  Definition dlist K prev cur sts : list desc := flat_map (ddesc K prev cur) sts.

  Lemma dp_made l t : TInv t -> made1 (map DP l) t t /\ map snd (numd (length (in_nodes t)) (map DP l)) = l.
  Proof.
    intro I. assert (Z : ncomp (map DP l) = 0) by (induction l as [|x l IH]; simpl; auto).
    split.
    - constructor; auto; [lia|]. intros self st e J. apply numd_In in J. apply in_map_iff in J. destruct J as (y & E & _). discriminate.
    - generalize (length (in_nodes t)). induction l as [|x l IH]; intro n; simpl in *; [reflexivity|]. f_equal. apply IH. exact Z.
  Qed.

  Lemma closure_num K prev cur : length prev = K -> forall sts t (lab : ulabs) cl t1, LInv t lab ->
    (forall j s, nth_error prev j = Some s -> SInv j s lab) -> SInv K cur lab -> (forall st, In st sts -> In st (states cur)) ->
    closure_of sg sts prev cur t = Ret (cl, t1) ->
    made1 (dlist K prev cur sts) t t1 /\ cl = map snd (numd (length (in_nodes t)) (dlist K prev cur sts)).
  Proof.
    intro LK. induction sts as [|st sts IH]; intros t lab cl t1 L Sp Sc Sub R.
    - cbn in R. injection R as <- <-. split; [apply made1_nil; exact (li_t _ _ _ _ _ _ L)|reflexivity].
    - destruct (st_eta st) as (p & d & i & v & ->).
      pose proof (Sub _ (or_introl eq_refl)) as Ic. apply states_In in Ic. cbn in Ic.
      destruct (SInv_entry _ _ _ _ _ _ _ _ _ _ _ _ Sc Ic) as (ls & It & Lv). pose proof (labs_ok _ _ _ _ _ _ _ _ L Lv) as Ov.
      cbn [closure_of] in R. destruct (complete (mkst p d i v) prev cur t) as [[cl1 t2]|x|] eqn:R1; cbn [obind] in R; try discriminate.
      destruct (closure_of sg sts prev cur t2) as [[cl2 t3]|x|] eqn:R2; cbn [obind] in R; try discriminate. injection R as <- <-.
      assert (St : exists D, made1 D t t2 /\ cl1 = map snd (numd (length (in_nodes t)) D) /\ ddesc K prev cur (mkst p d i v) = map DP (predict sg (mkst p d i v) K) ++ D).
      { unfold complete in R1. cbn [es_key ek_prod_state mkst mkk ek_origin] in R1. rewrite is_complete_mk in R1.
        unfold ddesc. cbn [so es_key ek_prod_state mkst mkk ek_origin]. rewrite is_complete_mk.
        destruct (Nat.eqb_spec (length (elements p)) d) as [Ed|Nd].
        - subst d. destruct (complete_key g Bg w _ _ _ _ _ _ It) as (ak & Ak).
          assert (Og : exists sj, (if Nat.eqb i (length prev) then Ret cur else expect (nth_error prev i) "index out of bounds") = Ret sj /\
                     nth_error (prev ++ [cur]) i = Some sj).
          { destruct (item_facts g Bg w ulf ubr _ _ _ _ _ It) as (Li & _). destruct (Nat.eqb_spec i (length prev)) as [E|N].
            - exists cur. split; [reflexivity|]. rewrite nth_error_snoc, E, Nat.eqb_refl. reflexivity.
            - destruct (nth_error prev i) as [sj|] eqn:E; [|apply nth_error_None in E; lia].
              exists sj. split; [reflexivity|]. rewrite nth_error_app1 by exact (nth_lt _ _ _ E). exact E. }
          destruct Og as (sj & R0 & E0). rewrite R0 in R1. cbn [obind] in R1.
          unfold so. cbn [ek_origin es_key mkst mkk]. rewrite E0. eexists.
          destruct (complete_from_num p i v ak Ak _ _ _ _ (li_t _ _ _ _ _ _ L) Ov R1) as [M ->]. split; [exact M|]. split; reflexivity.
        - injection R1 as <- <-. exists []. split; [apply made1_nil; exact (li_t _ _ _ _ _ _ L)|]. split; reflexivity. }
      destruct St as (D & M & -> & Ed).
      destruct (dp_made (predict sg (mkst p d i v) K) t (li_t _ _ _ _ _ _ L)) as [M0 E0].
      assert (M1 : made1 (ddesc K prev cur (mkst p d i v)) t t2) by (rewrite Ed; exact (made1_app _ _ _ _ _ M0 M)).
      (* the labels of the run *)
      destruct (closure_step g Bg lay w ulf ubr K prev cur LK [mkst p d i v] t lab L Sp Sc) as (cl0 & t0 & lab0 & R0 & Md & _).
      { intros st [<-|[]]. apply Sub. left. reflexivity. }
      cbn [closure_of] in R0. rewrite R1 in R0. cbn [obind] in R0. injection R0 as _ <-.
      pose proof (ex_lab _ _ _ _ (md_ext _ _ _ _ _ _ _ _ _ Md)) as Lx.
      destruct (IH t2 lab0 cl2 t3 (md_inv _ _ _ _ _ _ _ _ _ Md)) as [M2 ->].
      { intros j s E. exact (SInv_mono _ _ _ _ _ _ _ _ _ Lx (Sp j s E)). }
      { exact (SInv_mono _ _ _ _ _ _ _ _ _ Lx Sc). }
      { intros st I. apply Sub. right. exact I. }
      { exact R2. }
      cbn [dlist flat_map]. split; [exact (made1_app _ _ _ _ _ M1 M2)|].
      rewrite numd_app, map_app, <- (m1_len _ _ _ M1). f_equal. rewrite Ed, numd_app, map_app, LK, E0. f_equal.
      rewrite (Nat.add_comm _ (ncomp _)), <- (Nat.add_comm (length (in_nodes t))), <- (m1_len _ _ _ M0). reflexivity.
  Qed.
End One.
