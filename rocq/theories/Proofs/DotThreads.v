(** A thread that exports a node while other threads use the tree: its view of the executions of Model/RwLock.v. *)
From Coq Require Import String List Arith Bool Lia.
From Verif.Model Require Import Ord BTree Outcome Utils Tree DotText EarleyShared DotShared DotReads RwLock.
From Verif.Spec Require Import Reach TreeSpec RwLockSpec ShareSpec DotShareSpec ThreadParseSpec ThreadDotSpec.
From Verif.Proofs Require Import OrdFacts BTreeFacts LoopFacts GrammarFacts TreeFacts TreeHist DotFacts DotTextFacts EarleyShare DotShare RwLockSafe RwLockInv ParseThreads.
Import ListNotations.

Section Alone.
  Context {T AK V : Type}.
  Variables (debug_t : T -> string) (debug_ak : AK -> string) (debug_v : V -> string).
  Local Notation rds := (@alone_reads T AK V).
  Implicit Type t : Inner T AK V.
  Lemma succ_alone t x : gdot_succ rds x t = (l <- dot_succ t x ;; Ret (l, t)).
  Proof. destruct x; simpl; [destruct (get_node t i)|destruct (get_alt t i)]; reflexivity. Qed.
  Lemma round_alone t curr : forall acc, gdot_round rds curr acc t = (a <- dot_round t curr acc ;; Ret (a, t)).
  Proof.
    induction curr as [|x curr IH]; intro acc; [reflexivity|]. cbn [gdot_round dot_round]. rewrite succ_alone. destruct (dot_succ t x); [|reflexivity|reflexivity].
    cbn [obind]. apply IH.
  Qed.
  Lemma loop_alone t fuel : forall curr seen, gdot_loop rds fuel curr seen t = (a <- dot_loop t fuel curr seen ;; Ret (a, t)).
  Proof.
    induction fuel as [|fuel IH]; intros curr seen; [reflexivity|]. cbn [gdot_loop dot_loop]. destruct curr as [|c curr]; [reflexivity|].
    pose proof (round_alone t (c :: curr) ([], seen)) as X. unfold btset in *. rewrite X. destruct (dot_round t (c :: curr) ([], seen)) as [[n1 s1]|?|]; [|reflexivity|reflexivity]. cbn [obind]. apply IH.
  Qed.
  Lemma map_alone {A B} (f : A -> Inner T AK V -> outcome (list B * Inner T AK V)) (g : A -> outcome (list B)) t :
    (forall x, f x t = (l <- g x ;; Ret (l, t))) -> forall l, gflat_map f l t = (y <- flat_map_o g l ;; Ret (y, t)).
  Proof.
    intros Fg. induction l as [|x l IH]; [reflexivity|]. cbn [gflat_map flat_map_o]. rewrite Fg. destruct (g x); [|reflexivity|reflexivity]. cbn [obind].
    rewrite IH. destruct (flat_map_o g l); reflexivity.
  Qed.
  (** With nobody else at work this is [to_dot]. *)
  Lemma gto_dot_alone t n fuel st : to_dot_stmts debug_t debug_ak debug_v t n fuel = Ret st ->
    gto_dot rds debug_t debug_ak debug_v n fuel t = Ret (st, t).
  Proof.
    unfold to_dot_stmts, to_dot, collect_nodes_and_alts, gto_dot, gcollect. rewrite loop_alone. unfold btset. destruct (dot_loop t fuel _ _) as [seen|?|]; [|discriminate|discriminate].
    cbn [obind]. unfold dot_edges. set (xs := dot_nodes _ _).
    rewrite (map_alone (gnode_stmt rds debug_t debug_ak debug_v) (fun x => s <- node_stmt debug_t debug_ak debug_v t x ;; Ret [s])).
    2:{ intro x. unfold gnode_stmt, node_stmt. destruct (node_id x); [|reflexivity|reflexivity]. cbn [obind]. destruct x as [i|i]; [reflexivity|]. simpl. destruct (get_alt t i) as [[|]|?|]; reflexivity. }
    pose proof (map_alone (gedges_of rds) (fun x => ys <- dot_succ t x ;; Ret (map (fun y => (x, y)) ys)) t) as Me.
    destruct (flat_map_o (fun x => ys <- dot_succ t x ;; Ret (map (fun y => (x, y)) ys)) xs) as [es|?|] eqn:Qe; cbn [obind]; [|discriminate|discriminate].
    destruct (flat_map_o (fun x => s <- node_stmt debug_t debug_ak debug_v t x ;; Ret [s]) xs) as [vs|?|]; cbn [obind]; [|discriminate|discriminate].
    rewrite Me, Qe by (intro x; unfold gedges_of; rewrite succ_alone; destruct (dot_succ t x); reflexivity). cbn [obind].
    destruct (flat_map_o _ es) as [es'|?|]; cbn [obind]; [|discriminate|discriminate]. intros [= <-]. reflexivity.
  Qed.
End Alone.

Section View.
  Context {T AK V : Type} `{OrdEq T} `{OrdEq AK} `{OrdEq V}.
  Local Notation tree := (Inner T AK V).
  Local Notation wld := (world T AK V).
  Local Notation hist := (history T AK V).
  Local Notation op := (tr_op T AK V).
  Local Notation val := (tr_val T AK V).
  Local Notation oop := (other_op T AK V).
  Local Notation st := (shared T AK V).
  Local Notation lst := (list (lin_event T AK V)).
  Implicit Types (w : wld) (t : tree) (A B E M : lst).

  (** What an operation does to the tree [h]. *)
  Definition ops_of (h : TreeHandle) (o : op) (r : outcome val) : list oop :=
    match r, o with
    | Ret _, TMakeNode h' => if Nat.eqb h' h then [OMakeNode] else []
    | Ret _, TMakeLeafAlt h' k v => if Nat.eqb h' h then [OMakeAlt (CLeaf k v)] else []
    | Ret _, TMakeBranchAlt h' x ns => if Nat.eqb h' h then [OMakeAlt (CBranch x (map nd_index ns))] else []
    | Ret _, TAddAlt n a => if Nat.eqb (nd_inner n) h then [OAddAlt (nd_index n) (al_index a)] else []
    | Ret _, TAddAll n m => if Nat.eqb (nd_inner n) h then [OAddAll (nd_index n) (nd_index m)] else []
    | _, _ => []
    end.
  Definition does (os : list oop) t : tree := fold_left (fun t o => other_step [] o t) os t.
  Lemma does_app a b t : does (a ++ b) t = does b (does a t).
  Proof. apply fold_left_app. Qed.
  Lemma set_at w h t t' h' t0 : nth_error w h = Some t0 -> nth_error w h' = Some t -> nth_error (w_set w h' t') h = Some (if Nat.eqb h' h then t' else t0).
  Proof. intros E E'. unfold w_set. rewrite nth_list_set. destruct (Nat.eqb_spec h' h) as [->|]; [rewrite E; reflexivity|exact E]. Qed.
  Lemma step_ops (tr : hist) w o r w' h t : run tr w -> can_call tr o -> tr_step w o = (r, w') -> ~ composed_op o -> nth_error w h = Some t ->
    nth_error w' h = Some (does (ops_of h o r) t).
  Proof.
    intros R K S Nc E. pose proof (run_inv _ _ R) as I. pose proof (hi_w _ _ I) as Iw. pose proof (held_of _ _ _ I K) as Hd.
    assert (Tr : forall h', h' < length w -> exists t', nth_error w h' = Some t').
    { intros h' L. destruct (nth_error w h') eqn:Q; [eauto|]. apply nth_error_None in Q. lia. }
    destruct o; try (destruct (Nc Logic.I)); cbn [tr_step] in S; cbn [held] in Hd.
    - unfold w_new_tree in S. cbn [rmap] in S. injection S as <- <-. cbn. rewrite nth_error_app1; [exact E|]. apply nth_error_Some. congruence.
    - destruct (Tr _ Hd) as (t' & E'). unfold w_make_node, with_ in S. rewrite E' in S. cbn [expect on] in S. destruct (in_make_node t') as [k t2] eqn:Em. cbn [rmap] in S. injection S as <- <-.
      rewrite (set_at w h t' t2 h0 t E E'). cbn [ops_of]. destruct (Nat.eqb_spec h0 h) as [->|]; [|reflexivity]. rewrite E in E'. injection E' as <-. cbn [does fold_left other_step]. rewrite Em. reflexivity.
    - destruct (Tr _ Hd) as (t' & E'). unfold w_make_leaf_alt, w_make_alt, with_ in S. rewrite E' in S. cbn [expect on] in S. destruct (in_make_alt t' (CLeaf kind value)) as [k t2] eqn:Em. cbn [rmap] in S. injection S as <- <-.
      rewrite (set_at w h t' t2 h0 t E E'). cbn [ops_of]. destruct (Nat.eqb_spec h0 h) as [->|]; [|reflexivity]. rewrite E in E'. injection E' as <-. cbn [does fold_left other_step forallb]. rewrite Em. reflexivity.
    - destruct Hd as [Hd F]. destruct (Tr _ Hd) as (t' & E'). unfold w_make_branch_alt, with_ in S. rewrite E' in S. cbn [expect on] in S.
      destruct (one_tree_dec (TMakeBranchAlt h0 action nodes : op)) as [Ot|Ot].
      2:{ destruct (not_one_tree _ _ Ot) as (n & Jn & Bn). destruct (collect_bad h0 nodes n Jn Bn) as (m & Q). rewrite Q in S. cbn [on rmap] in S. injection S as <- <-. exact E. }
      simpl in Ot. rewrite (collect_ok h0 nodes Ot) in S. cbn [on] in S. unfold w_make_alt, with_ in S. rewrite E' in S. cbn [expect on] in S.
      destruct (in_make_alt t' _) as [k t2] eqn:Em. cbn [rmap] in S. injection S as <- <-. rewrite (set_at w h t' t2 h0 t E E'). cbn [ops_of]. destruct (Nat.eqb_spec h0 h) as [->|]; [|reflexivity]. rewrite E in E'. injection E' as <-.
      cbn [does fold_left other_step]. assert (X : forallb (node_valid t) (map nd_index nodes) = true).
      { apply forallb_forall. intros i J. apply in_map_iff in J. destruct J as (n & <- & J). apply node_valid_ok. rewrite Forall_forall in F. destruct (F n J) as (t3 & E3 & O3). rewrite (Ot n J) in E3. congruence. }
      rewrite X, Em. reflexivity.
    - destruct Hd as [Vn (c0 & Va)]. unfold w_add_alt, is_same in S. destruct (Nat.eqb_spec (nd_inner n) (al_inner a)) as [Es|]; cbn [assert_ on rmap] in S; [|injection S as <- <-; exact E].
      destruct Vn as (t' & E' & O'). unfold with_ in S. rewrite E' in S. cbn [expect on] in S. unfold wcont in Va. rewrite <- Es, E' in Va.
      destruct (in_add_node_alt (nd_index n) (al_index a) t') as [[c t2]|?|] eqn:Em; cbn [on rmap] in S; injection S as <- <-; try exact E.
      rewrite (set_at w h t' t2 _ t E E'). cbn [ops_of]. destruct (Nat.eqb_spec (nd_inner n) h) as [Eh|]; [|reflexivity]. rewrite Eh, E in E'. injection E' as <-.
      cbn [does fold_left other_step]. assert (X : theirs [] t (nd_index n) && alt_valid t (al_index a) = true).
      { unfold theirs. cbn [existsb negb]. rewrite andb_true_r. apply andb_true_intro. split; [apply node_valid_ok; exact O'|]. unfold alt_valid. apply Nat.ltb_lt. apply nth_error_Some. unfold acont in Va. congruence. }
      rewrite X, Em. reflexivity.
    - destruct Hd as [Vn Vm]. unfold w_add_all, is_same in S. destruct (Nat.eqb_spec (nd_inner n) (nd_inner other)) as [Es|]; cbn [assert_ on rmap] in S; [|injection S as <- <-; exact E].
      destruct Vn as (t' & E' & O'). destruct Vm as (t3 & E3 & O3). rewrite <- Es, E' in E3. injection E3 as <-. unfold with_ in S. rewrite E' in S. cbn [expect on] in S.
      destruct (in_add_all (nd_index n) (nd_index other) t') as [[c t2]|?|] eqn:Em; cbn [on rmap] in S; injection S as <- <-; try exact E.
      rewrite (set_at w h t' t2 _ t E E'). cbn [ops_of]. destruct (Nat.eqb_spec (nd_inner n) h) as [Eh|]; [|reflexivity]. rewrite Eh, E in E'. injection E' as <-.
      cbn [does fold_left other_step]. assert (X : theirs [] t (nd_index n) && node_valid t (nd_index other) = true).
      { unfold theirs. cbn [existsb negb]. rewrite andb_true_r. apply andb_true_intro. split; apply node_valid_ok; assumption. }
      rewrite X, Em. reflexivity.
    - destruct (w_alts w n); cbn [rmap] in S; injection S as <- <-; exact E.
    - destruct (w_content w a); cbn [rmap] in S; injection S as <- <-; exact E.
  Qed.

  (** A call that takes effect once. *)
  Lemma one_shape i A B (o : op) r s : okL (A ++ B) -> cur i B = None -> ~ composed_op o -> log_of i A = (o, r) :: s ->
    exists A' M0 M1 M2, A = A' ++ LRet i o r :: M2 ++ LEffect i o r :: M1 ++ LCall i o :: M0 /\
      none_of i M0 /\ none_of i M1 /\ none_of i M2 /\ log_of i A' = s.
  Proof.
    intros O C Nc Lg. destruct (call_phase i A B _ _ s O C Lg) as (A1 & M0 & -> & N0 & L1 & C1). clear Lg C.
    assert (One : forall r0 l, parts o r0 l -> l = [(o, r0)]).
    { intros r0 l P. destruct P; try (destruct (Nc Logic.I)). reflexivity. }
    rewrite <- app_assoc in O. cbn [app] in O.
    destruct (run_phase i A1 _ _ [] _ s O C1 L1) as (A2 & e1 & M1 & -> & N1 & [(-> & P & _ & _)|(o1 & r1 & -> & (r0 & more & P) & L2 & C2)]).
    { discriminate (One _ _ P). }
    clear L1 C1. rewrite <- app_assoc in O. cbn [app] in O. simpl in P.
    assert ((o1, r1) = (o, r0)) as [= -> ->]. { specialize (One _ _ P). congruence. } clear P.
    destruct (run_phase i A2 _ _ _ _ s O C2 L2) as (A3 & e2 & M2 & -> & N2 & [(-> & P & L3 & _)|(o2 & r2 & -> & (r0' & more' & P) & L3 & C3)]).
    2: { discriminate (One _ _ P). }
    assert (r = r0) as ->. { specialize (One _ _ P). simpl in One. congruence. }
    exists A3, M0, M1, M2. split; [repeat (rewrite <- app_assoc; cbn [app]); reflexivity|]. auto.
  Qed.

  Variables (i : nat) (h : TreeHandle) (E L1 : lst) (wf : wld).
  Hypothesis Ok : okL (E ++ L1).
  Hypothesis Rf : run (effects (E ++ L1)) wf.
  Hypothesis C1 : cur i L1 = None.
  Hypothesis Cf : cur i (E ++ L1) = None.

  (** What the others do between the effects of thread [i], the earliest first. *)
  Definition pre (P : list oop) (l : list (list oop)) : list (list oop) := match l with [] => [P] | hd :: tl => (P ++ hd) :: tl end.
  Fixpoint segs (l : lst) : list (list oop) :=
    match l with
    | [] => [[]]
    | LEffect j o r :: l' => if Nat.eqb j i then [] :: segs l' else pre (ops_of h o r) (segs l')
    | _ :: l' => segs l'
    end.
  Definition ops_in (M : lst) : list oop := flat_map (fun e => match e with LEffect _ o r => ops_of h o r | _ => [] end) (rev M).
  Lemma pre_pre P Q l : pre P (pre Q l) = pre (P ++ Q) l.
  Proof. destruct l; simpl; [reflexivity|]. rewrite app_assoc. reflexivity. Qed.
  Lemma segs_none M X : none_of i M -> segs (rev M ++ X) = pre (ops_in M) (segs X).
  Proof.
    revert X. induction M as [|e M IH]; intros X N.
    - assert (segs X <> []) as Ns.
      { clear. induction X as [|e X IH]; [discriminate|]. destruct e; simpl; try exact IH. destruct (Nat.eqb i0 i); [discriminate|]. destruct (segs X); discriminate. }
      cbn. destruct (segs X); [contradiction|reflexivity].
    - cbn [rev]. rewrite <- app_assoc. rewrite IH by (intros x J; apply N; right; exact J). unfold ops_in. cbn [rev]. rewrite flat_map_app, <- pre_pre. f_equal.
      assert (Ne : who e <> i) by (apply N; left; reflexivity). cbn [flat_map]. rewrite app_nil_r.
      assert (Z : pre [] (segs X) = segs X).
      { clear. induction X as [|e X IH]; [reflexivity|]. destruct e; simpl; try exact IH. destruct (Nat.eqb i0 i); [reflexivity|]. destruct (segs X); reflexivity. }
      destruct e as [j o|j o r|j o r]; cbn [app segs]; try (rewrite Z; reflexivity). simpl in Ne. rewrite (proj2 (Nat.eqb_neq _ _) Ne). reflexivity.
  Qed.

  Lemma others_do M : forall B w1 t1, suf E (M ++ B) -> run (effects (B ++ L1)) w1 -> nth_error w1 h = Some t1 ->
    exists w2, run (effects ((M ++ B) ++ L1)) w2 /\ nth_error w2 h = Some (does (ops_in M) t1).
  Proof.
    induction M as [|e M IH]; intros B w1 t1 Sf R1 E1; [exists w1; auto|].
    destruct (IH B w1 t1 (suf_cons E _ _ Sf) R1 E1) as (w3 & R3 & E3).
    unfold ops_in. cbn [rev]. rewrite flat_map_app, does_app. fold (ops_in M). cbn [flat_map]. rewrite app_nil_r.
    destruct e as [j o|j o r|j o r]; try (exists w3; split; [exact R3|exact E3]).
    destruct (effect_step E L1 wf Rf j o r (M ++ B) w3 Sf R3) as (w2 & R2 & K & S). exists w2. split; [exact R2|].
    eapply step_ops; [exact R3|exact K|exact S| |exact E3].
    destruct Sf as (A & HE). pose proof Ok as O. rewrite <- HE, <- app_assoc in O. cbn [app] in O.
    pose proof (ok_inv _ _ (ok_app _ _ O)) as [_ (o0 & d & _ & r0 & more & P)]. eapply parts_simple; [exact P|]. apply in_or_app. right. left. reflexivity.
  Qed.

  Definition AT (s : list (op * outcome val)) (sh : st) : Prop :=
    exists A B w1 P, A ++ B = E /\ log_of i A = s /\ cur i (B ++ L1) = None /\ run (effects (B ++ L1)) w1 /\
      nth_error w1 h = Some (does P (sh_tree sh)) /\ sh_mine sh = [] /\ sh_others sh = pre P (segs (rev A)).

  Lemma AT_read o r s sh : AT ((o, r) :: s) sh -> (exists n, o = TAlts n) \/ (exists a, o = TContent a) ->
    AT s (wait sh) /\ exists tr w, run tr w /\ can_call tr o /\ tr_step w o = (r, w) /\ nth_error w h = Some (sh_tree (wait sh)).
  Proof.
    intros (A & B & w1 & P & HE & Lg & C & R1 & E1 & Mn & Os) Rd.
    assert (Nc : ~ composed_op o) by (destruct Rd as [(n & ->)|(a & ->)]; intros []).
    assert (O : okL (A ++ B ++ L1)) by (rewrite app_assoc, HE; exact Ok).
    destruct (one_shape i A (B ++ L1) o r s O C Nc Lg) as (A' & M0 & M1 & M2 & EA & N0 & N1 & N2 & L').
    subst A. clear O Lg.
    assert (Sg : segs (rev (A' ++ LRet i o r :: M2 ++ LEffect i o r :: M1 ++ LCall i o :: M0)) = (ops_in M0 ++ ops_in M1) :: pre (ops_in M2) (segs (rev A'))).
    { repeat (rewrite ?rev_app_distr; cbn [rev]; repeat rewrite <- app_assoc; cbn [app]). rewrite (segs_none M0 _ N0). cbn [segs]. rewrite (segs_none M1 _ N1).
      cbn [segs]. rewrite Nat.eqb_refl, (segs_none M2 _ N2), pre_pre. cbn [segs pre]. rewrite app_nil_r. reflexivity. }
    repeat (rewrite <- app_assoc in HE; cbn [app] in HE).
    set (B1 := M0 ++ B) in *. set (B2 := M1 ++ LCall i o :: B1) in *. set (B3 := M2 ++ LEffect i o r :: B2) in *.
    assert (S4 : suf E (LRet i o r :: B3)) by (exists A'; exact HE).
    pose proof (suf_cons E _ _ S4) as S3. pose proof (suf_app E _ _ S3) as S3'. pose proof (suf_cons E _ _ S3') as S2.
    pose proof (suf_app E _ _ S2) as S2'. pose proof (suf_cons E _ _ S2') as S1.
    destruct (others_do M0 B w1 _ S1 R1 E1) as (w2 & R2 & E2).
    destruct (others_do M1 (LCall i o :: B1) w2 _ S2 R2 E2) as (w3 & R3 & E3).
    destruct (effect_step E L1 wf Rf _ _ _ _ w3 S3' R3) as (w4 & R4 & K & St).
    assert (w4 = w3) as ->.
    { destruct Rd as [(n & ->)|(a & ->)]; cbn [tr_step] in St; [destruct (w_alts w3 n)|destruct (w_content w3 a)]; cbn [rmap] in St; congruence. }
    destruct (others_do M2 _ w3 _ S3 R4 E3) as (w5 & R5 & E5).
    rewrite Sg in Os. cbn [pre] in Os. unfold wait. rewrite Os. cbn [sh_tree sh_mine sh_others]. rewrite Mn. fold (does (P ++ ops_in M0 ++ ops_in M1) (sh_tree sh)).
    rewrite <- !does_app in E3. split.
    - exists A', (LRet i o r :: B3), w5, (ops_in M2). split; [exact HE|]. split; [exact L'|]. split; [cbn [app cur]; rewrite Nat.eqb_refl; reflexivity|].
      split; [exact R5|]. cbn [sh_tree sh_mine sh_others]. split; [|auto]. rewrite <- !does_app in E5. fold (does (P ++ ops_in M0 ++ ops_in M1) (sh_tree sh)). rewrite <- does_app. rewrite E5. do 2 f_equal. rewrite <- !app_assoc. reflexivity.
    - eauto 8.
  Qed.

  Variables (debug_t : T -> string) (debug_ak : AK -> string) (debug_v : V -> string).
  Local Notation rds := (logged_reads h).
  Lemma node_is_eq j n : node_is h j n = true -> n = {| nd_index := j; nd_inner := h |}.
  Proof. unfold node_is. intro X. apply andb_prop in X. destruct X as [A B]. apply Nat.eqb_eq in A, B. destruct n; simpl in *; subst; reflexivity. Qed.
  Lemma lax_any {X Y} (Q : X -> Y -> Prop) (y : outcome Y) : osim_ true Q NoFuel y.
  Proof. destruct y; simpl; auto. Qed.
  Definition same {X} (x : X * list (op * outcome val)) (y : X * st) : Prop := fst x = fst y /\ AT (snd x) (snd y).
  Lemma node_sim j s sh : AT s sh -> osim_ true same (rd_node rds j s) (sh_with (fun t => get_node t j) sh).
  Proof.
    intro At. cbn [logged_reads rd_node]. destruct s as [|[o r] s]; [apply lax_any|]. destruct o; try apply lax_any.
    destruct (node_is h j n) eqn:Ni; [|destruct r as [[]| |]; apply lax_any]. apply node_is_eq in Ni. subst n.
    destruct (AT_read _ r s sh At (or_introl (ex_intro _ _ eq_refl))) as (At' & tr & w & R & K & St & Ew).
    pose proof (run_inv _ _ R) as I. pose proof (held_of _ _ _ I K) as (t' & E' & O'). cbn [nd_inner nd_index] in *. rewrite Ew in E'. injection E' as <-.
    assert (G : get_node (sh_tree (wait sh)) j = Ret (nalts (sh_tree (wait sh)) j)).
    { unfold node_ok, get_node, nalts in *. destruct (nth_error (in_nodes (sh_tree (wait sh))) j) eqn:Q; [reflexivity|]. apply nth_error_None in Q. lia. }
    cbn [tr_step] in St. unfold w_alts, with_ in St. cbn [nd_inner nd_index] in St. rewrite Ew in St. cbn [expect obind] in St. rewrite G in St. cbn [obind rmap] in St. injection St as <-.
    cbn [andb]. unfold sh_with. cbv zeta. rewrite G. cbn [obind].
    match goal with |- context [if ?b then _ else _] => destruct b end; [|apply lax_any].
    rewrite map_map. cbn [al_index]. rewrite map_id. split; [reflexivity|exact At'].
  Qed.
  Lemma alt_sim j s sh : AT s sh -> osim_ true same (rd_alt rds j s) (sh_with (fun t => get_alt t j) sh).
  Proof.
    intro At. cbn [logged_reads rd_alt]. destruct s as [|[o r] s]; [apply lax_any|]. destruct o; try apply lax_any.
    destruct (Nat.eqb_spec (al_inner a) h) as [Ei|]; [|apply lax_any]. destruct (Nat.eqb_spec (al_index a) j) as [Ej|]; [|apply lax_any]. cbn [andb].
    destruct (AT_read _ r s sh At (or_intror (ex_intro _ _ eq_refl))) as (At' & tr & w & R & K & St & Ew).
    pose proof (run_inv _ _ R) as I. pose proof (held_of _ _ _ I K) as (c & Ec). unfold wcont in Ec. rewrite Ei, Ew, Ej in Ec.
    assert (G : get_alt (sh_tree (wait sh)) j = Ret c) by (apply acont_get; exact Ec).
    cbn [tr_step] in St. unfold w_content, with_ in St. rewrite Ei, Ew, Ej in St. cbn [expect obind] in St. rewrite G in St. cbn [obind rmap] in St. injection St as <-.
    unfold sh_with. cbv zeta. rewrite G. cbn [obind]. destruct c as [k v|x ns]; [split; [reflexivity|exact At']|].
    match goal with |- context [if ?b then _ else _] => destruct b end; [|apply lax_any].
    rewrite map_map. cbn [nd_index]. rewrite map_id. split; [reflexivity|exact At'].
  Qed.
  Lemma succ_sim x s sh : AT s sh -> osim_ true same (gdot_succ rds x s) (sh_with (fun t => dot_succ t x) sh).
  Proof.
    intro At. destruct x as [j|j]; cbn [gdot_succ dot_succ].
    - assert (sh_with (fun t => is <- get_node t j ;; Ret (map DAlt is)) sh = ('(is, s) <- sh_with (fun t => get_node t j) sh ;; Ret (map DAlt is, s))) as ->.
      { unfold sh_with. cbv zeta. destruct (get_node _ j); reflexivity. }
      eapply osim_bind; [exact (node_sim j s sh At)|]. intros [l s1] [l' sh1] [Q At1]. cbn [fst snd] in *. subst l'. split; [reflexivity|exact At1].
    - assert (sh_with (fun t => c <- get_alt t j ;; Ret (match c with CBranch _ nodes => map DNode nodes | CLeaf _ _ => [] end)) sh
        = ('(c, s) <- sh_with (fun t => get_alt t j) sh ;; Ret (match c with CBranch _ nodes => map DNode nodes | CLeaf _ _ => [] end, s))) as ->.
      { unfold sh_with. cbv zeta. destruct (get_alt _ j); reflexivity. }
      eapply osim_bind; [exact (alt_sim j s sh At)|]. intros [c s1] [c' sh1] [Q At1]. cbn [fst snd] in *. subst c'. split; [reflexivity|exact At1].
  Qed.
  Lemma round_sim curr : forall acc s sh, AT s sh -> osim_ true same (gdot_round rds curr acc s) (sh_dot_round curr acc sh).
  Proof.
    induction curr as [|x curr IH]; intros acc s sh At; cbn [gdot_round sh_dot_round]; [split; [reflexivity|exact At]|].
    eapply osim_bind; [exact (succ_sim x s sh At)|]. intros [l s1] [l' sh1] [Q At1]. cbn [fst snd] in *. subst l'. apply IH. exact At1.
  Qed.
  Lemma loop_sim fuel : forall curr seen s sh, AT s sh -> osim_ true same (gdot_loop rds fuel curr seen s) (sh_dot_loop fuel curr seen sh).
  Proof.
    induction fuel as [|fuel IH]; intros curr seen s sh At; cbn [gdot_loop sh_dot_loop]; [exact Logic.I|]. destruct curr as [|c curr]; [split; [reflexivity|exact At]|].
    eapply osim_bind; [exact (round_sim (c :: curr) ([], seen) s sh At)|]. intros [[n1 se1] s1] [[n1' se1'] sh1] [Q At1]. cbn [fst snd] in *. injection Q as <- <-. apply IH. exact At1.
  Qed.
  Lemma map_sim {X Y} (f : X -> _ -> outcome (list Y * _)) (g : X -> st -> outcome (list Y * st)) :
    (forall x s sh, AT s sh -> osim_ true same (f x s) (g x sh)) -> forall l s sh, AT s sh -> osim_ true same (gflat_map f l s) (sh_flat_map g l sh).
  Proof.
    intro Fg. induction l as [|x l IH]; intros s sh At; cbn [gflat_map sh_flat_map]; [split; [reflexivity|exact At]|].
    eapply osim_bind; [exact (Fg x s sh At)|]. intros [a s1] [a' sh1] [Q At1]. cbn [fst snd] in *. subst a'.
    eapply osim_bind; [exact (IH s1 sh1 At1)|]. intros [b s2] [b' sh2] [Q2 At2]. cbn [fst snd] in *. subst b'. split; [reflexivity|exact At2].
  Qed.
  Lemma stmt_sim x s sh : AT s sh -> osim_ true same (gnode_stmt rds debug_t debug_ak debug_v x s) (sh_node_stmt debug_t debug_ak debug_v x sh).
  Proof.
    intro At. unfold gnode_stmt, sh_node_stmt. eapply osim_bind; [apply osim_same|]. intros id ? <-. destruct x as [j|j]; cbn [gnode_label sh_node_label obind]; [split; [reflexivity|exact At]|].
    assert (sh_with (fun t => node_label debug_t debug_ak debug_v t (DAlt j)) sh =
      ('(c, s) <- sh_with (fun t => get_alt t j) sh ;; Ret (match c with CBranch action _ => debug_ak action | CLeaf kind value => (debug_t kind ++ "(" ++ debug_v value ++ ")")%string end, s))) as ->.
    { unfold sh_with. cbv zeta. cbn [node_label]. destruct (get_alt _ j); reflexivity. }
    eapply osim_bind; [eapply osim_bind; [exact (alt_sim j s sh At)|]|].
    - intros [c s1] [c' sh1] [Q At1]. cbn [fst snd] in *. subst c'. instantiate (1 := same). split; [reflexivity|exact At1].
    - intros [a s1] [a' sh1] [Q At1]. cbn [fst snd] in *. subst a'. split; [reflexivity|exact At1].
  Qed.
  Lemma edges_sim x s sh : AT s sh -> osim_ true same (gedges_of rds x s) (sh_edges_of x sh).
  Proof.
    intro At. unfold gedges_of, sh_edges_of. eapply osim_bind; [exact (succ_sim x s sh At)|]. intros [a s1] [a' sh1] [Q At1]. cbn [fst snd] in *. subst a'. split; [reflexivity|exact At1].
  Qed.

  (** The export of a thread among others is one of Model/DotShared.v. *)
  Lemma export_sim w1 t1 n fuel : run (effects L1) w1 -> nth_error w1 h = Some t1 ->
    osim_ true (fun x y => fst x = fst y /\ exists sh, sh_tree sh = snd y /\ AT (snd x) sh)
      (gto_dot rds debug_t debug_ak debug_v n fuel (log_of i E)) (shared_to_dot debug_t debug_ak debug_v (segs (rev E)) t1 n fuel).
  Proof.
    intros R1 E1. unfold gto_dot, shared_to_dot, gcollect, sh_collect.
    assert (At : AT (log_of i E) {| sh_tree := t1; sh_mine := []; sh_others := segs (rev E) |}).
    { exists E, [], w1, []. split; [apply app_nil_r|]. split; [reflexivity|]. split; [exact C1|]. split; [exact R1|]. split; [exact E1|]. split; [reflexivity|].
      exact (segs_none [] (rev E) (fun e X => match X with end)). }
    eapply osim_bind.
    { eapply osim_bind; [exact (loop_sim fuel _ _ _ _ At)|]. intros [se s1] [se' sh1] [Q At1]. cbn [fst snd] in *. subst se'.
      instantiate (1 := same). split; [reflexivity|exact At1]. }
    intros [[ns al] s1] [[ns' al'] sh1] [Q At1]. cbn [fst snd] in *. injection Q as <- <-.
    eapply osim_bind; [exact (map_sim _ _ stmt_sim _ _ _ At1)|]. intros [vs s2] [vs' sh2] [Q2 At2]. cbn [fst snd] in *. subst vs'.
    eapply osim_bind; [exact (map_sim _ _ edges_sim _ _ _ At2)|]. intros [es s3] [es' sh3] [Q3 At3]. cbn [fst snd] in *. subst es'.
    eapply osim_bind; [apply osim_same|]. intros l ? <-. split; [reflexivity|]. exists sh3. split; [reflexivity|exact At3].
  Qed.
  Lemma AT_end sh : AT [] sh -> exists os, nth_error wf h = Some (does os (sh_tree sh)).
  Proof.
    intros (A & B & w1 & P & HE & Lg & C & R1 & E1 & Mn & Os).
    destruct (others_do A B w1 _ (ex_intro _ [] HE) R1 E1) as (w2 & R2 & E2). rewrite HE in R2. rewrite (run_det _ _ Rf _ R2).
    exists (P ++ ops_in A). rewrite does_app. exact E2.
  Qed.
  Lemma loop_panic fuel : forall fuel' (curr seen : btset DotNode) (s : st) e, fuel <= fuel' -> sh_dot_loop fuel curr seen s = Panic e -> sh_dot_loop fuel' curr seen s = Panic e.
  Proof.
    induction fuel as [|fuel IH]; intros fuel' curr seen s r L X; [discriminate|]. destruct fuel' as [|fuel']; [lia|]. cbn [sh_dot_loop] in *.
    destruct curr as [|c curr]; [exact X|]. unfold btset in *. destruct (sh_dot_round (c :: curr) ([], seen) s) as [[[n1 seen1] s1]|?|]; cbn [obind] in *; try assumption.
    apply (IH fuel'); [lia|exact X].
  Qed.
  Lemma shared_more others t n fuel fuel' r : fuel <= fuel' -> shared_to_dot debug_t debug_ak debug_v others t n fuel = r -> r <> NoFuel ->
    shared_to_dot debug_t debug_ak debug_v others t n fuel' = r.
  Proof.
    intros L. unfold shared_to_dot, sh_collect. unfold btset. destruct (sh_dot_loop fuel _ _ _) as [[se s1]|e|] eqn:Q.
    - rewrite (loop_more _ _ _ _ _ _ L Q). auto.
    - rewrite (loop_panic _ _ _ _ _ _ L Q). auto.
    - intros <- X. destruct (X eq_refl).
  Qed.
End View.
