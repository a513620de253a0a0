(** C37 - C40, C64: parse forests (src/parsers/tree.rs). *)
From Coq Require Import String List Arith Lia FinFun.
From Verif.Model Require Import Ord BTree Outcome Utils Tree.
From Verif.Spec Require Import Reach TreeSpec.
From Verif.Proofs Require Import OrdFacts BTreeFacts LoopFacts UtilsFacts GrammarFacts TreeFacts TreeHist DotFacts.
Import ListNotations.

Section Props.
  Context {T AK V : Type} `{OrdEq T} `{OrdEq AK} `{OrdEq V}.
  Local Notation wld := (world T AK V).
  Local Notation hist := (history T AK V).
  Implicit Types (w : wld) (tr : hist).

  (** C37.  What an alternative was made with can be read back at any later time. *)
  Theorem C37_content_reads_back tr w a c : run tr w -> made tr a c -> w_content w a = Ret c.
  Proof. intros R. apply (hi_made _ _ (run_inv _ _ R)). Qed.

  (** C37.  The content of any alternative handle the program holds never changes. *)
  Theorem C37_content_stable tr tr' w w' a : run tr w -> run (tr' ++ tr) w' -> known_alt tr a ->
    exists c, w_content w a = Ret c /\ w_content w' a = Ret c.
  Proof.
    intros R R' K. destruct (hi_alt _ _ (run_inv _ _ R) a K) as (c & E).
    destruct (run_app _ _ _ R') as (w0 & R0 & L). rewrite (run_det _ _ R0 _ R) in L.
    exists (cext (al_inner a) c). split; apply w_content_iff; exists c; (split; [|reflexivity]); [exact E|].
    exact (wle_wcont _ _ _ _ L E).
  Qed.

  (** C37.  Within one tree, equal contents mean equal handles (and conversely). *)
  Theorem C37_hash_consing tr w a b : run tr w -> known_alt tr a -> known_alt tr b -> al_inner a = al_inner b ->
    (a = b <-> w_content w a = w_content w b).
  Proof.
    intros R Ka Kb S. split; [intros ->; reflexivity|]. pose proof (run_inv _ _ R) as I.
    destruct (hi_alt _ _ I a Ka) as (c & Ea). destruct (hi_alt _ _ I b Kb) as (d & Eb).
    rewrite (proj2 (w_content_iff w a _) (ex_intro _ c (conj Ea eq_refl))).
    rewrite (proj2 (w_content_iff w b _) (ex_intro _ d (conj Eb eq_refl))). intros [= E]. rewrite S in E.
    apply cext_inj in E. subst d. exact (wcont_inj w a b c (hi_w _ _ I) S Ea Eb).
  Qed.

  (** C37.  An operation all of whose handles belong to one tree returns. *)
  Theorem C37_one_tree_returns tr w o : run tr w -> can_call tr o -> one_tree o ->
    exists v w', tr_step w o = (Ret v, w').
  Proof.
    intros R K S. pose proof (run_inv _ _ R) as I.
    destruct (step_good w o (hi_w _ _ I) (held_of _ _ _ I K) S) as (v & w' & E & _). eauto.
  Qed.

  (** C38.  [alts] lists, without repetition, exactly what was added. *)
  Theorem C38_alts_exact tr w n : run tr w -> known_node tr n ->
    exists l, w_alts w n = Ret l /\ NoDup l /\ forall a, In a l <-> added w tr n a.
  Proof.
    intros R K. pose proof (run_inv _ _ R) as I. pose proof (hi_node _ _ I n K) as Vn.
    rewrite (w_alts_ok w n Vn). eexists. split; [reflexivity|]. split.
    - destruct Vn as (t & E & _). unfold walts. rewrite E. apply Injective_map_NoDup; [intros i j [= ->]; reflexivity|].
      apply sorted_NoDup. exact (ti_sorted t (hi_w _ _ I _ _ E) _).
    - intro a. rewrite (hi_added _ _ I w (hi_w _ _ I) (wle_refl w)), in_map_iff. split.
      + intros (i & <- & J). split; [reflexivity|exact J].
      + intros [E J]. exists (al_index a). split; [destruct a; simpl in *; congruence|exact J].
  Qed.

  (** C38.  [add_alt] reports Changed iff the alternative was new. *)
  Theorem C38_add_alt_report tr w n a c w' : run tr w -> run ((TAddAlt n a, Ret (RChanged c)) :: tr) w' ->
    (c = Changed <-> ~ added w tr n a).
  Proof.
    intros R R'. pose proof (run_inv _ _ R) as I. inversion R'; subst.
    match goal with X : run tr ?u |- _ => match u with w => fail 1 | _ => rewrite <- (run_det _ _ R _ X) in * end end.
    match goal with X : can_call tr _ |- _ => pose proof (held_of _ _ _ I X) as [K1 K2]; rename X into Kc end.
    match goal with X : tr_step w _ = _ |- _ => rename X into St end.
    destruct (one_tree_dec (TAddAlt n a : tr_op T AK V)) as [S|S].
    - destruct (w_add_alt_spec w n a (hi_w _ _ I) K1 K2 S) as (w2 & E & _). cbn [tr_step] in St. rewrite E in St. simpl in St.
      injection St as <- _. rewrite (hi_added _ _ I w (hi_w _ _ I) (wle_refl w)).
      destruct (bs_mem (al_index a) (walts w n)) eqn:M; simpl.
      + apply bs_mem_In_iff in M. split; [discriminate|]. intro X. destruct X. split; [exact S|exact M].
      + apply bs_mem_false_iff in M. split; [|reflexivity]. intros _ [_ X]. auto.
    - destruct (step_bad w _ (hi_w _ _ I) (conj K1 K2 : held w (TAddAlt n a)) S) as (m & w2 & E & _). congruence.
  Qed.

  (** C38.  [add_all] reports Changed iff the other node had an alternative this one did not have. *)
  Theorem C38_add_all_report tr w n m c w' : run tr w -> run ((TAddAll n m, Ret (RChanged c)) :: tr) w' ->
    (c = Changed <-> exists a, added w tr m a /\ ~ added w tr n a).
  Proof.
    intros R R'. pose proof (run_inv _ _ R) as I. inversion R'; subst.
    match goal with X : run tr ?u |- _ => match u with w => fail 1 | _ => rewrite <- (run_det _ _ R _ X) in * end end.
    match goal with X : can_call tr _ |- _ => pose proof (held_of _ _ _ I X) as [K1 K2]; rename X into Kc end.
    match goal with X : tr_step w _ = _ |- _ => rename X into St end.
    pose proof (hi_added _ _ I w (hi_w _ _ I) (wle_refl w)) as Ad.
    destruct (one_tree_dec (TAddAll n m : tr_op T AK V)) as [S|S].
    - destruct (w_add_all_spec w n m (hi_w _ _ I) K1 K2 S) as (c2 & w2 & E & _ & _ & Cc & _). cbn [tr_step] in St. rewrite E in St. simpl in St.
      injection St as <- _. rewrite Cc. simpl in S. split.
      + intros (i & J & K). exists {| al_index := i; al_inner := nd_inner m |}. rewrite !Ad. simpl. tauto.
      + intros (a & A & B). rewrite Ad in A, B. exists (al_index a). split; [apply A|]. intro X. apply B. split; [|exact X].
        rewrite S. apply A.
    - destruct (step_bad w _ (hi_w _ _ I) (conj K1 K2 : held w (TAddAll n m)) S) as (p & w2 & E & _). congruence.
  Qed.

  (** C39.  Mixing trees panics; nothing is changed.  [make_branch_node] has created its node by then: no
      handle the program holds is affected. *)
  Theorem C39_mixing_panics tr w o : run tr w -> can_call tr o -> ~ one_tree o ->
    exists m w', tr_step w o = (Panic m, w') /\
      ((forall h x ns, o <> TMakeBranchNode h x ns) -> w' = w) /\
      (forall n, known_node tr n -> w_alts w' n = w_alts w n) /\
      (forall a, known_alt tr a -> w_content w' a = w_content w a).
  Proof.
    intros R K S. pose proof (run_inv _ _ R) as I.
    destruct (step_bad w o (hi_w _ _ I) (held_of _ _ _ I K) S) as (m & w' & E & I' & L & A & D).
    exists m, w'. split; [exact E|]. split; [|split].
    - intro N. destruct D as [->|(h & x & ns & ->)]; [reflexivity|]. destruct (N h x ns). reflexivity.
    - intros n Kn. pose proof (hi_node _ _ I n Kn) as Vn. rewrite (w_alts_ok w n Vn), (w_alts_ok w' n (wle_vnode _ _ _ L Vn)), A. reflexivity.
    - intros a Ka. destruct (hi_alt _ _ I a Ka) as (c & Ec).
      rewrite (proj2 (w_content_iff w a _) (ex_intro _ c (conj Ec eq_refl))).
      apply w_content_iff. exists c. split; [exact (wle_wcont _ _ _ _ L Ec)|reflexivity].
  Qed.

  (** C64 (and the walk part of C40).  The export always terminates; its vertices are, without repetition,
      exactly what can be reached from the root by one or more steps, its edges all edges leaving these. *)
  Theorem C64_dot_strictly_below tr w n t : run tr w -> known_node tr n -> nth_error w (nd_inner n) = Some t ->
    exists ns es, runs_to (to_dot t (nd_index n)) (Ret (ns, es)) /\ NoDup ns /\
      (forall x, In x ns <-> plus (leads w (nd_inner n)) (DNode (nd_index n)) x) /\
      (forall x y, In (x, y) es <-> In x ns /\ leads w (nd_inner n) x y).
  Proof.
    intros R K E. pose proof (run_inv _ _ R) as I. destruct (hi_node _ _ I n K) as (t' & E' & O).
    rewrite E in E'. injection E' as <-.
    destruct (to_dot_exact t (nd_index n) (hi_w _ _ I _ _ E) O) as (ns & es & Rt & N & X & Y).
    exists ns, es. split; [exact Rt|]. split; [exact N|]. split.
    - intro x. rewrite X. apply plus_ext. intros a b. symmetry. apply leads_tedge. exact E.
    - intros x y. rewrite Y, (leads_tedge w (nd_inner n) t x y E). reflexivity.
  Qed.

  (** C40, the part that holds: everything below the root and its edges is exported, and the walk ends even
      on cyclic forests.  Missing: the root and its edges, unless the root lies on a cycle. *)
  Theorem C40_dot_whole_forest_partial tr w n t : run tr w -> known_node tr n -> nth_error w (nd_inner n) = Some t ->
    exists ns es, runs_to (to_dot t (nd_index n)) (Ret (ns, es)) /\
      (forall x, x = DNode (nd_index n) \/ In x ns <-> star (leads w (nd_inner n)) (DNode (nd_index n)) x) /\
      (In (DNode (nd_index n)) ns <-> plus (leads w (nd_inner n)) (DNode (nd_index n)) (DNode (nd_index n))).
  Proof.
    intros R K E. destruct (C64_dot_strictly_below tr w n t R K E) as (ns & es & Rt & _ & X & _). exists ns, es.
    split; [exact Rt|]. split; [|apply X]. intro x. rewrite X. split.
    - intros [->|P]; [apply star_refl|apply plus_star; exact P].
    - intro S. apply star_plus in S. destruct S as [<-|P]; auto.
  Qed.
End Props.

(** ** A concrete history *)
Definition node h i : Node := {| nd_index := i; nd_inner := h |}.
Definition alt h i : Alternative := {| al_index := i; al_inner := h |}.
Definition ex_ops : list (tr_op nat nat nat) :=
  [ TNewTree; TNewTree; TMakeLeafNode 0 7 1; TMakeLeafAlt 0 7 1; TMakeNode 0; TMakeBranchAlt 0 9 [node 0 0; node 0 1];
    TMakeNode 1; TAddAlt (node 0 1) (alt 0 1); TAddAlt (node 0 1) (alt 0 1); TAddAll (node 0 0) (node 0 1);
    TAddAll (node 1 0) (node 0 1); TMakeBranchNode 1 9 [node 0 0]; TAlts (node 0 0); TContent (alt 0 1) ].
Fixpoint exec (ops : list (tr_op nat nat nat)) (tr : history nat nat nat) (w : world nat nat nat) :=
  match ops with
  | [] => (tr, w)
  | o :: r => let '(x, w') := tr_step w o in exec r ((o, x) :: tr) w'
  end.
Fixpoint callable (ops : list (tr_op nat nat nat)) (tr : history nat nat nat) (w : world nat nat nat) : Prop :=
  match ops with
  | [] => True
  | o :: r => can_call tr o /\ callable r ((o, fst (tr_step w o)) :: tr) (snd (tr_step w o))
  end.
Lemma exec_run ops : forall tr w, run tr w -> callable ops tr w -> run (fst (exec ops tr w)) (snd (exec ops tr w)).
Proof.
  induction ops as [|o ops IH]; intros tr w R C; [exact R|]. cbn [callable exec] in *. destruct C as [K C].
  destruct (tr_step w o) as [x w'] eqn:E. apply IH; [|exact C]. eapply run_step; eassumption.
Qed.
Definition ex_tr : history nat nat nat := Eval vm_compute in fst (exec ex_ops [] []).
Definition ex_w : world nat nat nat := Eval vm_compute in snd (exec ex_ops [] []).

Ltac known := first [left; eexists; cbn; solve [repeat (first [left; reflexivity | right])]
                    | right; do 2 eexists; split; [cbn; solve [repeat (first [left; reflexivity | right])]|cbn; tauto]
                    | right; do 3 eexists; split; [cbn; solve [repeat (first [left; reflexivity | right])]|cbn; tauto]
                    | unfold known_tree; cbn; solve [repeat (first [left; reflexivity | right])] ].
Ltac call := vm_compute; repeat match goal with
    | |- _ /\ _ => split
    | |- True => exact Logic.I
    | |- Forall _ _ => constructor
    end; known.
Example ex_run : run ex_tr ex_w.
Proof. apply (exec_run ex_ops [] []); [apply run_nil|]. call. Qed.

(** The history contains panics (mixing trees), a duplicate alternative and a cycle. *)
Example ex_tr_shape : map snd ex_tr =
  [ Ret (RContent (NBranch 9 [node 0 0; node 0 1])); Ret (RAlts [alt 0 0; alt 0 1]);
    Panic "assertion failed: n.inner.with(is_same)"%string; Panic "assertion failed: self.inner.is_same(&other.inner)"%string;
    Ret (RChanged Changed); Ret (RChanged Unchanged); Ret (RChanged Changed);
    Ret (RNode (node 1 0)); Ret (RAlt (alt 0 1)); Ret (RNode (node 0 1)); Ret (RAlt (alt 0 0)); Ret (RNode (node 0 0));
    Ret (RHandle 1); Ret (RHandle 0) ].
Proof. reflexivity. Qed.
Example ex_content : w_content ex_w (alt 0 0) = Ret (NLeaf 7 1).
Proof. apply (C37_content_reads_back ex_tr); [exact ex_run|]. left. exists 0, 7, 1. split; [cbn; repeat (first [left; reflexivity | right])|reflexivity]. Qed.
Example ex_mix : exists m w', tr_step ex_w (TAddAlt (node 1 0) (alt 0 0)) = (Panic m, w') /\ w' = ex_w.
Proof.
  destruct (C39_mixing_panics ex_tr ex_w (TAddAlt (node 1 0) (alt 0 0)) ex_run) as (m & w' & E & W & _).
  - split; known.
  - discriminate.
  - exists m, w'. split; [exact E|]. apply W. discriminate.
Qed.

(** C40 is refuted: the dot graph of a node with a single leaf alternative consists of the leaf alone; the
    root and the edge from it are missing. *)
Definition ref_ops : list (tr_op nat nat nat) := [TNewTree; TMakeLeafNode 0 7 1].
Theorem C40_dot_contains_root_refuted :
  ~ forall (tr : history nat nat nat) (w : world nat nat nat) n t, run tr w -> known_node tr n -> nth_error w (nd_inner n) = Some t ->
    exists ns es, runs_to (to_dot t (nd_index n)) (Ret (ns, es)) /\ In (DNode (nd_index n)) ns.
Proof.
  intro A.
  assert (R : run (fst (exec ref_ops [] [])) (snd (exec ref_ops [] []))).
  { apply exec_run; [apply run_nil|]. call. }
  specialize (A _ _ (node 0 0) _ R ltac:(known) ltac:(vm_compute; reflexivity)).
  destruct A as (ns & es & Rt & J).
  destruct Rt as (_ & k & Rk). specialize (Rk (3 + k) (Nat.le_add_l k 3)).
  assert (E : Ret ([DAlt 0], @nil (DotNode * DotNode)) = Ret (ns, es)) by (rewrite <- Rk; reflexivity).
  injection E as <- <-. vm_compute in J. destruct J as [J|[]]. discriminate.
Qed.

(** On the cyclic node of the concrete history the root is present. *)
Example ex_dot : exists t, nth_error ex_w 0 = Some t /\
  to_dot t 1 10 = Ret ([DNode 0; DNode 1; DAlt 0; DAlt 1],
    [(DNode 0, DAlt 0); (DNode 0, DAlt 1); (DNode 1, DAlt 1); (DAlt 1, DNode 0); (DAlt 1, DNode 1)]).
Proof. eexists. split; vm_compute; reflexivity. Qed.

Print Assumptions C37_content_reads_back.
Print Assumptions C37_content_stable.
Print Assumptions C37_hash_consing.
Print Assumptions C37_one_tree_returns.
Print Assumptions C38_alts_exact.
Print Assumptions C38_add_alt_report.
Print Assumptions C38_add_all_report.
Print Assumptions C39_mixing_panics.
Print Assumptions C64_dot_strictly_below.
Print Assumptions C40_dot_whole_forest_partial.
Print Assumptions C40_dot_contains_root_refuted.
