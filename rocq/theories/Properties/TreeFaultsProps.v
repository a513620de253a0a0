(** C106: panics of the caller's own code inside tree calls (src/parsers/tree.rs). *)
From Coq Require Import String List Arith Lia.
From Verif.Model Require Import Ord BTree Outcome Utils Tree TreeFaults.
From Verif.Spec Require Import TreeSpec TreeFaultsSpec.
From Verif.Proofs Require Import OrdFacts BTreeFacts TreeFacts TreeHist TreeFaultsFacts TreeFaultsPoison.
From Verif.Properties Require Import TreeProps.
Import ListNotations.

Section Props.
  Context {T AK V : Type} `{OrdEq T} `{OrdEq AK} `{OrdEq V}.
  Local Notation wld := (world T AK V).
  Local Notation pwld := (pworld T AK V).
  Local Notation hist := (history T AK V).
  Implicit Types (w : wld) (pw : pwld) (tr : hist).

  (** C106.  Whatever panics there have been, every tree that can still be used is as if the calls that
      panicked had never been made: the same answers have been given and the same tree has come out as in a
      history without panics. *)
  Theorem C106_as_if_never_called tr pw : frun tr pw ->
    exists tr0 w, without_panics tr tr0 /\ run tr0 w /\ List.length w = List.length pw /\
      forall h t, healthy pw h t -> nth_error w h = Some t.
  Proof. intro R. destruct (frun_sim tr pw R) as (tr0 & w & W & R0 & [L S]). exists tr0, w. auto. Qed.

  (** C106.  In particular what an alternative was made with is read back, ... *)
  Theorem C106_content_reads_back tr pw a c t : frun tr pw -> made tr a c -> healthy pw (al_inner a) t ->
    f_content NoFault pw a = Ret c.
  Proof.
    intros R M G. destruct (frun_sim tr pw R) as (tr0 & w & W & R0 & S).
    pose proof (C37_content_reads_back tr0 w a c R0 (wp_made _ _ _ _ W M)) as E.
    unfold w_content, with_ in E. rewrite (proj2 S _ _ G) in E. cbn in E. unfold f_content, p_with. rewrite (proj2 (lock_ret _ _ _) G). exact E.
  Qed.

  Lemma run_ret_tree tr w o n : run tr w -> In (o, Ret (RNode n)) tr ->
    match o with TMakeNode h | TMakeLeafNode h _ _ | TMakeBranchNode h _ _ => nd_inner n = h | _ => True end.
  Proof.
    induction 1 as [|tr w o' r w' R IH Kc St]; [intros []|]. intros [J|J]; [|exact (IH J)]. injection J as -> ->.
    destruct o; try exact Logic.I; cbn [tr_step] in St.
    - destruct (w_make_node w h) as [[m|p|] w1] eqn:E; cbn in St; try discriminate. injection St as -> _. exact (proj1 (make_node_shape _ _ _ _ E)).
    - unfold w_make_leaf_node in St. destruct (w_make_node w h) as [[m|p|] w1] eqn:E; cbn in St; try discriminate.
      destruct (w_make_leaf_alt w1 h kind value) as [[a|p|] w2]; cbn in St; try discriminate.
      destruct (w_add_alt w2 m a) as [[c|p|] w3]; cbn in St; try discriminate. injection St as -> _. exact (proj1 (make_node_shape _ _ _ _ E)).
    - unfold w_make_branch_node in St. destruct (w_make_node w h) as [[m|p|] w1] eqn:E; cbn in St; try discriminate.
      destruct (w_make_branch_alt w1 h action nodes) as [[a|p|] w2]; cbn in St; try discriminate.
      destruct (w_add_alt w2 m a) as [[c|p|] w3]; cbn in St; try discriminate. injection St as -> _. exact (proj1 (make_node_shape _ _ _ _ E)).
  Qed.
  Lemma run_all_tree tr w n m c : run tr w -> In (TAddAll n m, Ret (RChanged c)) tr -> nd_inner n = nd_inner m.
  Proof.
    induction 1 as [|tr w o' r w' R IH Kc St]; [intros []|]. intros [J|J]; [|exact (IH J)]. injection J as -> ->.
    cbn [tr_step] in St. unfold w_add_all, is_same in St. destruct (Nat.eqb_spec (nd_inner n) (nd_inner m)); [assumption|discriminate].
  Qed.
  Lemma added_agree tr w (w1 w2 : wld) n a : run tr w -> nth_error w1 (nd_inner n) = nth_error w2 (nd_inner n) ->
    added w1 tr n a -> added w2 tr n a.
  Proof.
    intros R E A.
    assert (G : forall tr1, added w1 tr1 n a -> nth_error w1 (nd_inner n) = nth_error w2 (nd_inner n) ->
      (forall o v, In (o, Ret v) tr1 -> In (o, Ret v) tr) -> run tr w -> added w2 tr1 n a).
    { clear R E A. intros tr1 A. induction A as [tr1 n a c|tr1 n m a c A IH|tr1 n a h k v Ea C|tr1 n a h x ns Ea C|tr1 n a e A IH]; intros E X R.
      - apply added_alt.
      - apply added_all. apply IH; [|intros; apply X; right; assumption|exact R].
        rewrite <- (run_all_tree tr w n m c R (X _ _ (or_introl eq_refl))). exact E.
      - apply added_leaf; [exact Ea|]. pose proof (run_ret_tree tr w _ n R (X _ _ (or_introl eq_refl))) as Hn. cbn in Hn.
        unfold w_content, with_ in *. rewrite Ea, <- Hn, <- E, Hn, <- Ea. exact C.
      - apply added_branch; [exact Ea|]. pose proof (run_ret_tree tr w _ n R (X _ _ (or_introl eq_refl))) as Hn. cbn in Hn.
        unfold w_content, with_ in *. rewrite Ea, <- Hn, <- E, Hn, <- Ea. exact C.
      - apply added_before. apply IH; [exact E|intros; apply X; right; assumption|exact R]. }
    apply G; auto.
  Qed.

  (** ... and [alts] lists exactly what was added. *)
  Theorem C106_alts_exact tr pw n t : frun tr pw -> known_node tr n -> healthy pw (nd_inner n) t ->
    exists l, f_alts pw n = Ret l /\ NoDup l /\ forall a, In a l <-> added (map pt_tree pw) tr n a.
  Proof.
    intros R K G. destruct (frun_sim tr pw R) as (tr0 & w & W & R0 & S).
    destruct (C38_alts_exact tr0 w n R0 (wp_known_node _ _ _ W K)) as (l & E & N & A). exists l.
    assert (Et : nth_error (map pt_tree pw) (nd_inner n) = nth_error w (nd_inner n)).
    { rewrite nth_error_map, G, (proj2 S _ _ G). reflexivity. }
    split; [|split; [exact N|]].
    - unfold w_alts, with_ in E. rewrite (proj2 S _ _ G) in E. cbn in E. unfold f_alts, p_with. rewrite (proj2 (lock_ret _ _ _) G). exact E.
    - intro a. rewrite A, (wp_added (map pt_tree pw) tr tr0 n a W). split; apply (added_agree tr0 w _ _ n a R0); congruence.
  Qed.

  (** C106.  A call that panics changes nothing on any tree that can still be used: no tree is added, and
      every handle the program holds in such a tree shows what it showed before. *)
  Theorem C106_panic_changes_nothing tr pw f o m pw' : frun tr pw -> can_call tr o -> f_step f pw o = (Panic m, pw') ->
    List.length pw' = List.length pw /\
    (forall n t', known_node tr n -> healthy pw' (nd_inner n) t' -> f_alts pw' n = f_alts pw n) /\
    (forall a t', known_alt tr a -> healthy pw' (al_inner a) t' -> f_content NoFault pw' a = f_content NoFault pw a).
  Proof.
    intros R Kc St. destruct (frun_sim tr pw R) as (tr0 & w & W & R0 & S).
    pose proof (run_inv _ _ R0) as I. pose proof (held_of _ _ _ I (wp_call _ _ _ W Kc)) as Hd.
    assert (St' : exists w', sim pw' w' /\ List.length w' = List.length w /\ wle w w' /\ (forall n, walts w' n = walts w n)).
    { destruct (sim_step f pw w o S Hd) as [[(a & p1 & w' & X & Y & Z)|(m' & p1 & X & Z)]|(h & x & ns & m' & p1 & n & w' & -> & X & Y & Z)];
        rewrite X in St; try discriminate St; injection St as <- <-.
      - exists w. split; [exact Z|]. split; [reflexivity|]. split; [apply wle_refl|reflexivity].
      - exists w'. split; [exact Z|]. cbn [held] in Hd.
        destruct (w_make_node_spec w h (hi_w _ _ I) (proj1 Hd)) as (n2 & w2 & E & _ & _ & _ & _ & Le & A). rewrite E in Y. injection Y as _ <-.
        split; [|split; [exact Le|exact A]]. destruct (make_node_shape _ _ _ _ E) as (_ & t & ->). unfold w_set. apply list_set_length. }
    destruct St' as (w' & S' & Ln & Le & A). split; [rewrite (sim_len _ _ S'), (sim_len _ _ S); exact Ln|].
    assert (Back : forall h t', healthy pw' h t' -> h < List.length pw -> exists t, healthy pw h t).
    { intros h t' G' L. destruct (lock_cases pw w h S L) as [(t & G & _)|(D & _)]; [eauto|].
      pose proof (step_dead f pw o h D) as D'. rewrite St in D'. destruct (healthy_dead _ _ _ G' D'). }
    split.
    - intros n t' K G'. pose proof (hi_node _ _ I n (wp_known_node _ _ _ W K)) as Vn.
      destruct (Back _ _ G') as (t & G); [rewrite (sim_len _ _ S); apply vnode_lt; exact Vn|].
      pose proof (w_alts_ok w n Vn) as E. pose proof (w_alts_ok w' n (wle_vnode _ _ _ Le Vn)) as E'. rewrite A, <- E in E'.
      unfold w_alts, with_ in E'. rewrite (proj2 S _ _ G), (proj2 S' _ _ G') in E'. cbn in E'.
      unfold f_alts, p_with. rewrite (proj2 (lock_ret _ _ _) G), (proj2 (lock_ret _ _ _) G'). exact E'.
    - intros a t' K G'. destruct (hi_alt _ _ I a (wp_known_alt _ _ _ W K)) as (c & Ec).
      destruct (Back _ _ G') as (t & G); [rewrite (sim_len _ _ S); apply valt_lt; exists c; exact Ec|].
      pose proof (wle_wcont _ _ _ _ Le Ec) as Ec'. unfold wcont in *. rewrite (proj2 S _ _ G) in Ec. rewrite (proj2 S' _ _ G') in Ec'.
      unfold f_content, p_with. rewrite (proj2 (lock_ret _ _ _) G), (proj2 (lock_ret _ _ _) G'). cbn.
      unfold get_alt, acont in *. rewrite Ec, Ec'. reflexivity.
  Qed.

  (** C106.  A poisoned tree stays poisoned, and every call about it panics. *)
  Theorem C106_poisoned_for_ever f pw o r pw' h : f_step f pw o = (r, pw') -> dead pw h ->
    dead pw' h /\ (about o h -> exists m, r = Panic m).
  Proof.
    intros St D. pose proof (step_dead f pw o h D) as X. rewrite St in X. split; [exact X|]. intro J.
    destruct (step_about f pw o h D J) as (m & E). rewrite St in E. eauto.
  Qed.

  (** C106.  A tree is poisoned only by a panic while a content was being stored in it (comparison, or the
      destructor of a content that was there already).  In particular neither mixing trees nor a panicking
      iterator nor a panicking copy poisons a tree, and never a tree other than the one stored in. *)
  Theorem C106_poisoned_only_by_storing tr pw f o r pw' h t : frun tr pw -> can_call tr o -> f_step f pw o = (r, pw') ->
    healthy pw h t -> dead pw' h ->
    ((exists k v, o = TMakeLeafAlt h k v \/ o = TMakeLeafNode h k v) \/
     (exists x ns, o = TMakeBranchAlt h x ns \/ o = TMakeBranchNode h x ns)) /\
    exists m, r = Panic m /\ (f = InLookup m \/ f = InInsert m \/ f = InDrop m).
  Proof.
    intros R Kc St G D. destruct (frun_sim tr pw R) as (tr0 & w & W & R0 & S). pose proof (run_inv _ _ R0) as I.
    pose proof (step_cause f pw w o h t S (hi_w _ _ I) (held_of _ _ _ I (wp_call _ _ _ W Kc)) G) as C. rewrite St in C. destruct (C D) as [E X].
    split; [|exact X]. destruct o; cbn in E; try discriminate; injection E as ->; [left|right|left|right]; eauto.
  Qed.

  (** C106.  A call without a panic of the caller's code, on trees that can be used and all of whose handles
      belong to one tree, returns. *)
  Theorem C106_usable_trees_answer tr pw o : frun tr pw -> can_call tr o -> one_tree o ->
    (forall h, about o h -> exists t, healthy pw h t) -> exists v pw', f_step NoFault pw o = (Ret v, pw').
  Proof.
    intros R Kc O Hl. destruct (frun_sim tr pw R) as (tr0 & w & W & R0 & S). pose proof (run_inv _ _ R0) as I.
    exact (step_nofault pw w o S (hi_w _ _ I) (held_of _ _ _ I (wp_call _ _ _ W Kc)) O Hl).
  Qed.
End Props.

(** ** A concrete history: two trees; storing 8 in the first panics after the content has been written, which
    kills it; the second goes on, is given a foreign node of the dead tree and survives that too. *)
Definition fex : list (fault * tr_op nat nat nat) :=
  [ (NoFault, TNewTree); (NoFault, TNewTree); (NoFault, TMakeLeafNode 0 7 1); (NoFault, TMakeLeafNode 1 7 1);
    (InInsert "cmp", TMakeLeafAlt 0 8 1); (NoFault, TAlts (node 0 0)); (InIterator 1 "iter", TMakeBranchNode 1 9 [node 1 0; node 1 0]);
    (NoFault, TMakeBranchAlt 1 9 [node 1 0; node 0 0]); (NoFault, TAlts (node 1 0)); (InClone "clone", TContent (alt 1 0)); (NoFault, TMakeBranchNode 1 9 [node 1 0]);
    (InDrop "drop", TAlts (node 1 2)) ]%string.
Fixpoint fexec (ops : list (fault * tr_op nat nat nat)) (tr : history nat nat nat) (pw : pworld nat nat nat) :=
  match ops with
  | [] => (tr, pw)
  | (f, o) :: r => let '(v, pw') := f_step f pw o in fexec r ((o, v) :: tr) pw'
  end.
Example fex_outcomes : map snd (rev (fst (fexec fex [] []))) =
  [ Ret (RHandle 0); Ret (RHandle 1); Ret (RNode (node 0 0)); Ret (RNode (node 1 0)); Panic "cmp"%string; Panic poison_text;
    Panic "iter"%string; Panic poison_text; Ret (RAlts [alt 1 0]); Panic "clone"%string; Ret (RNode (node 1 2)); Ret (RAlts [alt 1 1]) ].
Proof. reflexivity. Qed.
(** The dead tree is left half done: 8 is in the list of contents but not in the map. *)
Example fex_half_done :
  map (fun p => (pt_poisoned p, List.length (id_to_value (in_alts (pt_tree p))), List.length (value_to_id (in_alts (pt_tree p))))) (snd (fexec fex [] []))
  = [(true, 2, 1); (false, 2, 2)].
Proof. reflexivity. Qed.
Fixpoint fcallable (ops : list (fault * tr_op nat nat nat)) (tr : history nat nat nat) (pw : pworld nat nat nat) : Prop :=
  match ops with
  | [] => True
  | (f, o) :: r => can_call tr o /\ fcallable r ((o, fst (f_step f pw o)) :: tr) (snd (f_step f pw o))
  end.
Lemma fexec_frun ops : forall tr pw, frun tr pw -> fcallable ops tr pw -> frun (fst (fexec ops tr pw)) (snd (fexec ops tr pw)).
Proof.
  induction ops as [|[f o] ops IH]; intros tr pw R C; [exact R|]. cbn [fcallable fexec] in *. destruct C as [K C].
  destruct (f_step f pw o) as [x pw'] eqn:E. apply IH; [|exact C]. eapply frun_step; eassumption.
Qed.
Definition fex_tr : history nat nat nat := Eval vm_compute in fst (fexec fex [] []).
Definition fex_pw : pworld nat nat nat := Eval vm_compute in snd (fexec fex [] []).
Example fex_frun : frun fex_tr fex_pw.
Proof. apply (fexec_frun fex [] []); [apply frun_nil|]. call. Qed.
Example fex_content : f_content NoFault fex_pw (alt 1 0) = Ret (NLeaf 7 1).
Proof. reflexivity. Qed.
Example fex_alts : exists l, f_alts fex_pw (node 1 2) = Ret l /\ forall a, In a l <-> added (map pt_tree fex_pw) fex_tr (node 1 2) a.
Proof.
  destruct (C106_alts_exact fex_tr fex_pw (node 1 2) _ fex_frun ltac:(known) eq_refl) as (l & E & _ & A). eauto.
Qed.
Example fex_dead : dead fex_pw 0.
Proof. eexists. reflexivity. Qed.
Example fex_next : exists v pw', f_step NoFault fex_pw (TMakeLeafNode 1 3 3) = (Ret v, pw').
Proof.
  apply (C106_usable_trees_answer fex_tr fex_pw _ fex_frun); [cbn; known|exact Logic.I|]. intros h ->. eexists. reflexivity.
Qed.

Print Assumptions C106_as_if_never_called.
Print Assumptions C106_content_reads_back.
Print Assumptions C106_alts_exact.
Print Assumptions C106_panic_changes_nothing.
Print Assumptions C106_poisoned_for_ever.
Print Assumptions C106_poisoned_only_by_storing.
Print Assumptions C106_usable_trees_answer.
