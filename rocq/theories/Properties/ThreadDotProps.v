(** C105: the dot export among threads (src/parsers/tree.rs). *)
From Coq Require Import String List Arith Bool Lia.
From Verif.Model Require Import Ord BTree Outcome Utils Tree DotText EarleyShared DotShared DotReads RwLock.
From Verif.Spec Require Import Reach TreeSpec RwLockSpec EarleySpec ShareSpec DotShareSpec ThreadParseSpec ThreadDotSpec.
From Verif.Proofs Require Import OrdFacts BTreeFacts LoopFacts GrammarFacts TreeFacts TreeHist DotFacts DotTextFacts EarleyMore EarleyShare DotShare RwLockSafe RwLockInv ParseThreads DotThreads.
From Verif.Properties Require Import TreeProps DotShareProps RwLockProps ThreadParseProps.
Import ListNotations.

Section Props.
  Context {T AK V : Type} `{OrdEq T} `{OrdEq AK} `{OrdEq V}.
  Variables (debug_t : T -> string) (debug_ak : AK -> string) (debug_v : V -> string).
  Local Notation cfg := (config T AK V).

  Local Notation wld := (world T AK V).
  Lemma step_len (w : wld) (o : tr_op T AK V) : length (snd (tr_step w o)) = length w \/
    o = TNewTree /\ tr_step w o = (Ret (RHandle (length w)), w ++ [in_new]).
  Proof.
    assert (Mn : forall (w : wld) h, length (snd (w_make_node w h)) = length w).
    { intros w0 h. unfold w_make_node, on. destruct (with_ w0 h); try reflexivity. destruct (in_make_node a). apply list_set_length. }
    assert (Ma : forall (w : wld) h c, length (snd (w_make_alt w h c)) = length w).
    { intros w0 h c. unfold w_make_alt, on. destruct (with_ w0 h); try reflexivity. destruct (in_make_alt a c). apply list_set_length. }
    assert (Mb : forall (w : wld) h x ns, length (snd (w_make_branch_alt w h x ns)) = length w).
    { intros w0 h x ns. unfold w_make_branch_alt, on at 1 2. destruct (with_ w0 h); try reflexivity. destruct (collect_indexes h ns); try reflexivity. apply Ma. }
    assert (Aa : forall (w : wld) n a, length (snd (w_add_alt w n a)) = length w).
    { intros w0 n a. unfold w_add_alt, on. destruct (assert_ _ _); try reflexivity. destruct (with_ w0 (nd_inner n)); try reflexivity.
      destruct (in_add_node_alt _ _ _) as [[? ?]|?|]; try reflexivity. apply list_set_length. }
    assert (Rm : forall A (f : A -> tr_val T AK V) (x : wres A), length (snd (rmap f x)) = length (snd x)) by (intros A f [[?|?|] ?]; reflexivity).
    assert (Wb : forall A B (x : wres A) (k : A -> wld -> wres B), length (snd x) = length w -> (forall a w', length w' = length w -> length (snd (k a w')) = length w) -> length (snd (wbind x k)) = length w).
    { intros A B [[a|?|] w'] k X F; cbn [wbind snd] in *; auto. }
    destruct o; cbn [tr_step]; rewrite ?Rm; [right; split; reflexivity|left..].
    - apply Mn.
    - apply Ma.
    - apply Mb.
    - unfold w_make_leaf_node. apply Wb; [apply Mn|]. intros n w1 X1. apply Wb; [rewrite <- X1; apply Ma|]. intros a w2 X2. apply Wb; [rewrite <- X2; apply Aa|]. auto.
    - unfold w_make_branch_node. apply Wb; [apply Mn|]. intros n w1 X1. apply Wb; [rewrite <- X1; apply Mb|]. intros a w2 X2. apply Wb; [rewrite <- X2; apply Aa|]. auto.
    - apply Aa.
    - unfold w_add_all, on. destruct (assert_ _ _); try reflexivity. destruct (with_ w (nd_inner n)); try reflexivity.
      destruct (in_add_all _ _ _) as [[? ?]|?|]; try reflexivity. apply list_set_length.
    - reflexivity.
    - reflexivity.
  Qed.
  Lemma world_known (tr : history T AK V) (w : wld) : run tr w -> forall h, h < length w -> known_tree tr h.
  Proof.
    induction 1 as [|tr w o r w' R IH K S]; intros h L; [simpl in L; lia|].
    destruct (step_len w o) as [X|[-> X]]; rewrite S in X.
    - right. apply IH. simpl in X. lia.
    - injection X as -> ->. rewrite app_length in L. simpl in L. destruct (Nat.eq_dec h (length w)) as [->|]; [left; reflexivity|right; apply IH; lia].
  Qed.

  (** The exported node exists at the beginning, in a tree made by calls. *)
  Lemma start_tree wp (c1 : cfg) n : reachable wp any_call c1 -> known_node (returned (c_trace c1)) n ->
    exists t1 s, nth_error (c_world c1) (nd_inner n) = Some t1 /\ api_tree t1 /\ get_node t1 (nd_index n) = Ret s.
  Proof.
    intros R K. destruct (reachable_good wp any_call c1 R) as (L1 & st1 & hs1 & G1). destruct G1 as [Gl1 Ge1 Gr1 Gk1 Gi1 Gu1 _ _].
    pose proof (known_ret_node _ _ _ Gk1 K) as K'. destruct (hi_node _ _ (run_inv _ _ Gr1) n K') as (t1 & E1 & O1).
    exists t1, (nalts t1 (nd_index n)). split; [exact E1|]. split.
    - exists (effects L1), (c_world c1), (nd_inner n). split; [exact Gr1|]. split; [|exact E1]. apply (world_known _ _ Gr1). apply nth_error_Some. congruence.
    - unfold node_ok, get_node, nalts in *. destruct (nth_error (in_nodes t1) (nd_index n)) eqn:Q; [reflexivity|]. apply nth_error_None in Q. lia.
  Qed.

  (** C105.  A thread exports a node while any other threads do whatever they like with the tree.  Everything strictly
      below the node when the export began is declared, once, and everything declared is below it when the export has
      ended, with its label; every edge written is there at the end, from a declared vertex, and every edge there was
      at the beginning from a declared vertex is written. *)
  Theorem C105_export_among_threads wp (c1 c : cfg) tr i n out :
    reachable wp any_call c1 -> steps wp any_call c1 c -> c_trace c = tr ++ c_trace c1 ->
    c_thread c1 i = Idle -> known_node (returned (c_trace c1)) n ->
    export_log debug_t debug_ak debug_v n (calls_of i tr) out ->
    exists t1 t id xs vs es, nth_error (c_world c1) (nd_inner n) = Some t1 /\ nth_error (c_world c) (nd_inner n) = Some t /\ out = vs ++ es /\
      (forall x, node_id x = Ret (id x)) /\ NoDup xs /\
      Forall2 (fun x st => exists l sh, st = NodeStmt (id x) l sh /\ drawn debug_t debug_ak debug_v t x l sh) xs vs /\
      (forall x, plus (link t1) (DNode (nd_index n)) x -> In x xs) /\ (forall x, In x xs -> plus (link t) (DNode (nd_index n)) x) /\
      (forall st, In st es -> exists x y, st = EdgeStmt (id x) (id y) /\ In x xs /\ link t x y) /\
      (forall x y, In x xs -> link t1 x y -> In (EdgeStmt (id x) (id y)) es).
  Proof.
    intros R S Et I1 K (fuel & Eo). destruct (start_tree wp c1 n R K) as (t1 & s & E1 & At & Gn).
    destruct (span_exists wp c1 c tr R S Et) as (E & L1 & Sp). pose proof (sp_erase _ _ _ _ _ Sp) as Er. subst tr. rewrite <- log_erase in Eo.
    pose proof (export_sim i (nd_inner n) E L1 (c_world c) (sp_ok _ _ _ _ _ Sp) (sp_run _ _ _ _ _ Sp) (sp_idle1 _ _ _ _ _ Sp i I1) debug_t debug_ak debug_v
      (c_world c1) t1 (nd_index n) fuel (sp_run1 _ _ _ _ _ Sp) E1) as X.
    rewrite Eo in X. set (others := segs i (nd_inner n) (rev E)) in *.
    destruct (shared_to_dot debug_t debug_ak debug_v others t1 (nd_index n) fuel) as [[out' t2]|?|] eqn:Q; simpl in X; try contradiction.
    destruct X as (<- & sh & <- & Ae).
    destruct (AT_end i (nd_inner n) E L1 (c_world c) (sp_ok _ _ _ _ _ Sp) (sp_run _ _ _ _ _ Sp) sh Ae) as (os & Eth).
    destruct (C87_shared_dot debug_t debug_ak debug_v t1 (nd_index n) s others At Gn) as (id & xs & vs & es & k & (_ & m & Rm) & Ids & Nd & Dr & A1 & A2 & A3 & A4).
    pose proof (shared_more debug_t debug_ak debug_v others t1 (nd_index n) fuel (fuel + m) _ (Nat.le_add_r _ _) Q) as X. rewrite (Rm (fuel + m) (Nat.le_add_l _ _)) in X.
    assert (X' : (vs ++ es, after others k t1) = (out, sh_tree sh)) by (specialize (X ltac:(discriminate)); congruence). injection X' as <- Ek.
    rewrite Ek in *. pose proof (api_tree_inv _ At) as Iv.
    assert (I2 : TInv (sh_tree sh)) by (rewrite <- Ek; exact (gr_t _ _ (after_grow t1 others Iv k))).
    pose proof (others_grow [] os (sh_tree sh) I2) as G. fold (does os (sh_tree sh)) in G.
    exists t1, (does os (sh_tree sh)), id, xs, vs, es. split; [exact E1|]. split; [exact Eth|]. split; [reflexivity|]. split; [exact Ids|]. split; [exact Nd|].
    assert (Lk : forall x y, link (sh_tree sh) x y -> link (does os (sh_tree sh)) x y).
    { intros x y L. apply link_tedge in L. apply link_tedge. exact (tedge_grow _ _ _ _ I2 G L). }
    split; [|split; [exact A1|split; [|split; [|exact A4]]]].
    - clear -Dr G. induction Dr as [|x st xs vs (l & z & -> & D) Dr IH]; [constructor|]. constructor; [|exact IH]. exists l, z. split; [reflexivity|].
      destruct D as [a|a x ns Ga|a k v Ga]; [constructor|econstructor|econstructor]; apply acont_get; apply (gr_keep _ _ G); apply acont_get; exact Ga.
    - intros x J. destruct (A2 x J) as (y & Sy & Ly). exists y. split; [|exact (Lk _ _ Ly)]. clear -Sy Lk. induction Sy as [|u v S IH L]; [constructor|]. eapply star_step; [exact IH|exact (Lk _ _ L)].
    - intros st J. destruct (A3 st J) as (x & y & Q1 & Q2 & Q3). exists x, y. auto.
  Qed.

  (** It never panics. *)
  Theorem C105_export_never_panics wp (c1 c : cfg) tr i n e :
    reachable wp any_call c1 -> steps wp any_call c1 c -> c_trace c = tr ++ c_trace c1 ->
    c_thread c1 i = Idle -> known_node (returned (c_trace c1)) n ->
    ~ export_panic_log debug_t debug_ak debug_v n (calls_of i tr) e.
  Proof.
    intros R S Et I1 K (fuel & Eo). destruct (start_tree wp c1 n R K) as (t1 & s & E1 & At & Gn).
    destruct (span_exists wp c1 c tr R S Et) as (E & L1 & Sp). pose proof (sp_erase _ _ _ _ _ Sp) as Er. subst tr. rewrite <- log_erase in Eo.
    pose proof (export_sim i (nd_inner n) E L1 (c_world c) (sp_ok _ _ _ _ _ Sp) (sp_run _ _ _ _ _ Sp) (sp_idle1 _ _ _ _ _ Sp i I1) debug_t debug_ak debug_v
      (c_world c1) t1 (nd_index n) fuel (sp_run1 _ _ _ _ _ Sp) E1) as X.
    rewrite Eo in X. set (others := segs i (nd_inner n) (rev E)) in *.
    destruct (shared_to_dot debug_t debug_ak debug_v others t1 (nd_index n) fuel) as [?|e'|] eqn:Q; simpl in X; try contradiction.
    destruct (C87_shared_dot debug_t debug_ak debug_v t1 (nd_index n) s others At Gn) as (id & xs & vs & es & k & (_ & m & Rm) & _).
    pose proof (shared_more debug_t debug_ak debug_v others t1 (nd_index n) fuel (fuel + m) _ (Nat.le_add_r _ _) Q) as Y. rewrite (Rm (fuel + m) (Nat.le_add_l _ _)) in Y.
    specialize (Y ltac:(discriminate)). discriminate.
  Qed.
End Props.
Print Assumptions C105_export_among_threads.
Print Assumptions C105_export_never_panics.

(** Non-vacuity: thread 0 exports a node; when it has written the vertices thread 1 adds an alternative to a node already
    walked.  The export then has an edge to a vertex it does not declare. *)
Local Open Scope string_scope.
Definition altb (tr : history nat nat nat) (a : Alternative) : bool :=
  existsb (fun e : tr_op nat nat nat * outcome (tr_val nat nat nat) =>
    match e with
    | (_, Ret (RAlt b)) => Nat.eqb (al_index b) (al_index a) && Nat.eqb (al_inner b) (al_inner a)
    | (TAlts _, Ret (RAlts l)) => existsb (fun b => Nat.eqb (al_index b) (al_index a) && Nat.eqb (al_inner b) (al_inner a)) l
    | _ => false
    end) tr.
Definition node2b (tr : history nat nat nat) (n : Node) : bool :=
  knownb tr n || existsb (fun e => match e with (TContent _, Ret (RContent (NBranch _ ns))) => existsb (fun m => nodeb m n) ns | _ => false end) tr.
Definition dcallb (tr : history nat nat nat) (o : tr_op nat nat nat) : bool :=
  match o with
  | TMakeLeafNode h _ _ | TMakeLeafAlt h _ _ => treeb tr h
  | TMakeBranchNode h _ ns => treeb tr h && forallb (knownb tr) ns
  | TAddAlt n a => node2b tr n && altb tr a
  | TAlts n => node2b tr n
  | TContent a => altb tr a
  | _ => false
  end.
Lemma altb_ok tr a : altb tr a = true -> known_alt tr a.
Proof.
  unfold altb. rewrite existsb_exists. intros ([o [v|?|]] & J & E); try (destruct o; discriminate).
  assert (Q : forall b : Alternative, Nat.eqb (al_index b) (al_index a) && Nat.eqb (al_inner b) (al_inner a) = true -> b = a).
  { intros b X. apply andb_prop in X. destruct X as [X Y]. apply Nat.eqb_eq in X, Y. destruct a, b; simpl in *; subst; reflexivity. }
  destruct v as [| |b| |l|]; try (destruct o; discriminate).
  - assert (b = a) as -> by (apply Q; destruct o; exact E). left. eauto.
  - destruct o; try discriminate. apply existsb_exists in E. destruct E as (b & Jb & E). apply Q in E. subst b. right. eauto.
Qed.
Lemma node2b_ok tr n : node2b tr n = true -> known_node tr n.
Proof.
  unfold node2b. rewrite orb_true_iff. intros [X|X]; [exact (knownb_ok tr n X)|]. apply existsb_exists in X. destruct X as ([o [v|?|]] & J & E); try (destruct o; discriminate).
  destruct o; try discriminate. destruct v as [| | | | |[|x ns]]; try discriminate. apply existsb_exists in E. destruct E as (m & Jm & E). unfold nodeb in E. apply andb_prop in E. destruct E as [E1 E2].
  apply Nat.eqb_eq in E1, E2. right. exists a, x, ns. split; [exact J|]. destruct m, n; simpl in *; subst; exact Jm.
Qed.
Lemma dcallb_ok tr o : dcallb tr o = true -> can_call tr o.
Proof.
  destruct o; simpl; try discriminate; try apply treeb_ok; try apply node2b_ok; try apply altb_ok.
  - rewrite andb_true_iff. intros [A B]. split; [apply treeb_ok; exact A|]. apply Forall_forall. intros n J. apply knownb_ok. rewrite forallb_forall in B. exact (B n J).
  - rewrite andb_true_iff. intros [A B]. split; [apply node2b_ok; exact A|apply altb_ok; exact B].
Qed.
Local Notation ncfg := (config nat nat nat).
Definition advance (i : nat) (l : ncfg * list (call_event nat nat nat)) : ncfg * list (call_event nat nat nat) :=
  let (c, tr) := l in
  match c_thread c i with
  | Running o (Done r) =>
      ({| c_world := c_world c; c_lock := c_lock c; c_thread := RwLock.upd (c_thread c) i Idle; c_trace := ERet i o r :: c_trace c |}, ERet i o r :: tr)
  | _ => match thread_step false i c with Some c' => (c', tr) | None => l end
  end.
Definition one_call (x : nat * tr_op nat nat nat) (l : ncfg * list (call_event nat nat nat)) : ncfg * list (call_event nat nat nat) :=
  let (c, tr) := l in
  match c_thread c (fst x) with
  | Idle => if dcallb (returned (c_trace c)) (snd x) then Nat.iter 60 (advance (fst x)) (call (fst x) (snd x) c, ECall (fst x) (snd x) :: tr) else l
  | _ => l
  end.
Definition in_order (xs : list (nat * tr_op nat nat nat)) (c : ncfg) := fold_left (fun l x => one_call x l) xs (c, []).
Definition good_from (c0 : ncfg) (l : ncfg * list (call_event nat nat nat)) : Prop :=
  steps false any_call c0 (fst l) /\ c_trace (fst l) = (snd l ++ c_trace c0)%list.
Lemma advance_ok i l c0 : good_from c0 l -> good_from c0 (advance i l).
Proof.
  destruct l as [c tr]. unfold good_from. cbn [fst snd]. intros [S Et]. unfold advance. destruct (c_thread c i) as [|o p] eqn:Ei.
  - unfold thread_step. rewrite Ei. exact (conj S Et).
  - assert (X : good_from c0 (match thread_step false i c with Some c' => (c', tr) | None => (c, tr) end)).
    { destruct (thread_step false i c) as [c'|] eqn:Ts; [|exact (conj S Et)]. split; cbn [fst snd].
      - eapply steps_step; [exact S|]. apply st_inside. eapply in_run. exact Ts.
      - rewrite <- Et. exact (thread_step_trace _ _ _ _ Ts). }
    destruct p; try exact X. cbn [fst snd]. split.
    + eapply steps_step; [exact S|]. apply st_inside. apply in_ret. exact Ei.
    + cbn [c_trace]. rewrite Et. reflexivity.
Qed.
Lemma one_call_ok x l c0 : good_from c0 l -> good_from c0 (one_call x l).
Proof.
  destruct l as [c tr]. intros G. unfold one_call. destruct (c_thread c (fst x)) eqn:Ei; [|exact G]. destruct (dcallb (returned (c_trace c)) (snd x)) eqn:K; [|exact G].
  assert (G1 : good_from c0 (call (fst x) (snd x) c, ECall (fst x) (snd x) :: tr)).
  { destruct G as [S Et]. cbn [fst snd] in *. split; cbn [fst snd].
    - apply call_steps; [exact S|exact Ei|exact (dcallb_ok _ _ K)|exact Logic.I].
    - cbn [call c_trace]. rewrite Et. reflexivity. }
  generalize 60. intro k. induction k as [|k IH]; [exact G1|]. apply advance_ok. exact IH.
Qed.
Lemma in_order_ok xs c0 : good_from c0 (in_order xs c0).
Proof.
  unfold in_order. assert (G : good_from c0 (c0, [])) by (split; [apply steps_refl|reflexivity]). revert G. generalize (c0, @nil (call_event nat nat nat)).
  induction xs as [|x xs IH]; intros l G; [exact G|]. apply IH, one_call_ok, G.
Qed.
Definition nd0 (k : nat) : Node := {| nd_index := k; nd_inner := 0 |}.
Definition al0 (k : nat) : Alternative := {| al_index := k; al_inner := 0 |}.
Definition ex_d1 : ncfg := fst (in_order [(0, TMakeLeafNode 0 7 8); (0, TMakeBranchNode 0 5 [nd0 0])] (ex1 false)).
Definition ex_reads1 : list (nat * tr_op nat nat nat) := [(0, TAlts (nd0 1)); (0, TContent (al0 1)); (0, TAlts (nd0 0)); (0, TContent (al0 0)); (0, TContent (al0 0)); (0, TContent (al0 1))].
Definition ex_adds : list (nat * tr_op nat nat nat) := [(1, TMakeLeafAlt 0 7 9); (1, TAddAlt (nd0 0) (al0 2))].
Definition ex_reads2 : list (nat * tr_op nat nat nat) := [(0, TAlts (nd0 0)); (0, TContent (al0 0)); (0, TContent (al0 1))].
Definition ex_d := in_order (ex_reads1 ++ ex_adds ++ ex_reads2)%list ex_d1.
Definition dbt (k : nat) := "T" ++ show_usize k.
Definition dba (k : nat) := "A" ++ show_usize k.
Definition ex_out := [NodeStmt "n0" "" "point"; NodeStmt "a0" "T7(8)" "box"; NodeStmt "a1" "A5" "box";
  EdgeStmt "n0" "a0"; EdgeStmt "n0" "a2"; EdgeStmt "a1" "n0"].
Theorem C105_edge_without_vertex : exists (c1 c : ncfg) tr i n out a b,
  reachable false any_call c1 /\ steps false any_call c1 c /\ c_trace c = (tr ++ c_trace c1)%list /\ c_thread c1 i = Idle /\
  known_node (returned (c_trace c1)) n /\ export_log dbt dba show_usize n (calls_of i tr) out /\
  In (EdgeStmt a b) out /\ forall l sh, ~ In (NodeStmt b l sh) out.
Proof.
  exists ex_d1, (fst ex_d), (snd ex_d), 0, (nd0 1), ex_out, "n0", "a2". split.
  { assert (X : forall c2, steps false any_call (ex1 false) c2 -> reachable false any_call c2).
    { intros c2 S. pose proof (ex1_reachable false any_call Logic.I) as R. unfold reachable in *. induction S as [|c3 c4 S IH St]; [exact R|]. eapply steps_step; eassumption. }
    apply X. exact (proj1 (in_order_ok _ (ex1 false))). }
  split; [exact (proj1 (in_order_ok _ ex_d1))|]. split; [exact (proj2 (in_order_ok _ ex_d1))|]. split; [vm_compute; reflexivity|].
  split; [apply knownb_ok; vm_compute; reflexivity|]. split; [exists 10; vm_compute; reflexivity|]. split; [simpl; tauto|]. intros l sh. simpl. intuition congruence.
Qed.
Print Assumptions C105_edge_without_vertex.
Example C105_example : exists t1 t id xs vs es, nth_error (c_world ex_d1) 0 = Some t1 /\ nth_error (c_world (fst ex_d)) 0 = Some t /\ ex_out = (vs ++ es)%list /\
  (forall x, node_id x = Ret (id x)) /\ NoDup xs /\ In (DAlt 0) xs /\ ~ plus (link t1) (DNode 1) (DAlt 2) /\ link t (DNode 0) (DAlt 2).
Proof.
  assert (R : reachable false any_call ex_d1).
  { assert (X : forall c2, steps false any_call (ex1 false) c2 -> reachable false any_call c2).
    { intros c2 S. pose proof (ex1_reachable false any_call Logic.I) as R. unfold reachable in *. induction S as [|c3 c4 S IH St]; [exact R|]. eapply steps_step; eassumption. }
    apply X. exact (proj1 (in_order_ok _ (ex1 false))). }
  destruct (C105_export_among_threads dbt dba show_usize false ex_d1 (fst ex_d) (snd ex_d) 0 (nd0 1) ex_out R (proj1 (in_order_ok _ ex_d1)) (proj2 (in_order_ok _ ex_d1)))
    as (t1 & t & id & xs & vs & es & E1 & E2 & Eo & Ids & Nd & Dr & A1 & A2 & A3 & A4).
  - vm_compute. reflexivity.
  - apply knownb_ok. vm_compute. reflexivity.
  - exists 10. vm_compute. reflexivity.
  - exists t1, t, id, xs, vs, es. split; [exact E1|]. split; [exact E2|]. split; [exact Eo|]. split; [exact Ids|]. split; [exact Nd|].
    vm_compute in E1. injection E1 as <-. vm_compute in E2. injection E2 as <-. split; [|split].
    + apply A1. exists (DNode 0). split.
      * apply (star_step _ _ (DAlt 1)); [|eapply link_node; [vm_compute; reflexivity|left; reflexivity]].
        apply (star_step _ _ (DNode 1)); [constructor|]. eapply link_alt; [vm_compute; reflexivity|left; reflexivity].
      * eapply link_alt; [vm_compute; reflexivity|left; reflexivity].
    + intros (y & _ & L). inversion L as [n0 s0 a0 G J|]; subst. destruct n0 as [|[|n0]]; vm_compute in G.
      * injection G as <-. destruct J as [J|[]]; discriminate.
      * injection G as <-. destruct J as [J|[]]; discriminate.
      * destruct n0; discriminate.
    + eapply link_alt; [vm_compute; reflexivity|right; left; reflexivity].
Qed.
