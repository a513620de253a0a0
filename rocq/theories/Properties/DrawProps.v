(** C120: what can be seen in a dot drawing (src/parsers/tree.rs:415-424, 587-762). *)
From Coq Require Import String List Arith Lia.
From Verif.Model Require Import Ord BTree Outcome Utils Grammar StartGrammar Tokens Tree State Earley DotText.
From Verif.Spec Require Import Reach Cfg BuildSpec NullSpec TreeSpec DotSpec EarleySpec AmbigSpec DrawSpec Examples.
From Verif.Proofs Require Import OrdFacts BTreeFacts LoopFacts GrammarFacts StartFacts BuildMore CfgFacts TreeFacts TreeHist
  DotFacts DotTextFacts TreeLink EarleyMore DrawFacts ExampleFacts.
From Verif.Properties Require Import TreeProps DotProps EarleyProps AmbigProps.
Import ListNotations.

Section Props.
  Context {T AK V : Type} `{OrdEq T} `{OrdEq AK} `{OrdEq V}.
  Variables (debug_t : T -> string) (debug_ak : AK -> string) (debug_v : V -> string).
  Local Notation draw := (draw debug_t debug_ak debug_v).
  Local Notation stmts_of := (to_dot_stmts debug_t debug_ak debug_v).

  (** C120. The trees one can follow from the point of a node strictly below the drawn one are exactly the trees of
      that node, ... *)
  Theorem C120_points (tr : history T AK V) w n t stmts :
    run tr w -> known_node tr n -> nth_error w (nd_inner n) = Some t -> runs_to (stmts_of t (nd_index n)) (Ret stmts) ->
    forall k i d, plus (leads w (nd_inner n)) (DNode (nd_index n)) (DNode k) -> node_id (DNode k) = Ret i ->
      (point_shows stmts i d <-> exists p, reads t k p /\ d = draw p).
  Proof.
    intros R K E Rt k i d L Hi. rewrite node_id_vertex in Hi. injection Hi as <-.
    exact (proj1 (drawing_exact debug_t debug_ak debug_v tr w n t stmts R K E Rt) k d L).
  Qed.

  (** ... those from the box of an alternative are exactly the trees of that alternative, ... *)
  Theorem C120_boxes (tr : history T AK V) w n t stmts :
    run tr w -> known_node tr n -> nth_error w (nd_inner n) = Some t -> runs_to (stmts_of t (nd_index n)) (Ret stmts) ->
    forall a i d, plus (leads w (nd_inner n)) (DNode (nd_index n)) (DAlt a) -> node_id (DAlt a) = Ret i ->
      (box_shows stmts i d <-> exists p, reads_alt t a p /\ d = draw p).
  Proof.
    intros R K E Rt a i d L Hi. rewrite node_id_vertex in Hi. injection Hi as <-.
    exact (proj1 (proj2 (drawing_exact debug_t debug_ak debug_v tr w n t stmts R K E Rt)) a d L).
  Qed.

  (** ... so the trees of the drawn node itself are exactly those of the boxes of its alternatives, ... *)
  Theorem C120_root (tr : history T AK V) w n t stmts s :
    run tr w -> known_node tr n -> nth_error w (nd_inner n) = Some t -> runs_to (stmts_of t (nd_index n)) (Ret stmts) ->
    get_node t (nd_index n) = Ret s ->
    forall d, (exists a i, In a s /\ node_id (DAlt a) = Ret i /\ box_shows stmts i d) <->
      exists p, reads t (nd_index n) p /\ d = draw p.
  Proof.
    intros R K E Rt G d.
    assert (L : forall a, In a s -> plus (leads w (nd_inner n)) (DNode (nd_index n)) (DAlt a)).
    { intros a J. exists (DNode (nd_index n)). split; [constructor|]. apply (leads_tedge w (nd_inner n) t _ _ E).
      exists (map DAlt s). split; [cbn [dot_succ]; rewrite G; reflexivity|now apply in_map]. }
    split.
    - intros (a & i & J & Hi & B). apply (C120_boxes tr w n t stmts R K E Rt a i d (L a J) Hi) in B.
      destruct B as (p & Rp & ->). exists p. split; [|reflexivity]. destruct Rp; econstructor; eassumption.
    - intros (p & Rp & ->).
      assert (X : exists a, In a s /\ reads_alt t a p).
      { inversion Rp as [n' s' a k v Gn Ja Ga|n' s' a x ns cs Gn Ja Ga Ra]; subst; rewrite G in Gn; injection Gn as <-;
          exists a; (split; [exact Ja|]); econstructor; eassumption. }
      destruct X as (a & J & Ra). exists a, (vertex_id (DAlt a)). split; [exact J|]. split; [apply node_id_vertex|].
      apply (C120_boxes tr w n t stmts R K E Rt a _ _ (L a J) (node_id_vertex _)). eauto.
  Qed.

  (** ... among which are all boxes that no arrow leads to. *)
  Theorem C120_loose_boxes (tr : history T AK V) w n t stmts :
    run tr w -> known_node tr n -> nth_error w (nd_inner n) = Some t -> runs_to (stmts_of t (nd_index n)) (Ret stmts) ->
    forall i l, In (NodeStmt i l "box") stmts -> (forall j, ~ In (EdgeStmt j i) stmts) ->
      exists a s, node_id (DAlt a) = Ret i /\ get_node t (nd_index n) = Ret s /\ In a s.
  Proof.
    intros R K E Rt i l J N.
    destruct (proj2 (proj2 (proj2 (drawing_exact debug_t debug_ak debug_v tr w n t stmts R K E Rt))) i (ex_intro _ l J) N) as (a & s & -> & G & Ja).
    exists a, s. split; [apply node_id_vertex|auto].
  Qed.

  (** Different trees are drawn differently, if labels are different. *)
  Theorem C120_labels_tell : labels_tell debug_t debug_ak debug_v -> forall p q, draw p = draw q -> p = q.
  Proof.
    intros (L1 & L2 & L3).
    fix IH 1. intros p q. destruct p as [k v|x cs], q as [k' v'|y ds]; cbn [DrawSpec.draw]; intros E.
    - injection E as E. destruct (L2 _ _ _ _ E) as [-> ->]. reflexivity.
    - injection E as E _. symmetry in E. now apply L3 in E.
    - injection E as E _. now apply L3 in E.
    - injection E as Ex Ec. apply L1 in Ex. subst y. f_equal. revert ds Ec.
      induction cs as [|c cs IHc]; intros [|d ds]; cbn [map]; try discriminate; [reflexivity|].
      intros F. injection F as Fc Fs. f_equal; [exact (IH c d Fc)|exact (IHc ds Fs)].
  Qed.
End Props.

Section Parse.
  Context {T NT AK AV V : Type} `{OrdEq T} `{OrdEq NT} `{OrdEq AK} `{OrdEq V}.
  Variable g : Grammar T NT AK AV.
  Variable sg : StartGrammar T NT AK AV.
  Variable lay : layout (StartNonTerminal NT).
  Hypothesis Bg : built g.
  Hypothesis Wr : runs_to (wrap_grammar_with_start g) (Ret (Ok sg)).
  Hypothesis Lay : in_memory sg lay.
  Local Notation P := (rhs_of g).
  Local Notation S0 := (start_nt g).
  Variables (debug_t : T -> string) (debug_ak : AK -> string) (debug_v : V -> string).
  Local Notation draw := (draw debug_t debug_ak debug_v).

  (** C120, for the result of a parse.  The drawing exists; the boxes of the alternatives of the result are declared,
      and those no arrow leads to are among them; every derivation tree of the input is drawn under the box of
      some alternative of the result; and if pieces of the input are cut in one way only, nothing else is. *)
  Theorem C120_parse_drawing (w : list (Token T V)) t0 m t : api_tree t0 ->
    runs_to (fun fuel => parse lay sg w t0 fuel) (Ret (Some m, t)) ->
    exists stmts s boxes, runs_to (to_dot_stmts debug_t debug_ak debug_v t m) (Ret stmts) /\
      get_node t m = Ret s /\ Forall2 (fun a i => node_id (DAlt a) = Ret i) s boxes /\
      (forall i, In i boxes -> exists l, In (NodeStmt i l "box") stmts) /\
      (forall i l, In (NodeStmt i l "box") stmts -> (forall j, ~ In (EdgeStmt j i) stmts) -> In i boxes) /\
      (forall tr, dtree g (NonTerm S0) w tr -> exists i, In i boxes /\ box_shows stmts i (draw tr)) /\
      (unique_cuts P S0 (map tk_kind w) -> forall i d, In i boxes -> box_shows stmts i d ->
         exists tr, dtree g (NonTerm S0) w tr /\ d = draw tr).
  Proof.
    intros A R. destruct A as (tr0 & W0 & h & R0 & K0 & E0).
    assert (A : api_tree t0) by (exists tr0, W0, h; auto).
    destruct (C69_parse_is_api_history sg lay tr0 W0 h w t0 (Some m) t R0 K0 E0 R)
      as (tr & W & R1 & E1 & _ & _ & _ & Kn).
    destruct (Kn m eq_refl) as (op & Jop).
    assert (K : known_node (tr ++ tr0) {| nd_index := m; nd_inner := h |}).
    { left. exists op. apply in_or_app. now left. }
    destruct (C80_dot_statements debug_t debug_ak debug_v (tr ++ tr0) W {| nd_index := m; nd_inner := h |} t R1 K E1)
      as (_ & _ & vs & es & Rt & _).
    cbn [nd_index] in Rt.
    destruct (proj2 (proj2 (C68_parse_keeps_tree g sg lay Bg Wr (in_memory_inj _ _ Lay) w t0 (Some m) t A R)) m eq_refl) as ((s & G) & _).
    pose proof (C120_root debug_t debug_ak debug_v (tr ++ tr0) W {| nd_index := m; nd_inner := h |} t _ s R1 K E1 Rt G) as X.
    cbn [nd_index] in X.
    exists (vs ++ es)%list, s, (map (fun a => vertex_id (DAlt a)) s). split; [exact Rt|]. split; [exact G|]. split; [|split; [|split; [|split]]].
    - clear. induction s as [|a s IH]; cbn [map]; constructor; [apply node_id_vertex|exact IH].
    - intros i J. apply in_map_iff in J. destruct J as (a & <- & J).
      exact (drawing_declares debug_t debug_ak debug_v (tr ++ tr0) W {| nd_index := m; nd_inner := h |} t _ s R1 K E1 Rt G a J).
    - intros i l J N. destruct (C120_loose_boxes debug_t debug_ak debug_v (tr ++ tr0) W {| nd_index := m; nd_inner := h |} t _ R1 K E1 Rt i l J N)
        as (a & s' & Hi & G' & Ja). cbn [nd_index] in G'. rewrite G in G'. injection G' as <-.
      rewrite node_id_vertex in Hi. injection Hi as <-. exact (in_map (fun a => vertex_id (DAlt a)) _ _ Ja).
    - intros tr' D. pose proof (C45_forest_complete g sg lay Bg Wr (in_memory_inj _ _ Lay) w t0 m t A R tr' D) as Rd.
      destruct (proj2 (X (draw tr'))) as (a & i & J & Hi & B); [eauto|]. exists i. split; [|exact B].
      rewrite node_id_vertex in Hi. injection Hi as <-. exact (in_map (fun a => vertex_id (DAlt a)) _ _ J).
    - intros U i d J B. apply in_map_iff in J. destruct J as (a & <- & J).
      destruct (proj1 (X d)) as (p & Rp & ->); [exists a, (vertex_id (DAlt a)); auto using node_id_vertex|].
      exists p. split; [|reflexivity].
      apply (C67_forest_exact g sg lay Bg Wr (in_memory_inj _ _ Lay) w t0 m t A U R). exact Rp.
  Qed.
End Parse.

(** Which other boxes belong to the drawn node cannot be seen: two nodes of one tree can have different trees and the same
    drawing. *)
Definition twin_ops : list (tr_op nat nat nat) :=
  [ TNewTree; TMakeLeafNode 0 7 1; TMakeBranchNode 0 8 [node 0 0]; TMakeBranchNode 0 9 [node 0 1]; TMakeNode 0;
    TMakeBranchAlt 0 8 [node 0 0]; TMakeBranchAlt 0 9 [node 0 1]; TAddAlt (node 0 3) (alt 0 1); TAddAlt (node 0 3) (alt 0 2) ].
Definition twin_tr : history nat nat nat := Eval vm_compute in fst (exec twin_ops [] []).
Definition twin_w : world nat nat nat := Eval vm_compute in snd (exec twin_ops [] []).
Lemma twin_run : run twin_tr twin_w.
Proof. apply (exec_run twin_ops [] []); [apply run_nil|]. call. Qed.
Theorem C120_same_drawing_refuted : exists (tr : history nat nat nat) w h t n n',
  run tr w /\ nth_error w h = Some t /\ known_node tr (node h n) /\ known_node tr (node h n') /\
  (exists p, reads t n' p /\ ~ reads t n p) /\
  forall debug_t debug_ak debug_v, exists stmts,
    runs_to (to_dot_stmts debug_t debug_ak debug_v t n) (Ret stmts) /\ runs_to (to_dot_stmts debug_t debug_ak debug_v t n') (Ret stmts).
Proof.
  exists twin_tr, twin_w, 0. eexists. exists 2, 3.
  split; [exact twin_run|]. split; [vm_compute; reflexivity|]. split; [known|]. split; [known|]. split.
  - exists (PBranch 8 [PLeaf 7 1]). split.
    + apply (reads_branch _ 3 [1; 2] 1 8 [0]); [reflexivity|now left|reflexivity|].
      constructor; [|constructor]. apply (reads_leaf _ 0 [0] 0); [reflexivity|now left|reflexivity].
    + intros R. inversion R as [|n s a x ns cs G J Ga Rs]; subst. vm_compute in G. injection G as <-.
      destruct J as [<-|[]]. vm_compute in Ga. discriminate.
  - intros dt dak dv. eexists. split; (split; [discriminate|]).
    + exists 10. intros fuel L. do 10 (destruct fuel as [|fuel]; [lia|]). reflexivity.
    + exists 10. intros fuel L. do 10 (destruct fuel as [|fuel]; [lia|]). reflexivity.
Qed.

Print Assumptions C120_points.
Print Assumptions C120_boxes.
Print Assumptions C120_root.
Print Assumptions C120_loose_boxes.
Print Assumptions C120_labels_tell.
Print Assumptions C120_parse_drawing.
Print Assumptions C120_same_drawing_refuted.

(** ** The hypotheses are met *)
(** An input whose drawing shows infinitely many trees. *)
Local Open Scope string_scope.
Example C120_cyclic : exists m t, runs_to (fun fuel => parse ex_slay (ex_wrap ex_cyc_g) (map ex_tok [7]) in_new fuel) (Ret (Some m, t)) /\
  exists stmts, runs_to (to_dot_stmts (fun k => "T" ++ show_usize k) (fun a => "A" ++ show_usize a) show_usize t m) (Ret stmts) /\ 5 < List.length stmts.
Proof.
  eexists _, _. split; [apply (parse_vm _ _ _ _ 20); [vm_compute; reflexivity|discriminate]|].
  eexists. split.
  - split; [discriminate|]. exists 20. intros fuel L. do 20 (destruct fuel as [|fuel]; [lia|]). vm_compute. reflexivity.
  - vm_compute. lia.
Qed.
Print Assumptions C120_cyclic.
