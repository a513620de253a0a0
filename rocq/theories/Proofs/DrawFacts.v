(** Trees read from a dot graph are the trees of the forest. *)
From Coq Require Import String List Arith Lia.
From Verif.Model Require Import Ord BTree Outcome Utils Tokens Tree DotText.
From Verif.Spec Require Import Reach TreeSpec DotSpec EarleySpec AmbigSpec DrawSpec.
From Verif.Proofs Require Import OrdFacts BTreeFacts LoopFacts GrammarFacts TreeFacts TreeHist DotFacts DotTextFacts.
Import ListNotations.
Local Open Scope string_scope.

Scheme box_ind3 := Minimality for box_shows Sort Prop
  with point_ind3 := Minimality for point_shows Sort Prop
  with points_ind3 := Minimality for points_show Sort Prop.
Combined Scheme shows_ind from box_ind3, point_ind3, points_ind3.
Scheme reads_ind2 := Minimality for reads Sort Prop
  with reads_all_ind2 := Minimality for reads_all Sort Prop.
Combined Scheme reads_comb from reads_ind2, reads_all_ind2.

Section D.
  Context {T AK V : Type} `{OrdEq T} `{OrdEq AK} `{OrdEq V}.
  Variables (debug_t : T -> string) (debug_ak : AK -> string) (debug_v : V -> string).
  Variables (w : world T AK V) (h : TreeHandle) (t : Inner T AK V).
  Hypothesis E : nth_error w h = Some t.
  Local Notation draw := (draw debug_t debug_ak debug_v).

  Variables (xs : list DotNode) (vs es : list dot_stmt).
  Hypothesis Vs : vertex_stmts debug_t debug_ak debug_v w h vertex_id xs vs.
  Hypothesis Es : edge_stmts w h vertex_id xs es.
  Hypothesis Nd : NoDup xs.
  Hypothesis Closed : forall x y, In x xs -> leads w h x y -> In y xs.
  Local Notation stmts := (vs ++ es)%list.

  Lemma es_edges s : In s es -> exists a b, s = EdgeStmt a b.
  Proof.
    clear - Es. pose proof Es as Q; clear Es; induction Q as [|x xs ys ss C _ IH]; [intros []|]. intros J. apply in_app_or in J. destruct J as [J|J]; [|auto].
    apply in_map_iff in J. destruct J as (y & <- & _). eauto.
  Qed.
  Lemma node_stmt_iff i l k : In (NodeStmt i l k) stmts <->
    exists x, In x xs /\ i = vertex_id x /\ labelled debug_t debug_ak debug_v w h x l k.
  Proof.
    rewrite in_app_iff. split.
    - intros [J|J]; [|destruct (es_edges _ J) as (a & b & C); discriminate].
      clear - Vs J. pose proof Vs as Q; clear Vs; induction Q as [|x xs l' k' ss L _ IH]; [destruct J|]. destruct J as [[= <- <- <-]|J].
      + exists x. split; [now left|]. auto.
      + destruct (IH J) as (y & A & B). exists y. split; [now right|exact B].
    - intros (x & J & -> & L). left. clear - Vs J L. pose proof Vs as Q; clear Vs; induction Q as [|x' xs l' k' ss L' _ IH]; [destruct J|].
      destruct J as [<-|J]; [|right; auto]. left. f_equal.
      + destruct L as [n|a x ns A|a kk v A]; inversion L'; subst; try reflexivity; congruence.
      + destruct L as [n|a x ns A|a kk v A]; inversion L'; subst; reflexivity.
  Qed.

  Lemma arrows_app a b x : arrows (a ++ b)%list x = (arrows a x ++ arrows b x)%list.
  Proof. unfold arrows. apply flat_map_app. Qed.
  Lemma arrows_vs x : arrows vs x = [].
  Proof.
    clear - Vs. unfold arrows. pose proof Vs as Q; clear Vs; induction Q as [|y ys l k ss L _ IH]; [reflexivity|]. cbn [flat_map app]. exact IH.
  Qed.
  Lemma arrows_block (y : DotNode) x ys :
    arrows (map (fun z => EdgeStmt (vertex_id y) (vertex_id z)) ys) (vertex_id x) =
    if string_dec (vertex_id y) (vertex_id x) then map vertex_id ys else [].
  Proof.
    unfold arrows. induction ys as [|z ys IH]; cbn [map flat_map]; [now destruct (string_dec _ _)|].
    rewrite IH. destruct (string_dec (vertex_id y) (vertex_id x)); reflexivity.
  Qed.
  Lemma children_fun x ys ys' : children w h x ys -> children w h x ys' -> ys = ys'.
  Proof. intros A B. inversion A; subst; inversion B; subst; try reflexivity; congruence. Qed.
  Lemma arrows_of x ys : In x xs -> children w h x ys -> arrows stmts (vertex_id x) = map vertex_id ys.
  Proof.
    intros J C. rewrite arrows_app, arrows_vs. cbn [app]. clear - Es Nd J C. revert J Nd.
    pose proof Es as Q; clear Es; induction Q as [|y xs ys' ss C' Es' IH]; [intros []|]. intros J N. rewrite arrows_app, arrows_block. inversion N as [|? ? N1 N2]; subst.
    assert (Out : ~ In x xs -> arrows ss (vertex_id x) = []).
    { clear - Es'. intros N. induction Es' as [|z xs zs ss C _ IH]; [reflexivity|]. rewrite arrows_app, arrows_block.
      destruct (string_dec _ _) as [e|_]; [apply vertex_id_inj in e; subst; destruct N; now left|]. apply IH. intros K. apply N. now right. }
    destruct J as [->|J].
    - destruct (string_dec _ _) as [_|n]; [|now destruct n]. rewrite (Out N1), app_nil_r. f_equal. exact (children_fun _ _ _ C' C).
    - destruct (string_dec _ _) as [e|_]; [apply vertex_id_inj in e; now subst|]. cbn [app]. exact (IH J N2).
  Qed.

  Lemma succ_node n s : get_node t n = Ret s -> children w h (DNode n) (map DAlt s).
  Proof. intros G. apply (succ_children w h t _ _ E). cbn [dot_succ]. rewrite G. reflexivity. Qed.
  Lemma succ_alt a x ns : get_alt t a = Ret (CBranch x ns) -> children w h (DAlt a) (map DNode ns).
  Proof. intros G. apply (succ_children w h t _ _ E). cbn [dot_succ]. rewrite G. reflexivity. Qed.
  Lemma succ_leaf a k v : get_alt t a = Ret (CLeaf k v) -> children w h (DAlt a) [].
  Proof. intros G. apply (succ_children w h t _ _ E). cbn [dot_succ]. rewrite G. reflexivity. Qed.
  Lemma closed_children x ys y : In x xs -> children w h x ys -> In y ys -> In y xs.
  Proof. intros J C K. apply (Closed x y J). exact (children_leads w h t x ys y E C K). Qed.

  Lemma label_alt a l k : labelled debug_t debug_ak debug_v w h (DAlt a) l k ->
    k = "box" /\ exists c, get_alt t a = Ret c /\
      l = match c with CBranch x _ => debug_ak x | CLeaf kd v => debug_t kd ++ "(" ++ debug_v v ++ ")" end.
  Proof.
    intros L. inversion L as [|a' x ns A|a' kd v A]; subst; (split; [reflexivity|]);
      unfold w_content, with_ in A; cbn [al_inner al_index] in A; rewrite E in A; cbn [expect obind] in A;
      destruct (get_alt t a) as [c| |] eqn:G; cbn [obind] in A; try discriminate; exists c; (split; [reflexivity|]);
      destruct c; try discriminate; injection A as <- <-; reflexivity.
  Qed.
  Lemma alt_label a c : get_alt t a = Ret c -> labelled debug_t debug_ak debug_v w h (DAlt a)
      (match c with CBranch x _ => debug_ak x | CLeaf kd v => debug_t kd ++ "(" ++ debug_v v ++ ")" end) "box".
  Proof.
    intros G. destruct c as [kd v|x ns].
    - apply labelled_leaf. unfold w_content, with_. cbn [al_inner al_index]. rewrite E. cbn [expect obind]. rewrite G. reflexivity.
    - eapply labelled_branch. unfold w_content, with_. cbn [al_inner al_index]. rewrite E. cbn [expect obind]. rewrite G. reflexivity.
  Qed.

  (** From the forest to the graph. *)
  Lemma reads_shown :
    (forall n tr, reads t n tr -> In (DNode n) xs -> point_shows stmts (vertex_id (DNode n)) (draw tr)) /\
    (forall ns cs, reads_all t ns cs -> (forall n, In n ns -> In (DNode n) xs) ->
       points_show stmts (map (fun n => vertex_id (DNode n)) ns) (map draw cs)).
  Proof.
    apply reads_comb.
    - intros n s a k v Gn Ja Ga J.
      assert (Jx : In (DAlt a) xs) by (eapply closed_children; [exact J|exact (succ_node n s Gn)|now apply in_map]).
      eapply point_shows_choice with (l := "") (b := vertex_id (DAlt a)).
      + apply node_stmt_iff. exists (DNode n). split; [exact J|]. split; [reflexivity|constructor].
      + rewrite (arrows_of _ _ J (succ_node n s Gn)), map_map. exact (in_map (fun z => vertex_id (DAlt z)) _ _ Ja).
      + cbn [DrawSpec.draw]. constructor.
        * apply node_stmt_iff. exists (DAlt a). split; [exact Jx|]. split; [reflexivity|exact (alt_label a _ Ga)].
        * rewrite (arrows_of _ _ Jx (succ_leaf a k v Ga)). constructor.
    - intros n s a x ns cs Gn Ja Ga _ IH J.
      assert (Jx : In (DAlt a) xs) by (eapply closed_children; [exact J|exact (succ_node n s Gn)|now apply in_map]).
      eapply point_shows_choice with (l := "") (b := vertex_id (DAlt a)).
      + apply node_stmt_iff. exists (DNode n). split; [exact J|]. split; [reflexivity|constructor].
      + rewrite (arrows_of _ _ J (succ_node n s Gn)), map_map. exact (in_map (fun z => vertex_id (DAlt z)) _ _ Ja).
      + cbn [DrawSpec.draw]. constructor.
        * apply node_stmt_iff. exists (DAlt a). split; [exact Jx|]. split; [reflexivity|exact (alt_label a _ Ga)].
        * rewrite (arrows_of _ _ Jx (succ_alt a x ns Ga)), map_map. apply IH. intros m Jm.
          eapply closed_children; [exact Jx|exact (succ_alt a x ns Ga)|now apply in_map].
    - intros _. constructor.
    - intros n ns c cs _ IH _ IHs J. cbn [map]. constructor; [apply IH, J; now left|]. apply IHs. intros m K. apply J. now right.
  Qed.
  Lemma reads_alt_shown a tr : In (DAlt a) xs -> reads_alt t a tr -> box_shows stmts (vertex_id (DAlt a)) (draw tr).
  Proof.
    intros J [k v Ga|x ns cs Ga R]; cbn [DrawSpec.draw]; constructor.
    - apply node_stmt_iff. exists (DAlt a). split; [exact J|]. split; [reflexivity|exact (alt_label a _ Ga)].
    - rewrite (arrows_of _ _ J (succ_leaf a k v Ga)). constructor.
    - apply node_stmt_iff. exists (DAlt a). split; [exact J|]. split; [reflexivity|exact (alt_label a _ Ga)].
    - rewrite (arrows_of _ _ J (succ_alt a x ns Ga)), map_map. apply (proj2 reads_shown); [exact R|].
      intros m Jm. eapply closed_children; [exact J|exact (succ_alt a x ns Ga)|now apply in_map].
  Qed.

  (** From the graph to the forest. *)
  Hypothesis Inv : forall n, In (DNode n) xs -> exists s, get_node t n = Ret s.

  Lemma shown_reads :
    (forall i d, box_shows stmts i d -> exists a tr, i = vertex_id (DAlt a) /\ In (DAlt a) xs /\ reads_alt t a tr /\ d = draw tr) /\
    (forall i d, point_shows stmts i d -> exists n tr, i = vertex_id (DNode n) /\ In (DNode n) xs /\ reads t n tr /\ d = draw tr) /\
    (forall is ds, points_show stmts is ds -> exists ns trs,
       is = map (fun n => vertex_id (DNode n)) ns /\ reads_all t ns trs /\ ds = map draw trs).
  Proof.
    apply shows_ind.
    - intros b l ds Jb _ (ns & trs & Ens & R & ->). apply node_stmt_iff in Jb. destruct Jb as (x & Jx & -> & L).
      destruct x as [n|a]; [inversion L|]. destruct (label_alt a l _ L) as (_ & c & Ga & ->).
      destruct c as [kd v|x ms].
      + rewrite (arrows_of _ _ Jx (succ_leaf a kd v Ga)) in Ens. destruct ns; [|discriminate]. inversion R; subst.
        exists a, (PLeaf kd v). split; [reflexivity|]. split; [exact Jx|]. split; [now constructor|reflexivity].
      + rewrite (arrows_of _ _ Jx (succ_alt a x ms Ga)), map_map in Ens.
        assert (ms = ns).
        { clear - Ens. revert ns Ens. induction ms as [|m ms IH]; intros [|n ns]; cbn [map]; try discriminate; [reflexivity|].
          intros F. pose proof (f_equal (fun l => match l with x :: _ => x | [] => ""%string end) F) as F1.
          pose proof (f_equal (@tl string) F) as F2. cbv beta iota in F1. cbn [tl] in F2. apply vertex_id_inj in F1.
          injection F1 as ->. f_equal. exact (IH ns F2). }
        subst ns. exists a, (PBranch x trs). split; [reflexivity|]. split; [exact Jx|]. split; [econstructor; eassumption|reflexivity].
    - intros p l b d Jp Jb _ (a & tr & -> & Ja & R & ->). apply node_stmt_iff in Jp. destruct Jp as (x & Jx & -> & L).
      destruct x as [n|a']; [|apply label_alt in L; destruct L as [C _]; discriminate].
      destruct (Inv n Jx) as [s Gn]. rewrite (arrows_of _ _ Jx (succ_node n s Gn)), map_map in Jb.
      apply in_map_iff in Jb. destruct Jb as (a' & Ea & Jb). apply vertex_id_inj in Ea. injection Ea as ->.
      exists n, tr. split; [reflexivity|]. split; [exact Jx|]. split; [|reflexivity].
      destruct R as [k v Ga|x ns cs Ga R]; econstructor; eassumption.
    - exists [], []. repeat split; constructor.
    - intros p ps d ds _ (n & tr & -> & _ & R & ->) _ (ns & trs & -> & Rs & ->). exists (n :: ns), (tr :: trs).
      split; [reflexivity|]. split; [now constructor|reflexivity].
  Qed.
End D.

Section E.
  Context {T AK V : Type} `{OrdEq T} `{OrdEq AK} `{OrdEq V}.
  Variables (debug_t : T -> string) (debug_ak : AK -> string) (debug_v : V -> string).
  Local Notation draw := (draw debug_t debug_ak debug_v).

  (** Everything about the graph of one node. *)
  Lemma drawing_exact (tr : history T AK V) w n t stmts :
    run tr w -> known_node tr n -> nth_error w (nd_inner n) = Some t ->
    runs_to (to_dot_stmts debug_t debug_ak debug_v t (nd_index n)) (Ret stmts) ->
    (forall k d, plus (leads w (nd_inner n)) (DNode (nd_index n)) (DNode k) ->
       (point_shows stmts (vertex_id (DNode k)) d <-> exists p, reads t k p /\ d = draw p)) /\
    (forall a d, plus (leads w (nd_inner n)) (DNode (nd_index n)) (DAlt a) ->
       (box_shows stmts (vertex_id (DAlt a)) d <-> exists p, reads_alt t a p /\ d = draw p)) /\
    (forall i l s, In (NodeStmt i l s) stmts -> exists x, plus (leads w (nd_inner n)) (DNode (nd_index n)) x /\ i = vertex_id x /\
       s = node_shape x) /\
    (forall i, (exists l, In (NodeStmt i l "box") stmts) -> (forall j, ~ In (EdgeStmt j i) stmts) ->
       exists a s, i = vertex_id (DAlt a) /\ get_node t (nd_index n) = Ret s /\ In a s).
  Proof.
    intros R K E Rt. pose proof (run_inv _ _ R) as I. destruct (hi_node _ _ I n K) as (t' & E' & O).
    rewrite E in E'. injection E' as <-. pose proof (hi_w _ _ I _ _ E) as TI.
    destruct (to_dot_statements debug_t debug_ak debug_v w (nd_inner n) t (nd_index n) E TI O)
      as (xs & vs & es & Rt' & N & X & Vs & Es).
    pose proof (runs_to_fun _ _ _ Rt Rt') as F. injection F as ->.
    assert (Cl : forall x y, In x xs -> leads w (nd_inner n) x y -> In y xs).
    { intros x y J L. apply X. apply X in J. destruct J as (z & S & Lz). exists x. split; [|exact L]. exact (star_step _ _ z x S Lz). }
    assert (Iv : forall k, In (DNode k) xs -> exists s, get_node t k = Ret s).
    { intros k J. apply X in J.
      assert (P : plus (tedge t) (DNode (nd_index n)) (DNode k)).
      { revert J. apply plus_ext. intros a b. symmetry; apply (leads_tedge w (nd_inner n) t a b E). }
      destruct (dot_succ_total t _ (plus_ok t _ _ TI P)) as [l S]. cbn [dot_succ] in S.
      destruct (get_node t k) as [s| |]; [eauto|discriminate|discriminate]. }
    split; [|split; [|split]].
    - intros k d J. apply X in J. split.
      + intros S. destruct (proj1 (proj2 (shown_reads debug_t debug_ak debug_v w _ t E xs vs es Vs Es N Iv)) _ _ S) as (k' & p & Ek & _ & Rk & ->).
        apply vertex_id_inj in Ek. injection Ek as <-. eauto.
      + intros (p & Rp & ->). exact (proj1 (reads_shown debug_t debug_ak debug_v w _ t E xs vs es Vs Es N Cl) _ _ Rp J).
    - intros a d J. apply X in J. split.
      + intros S. destruct (proj1 (shown_reads debug_t debug_ak debug_v w _ t E xs vs es Vs Es N Iv) _ _ S) as (k' & p & Ek & _ & Rk & ->).
        apply vertex_id_inj in Ek. injection Ek as <-. eauto.
      + intros (p & Rp & ->). exact (reads_alt_shown debug_t debug_ak debug_v w _ t E xs vs es Vs Es N Cl a p J Rp).
    - intros i l s J. apply (node_stmt_iff debug_t debug_ak debug_v w _ xs vs es Vs Es) in J. destruct J as (x & Jx & -> & L).
      exists x. split; [now apply X|]. split; [reflexivity|]. destruct L; reflexivity.
    - intros i (l & J) NoE. apply (node_stmt_iff debug_t debug_ak debug_v w _ xs vs es Vs Es) in J. destruct J as (x & Jx & -> & L).
      destruct x as [k|a]; [inversion L|]. apply X in Jx. destruct Jx as (z & S & Lz).
      assert (Lz' : tedge t z (DAlt a)) by (apply (leads_tedge w (nd_inner n) t z (DAlt a) E); exact Lz).
      destruct z as [k|b]; [|unfold tedge in Lz'; destruct Lz' as (l' & Sl & Jl); cbn [dot_succ] in Sl;
        destruct (get_alt t b) as [[kd v|x ns]| |]; cbn [obind] in Sl; try discriminate; injection Sl as <-;
        [destruct Jl|apply in_map_iff in Jl; destruct Jl as (? & ? & _); discriminate]].
      unfold tedge in Lz'. destruct Lz' as (l' & Sl & Jl). pose proof Sl as Sl'. cbn [dot_succ] in Sl.
      destruct (get_node t k) as [s| |] eqn:Gk; cbn [obind] in Sl; try discriminate. injection Sl as <-.
      apply in_map_iff in Jl. destruct Jl as (a' & Ea & Ja). injection Ea as ->.
      inversion S as [Ek|y z' S' Ly Ez]; [subst k; exists a, s; auto|]. subst z'. exfalso.
      assert (Jk : In (DNode k) xs) by (apply X; exists y; auto).
      pose proof (arrows_of debug_t debug_ak debug_v w _ xs vs es Vs Es N _ _ Jk (succ_node w _ t E k s Gk)) as Ar.
      apply (NoE (vertex_id (DNode k))).
      assert (Ji : In (vertex_id (DAlt a)) (arrows (vs ++ es) (vertex_id (DNode k)))).
      { rewrite Ar, map_map. exact (in_map (fun z => vertex_id (DAlt z)) _ _ Ja). }
      unfold arrows in Ji. apply in_flat_map in Ji. destruct Ji as (st & Jst & Jb). destruct st as [|u v]; [destruct Jb|].
      destruct (string_dec u _) as [->|]; [|destruct Jb]. destruct Jb as [->|[]]. exact Jst.
  Qed.
  Lemma drawing_declares (tr : history T AK V) w n t stmts s :
    run tr w -> known_node tr n -> nth_error w (nd_inner n) = Some t ->
    runs_to (to_dot_stmts debug_t debug_ak debug_v t (nd_index n)) (Ret stmts) -> get_node t (nd_index n) = Ret s ->
    forall a, In a s -> exists l, In (NodeStmt (vertex_id (DAlt a)) l "box") stmts.
  Proof.
    intros R K E Rt G a J. pose proof (run_inv _ _ R) as I. destruct (hi_node _ _ I n K) as (t' & E' & O).
    rewrite E in E'. injection E' as <-. pose proof (hi_w _ _ I _ _ E) as TI.
    destruct (to_dot_statements debug_t debug_ak debug_v w (nd_inner n) t (nd_index n) E TI O)
      as (xs & vs & es & Rt' & N & X & Vs & Es).
    pose proof (runs_to_fun _ _ _ Rt Rt') as F. injection F as ->.
    assert (Te : tedge t (DNode (nd_index n)) (DAlt a)).
    { exists (map DAlt s). split; [cbn [dot_succ]; rewrite G; reflexivity|now apply in_map]. }
    assert (Jx : In (DAlt a) xs).
    { apply X. exists (DNode (nd_index n)). split; [constructor|]. apply (leads_tedge w (nd_inner n) t _ _ E). exact Te. }
    assert (P : plus (tedge t) (DNode (nd_index n)) (DAlt a)) by (exists (DNode (nd_index n)); split; [constructor|exact Te]).
    destruct (dot_succ_total t _ (plus_ok t _ _ TI P)) as [l S]. cbn [dot_succ] in S.
    destruct (get_alt t a) as [c| |] eqn:Ga; cbn [obind] in S; try discriminate.
    eexists. apply (node_stmt_iff debug_t debug_ak debug_v w _ xs vs es Vs Es). exists (DAlt a). split; [exact Jx|].
    split; [reflexivity|]. exact (alt_label debug_t debug_ak debug_v w _ t E a c Ga).
  Qed.
End E.
