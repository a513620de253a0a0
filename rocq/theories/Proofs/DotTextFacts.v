(** The statements of the dot export. *)
From Coq Require Import String Ascii List Arith Bool Lia Decimal DecimalString DecimalNat.
From Verif.Model Require Import Ord BTree Outcome Utils Tree DotText.
From Verif.Spec Require Import Reach TreeSpec DotSpec.
From Verif.Proofs Require Import OrdFacts BTreeFacts LoopFacts GrammarFacts TreeFacts TreeHist DotFacts.
Import ListNotations.

Lemma show_usize_inj i j : show_usize i = show_usize j -> i = j.
Proof.
  unfold show_usize. intros E.
  assert (N : forall n, Nat.to_uint n <> Nil) by (intros n C; pose proof (Unsigned.to_of (Nat.to_uint n)) as F; rewrite Unsigned.of_to, C in F; discriminate).
  assert (X : NilZero.uint_of_string (NilZero.string_of_uint (Nat.to_uint i)) =
              NilZero.uint_of_string (NilZero.string_of_uint (Nat.to_uint j))) by now rewrite E.
  rewrite !NilZero.usu in X by apply N. injection X as X. now apply Unsigned.to_uint_inj.
Qed.

Lemma uint_digits d : forallb is_constituent (list_ascii_of_string (NilEmpty.string_of_uint d)) = true.
Proof. induction d; cbn; try reflexivity; assumption. Qed.

Lemma show_usize_digits n : forallb is_constituent (list_ascii_of_string (show_usize n)) = true.
Proof.
  unfold show_usize, NilZero.string_of_uint. destruct (Nat.to_uint n) eqn:E; [reflexivity|..]; rewrite <- E; apply uint_digits.
Qed.

(** The identifier of a vertex. *)
Definition vertex_id (x : DotNode) : string :=
  match x with DNode i => String "n" (show_usize i) | DAlt i => String "a" (show_usize i) end.

Lemma vertex_id_inj x y : vertex_id x = vertex_id y -> x = y.
Proof. destruct x, y; cbn; intros [= E]; f_equal; now apply show_usize_inj. Qed.

Lemma vertex_id_valid x : id_new (vertex_id x) = Some (vertex_id x).
Proof. destruct x; cbn [vertex_id id_new]; rewrite show_usize_digits; reflexivity. Qed.

Lemma node_id_vertex x : node_id x = Ret (vertex_id x).
Proof.
  pose proof (vertex_id_valid x) as E. unfold node_id, id_unwrap. destruct x; cbn [vertex_id append] in *; now rewrite E.
Qed.

Section D.
  Context {T AK V : Type} `{OrdEq T} `{OrdEq AK} `{OrdEq V}.
  Variables (debug_t : T -> string) (debug_ak : AK -> string) (debug_v : V -> string).
  Implicit Types t : Inner T AK V.

  Lemma to_dot_edges t n ns es : runs_to (to_dot t n) (Ret (ns, es)) ->
    flat_map_o (fun x => ys <- dot_succ t x ;; Ret (map (fun y => (x, y)) ys)) ns = Ret es.
  Proof.
    intros (_ & k & R). specialize (R k (le_n k)). unfold to_dot in R.
    destruct (collect_nodes_and_alts t n k) as [[a b]| |]; cbn [obind] in R; try discriminate.
    destruct (dot_edges t a b) as [es'| |] eqn:E; cbn [obind] in R; try discriminate. injection R as <- <-. exact E.
  Qed.

  Lemma flat_map_o_one {A B} (f : A -> outcome B) (l : list A) (R : A -> B -> Prop) :
    (forall a, In a l -> exists b, f a = Ret b /\ R a b) ->
    exists r, flat_map_o (fun a => s <- f a ;; Ret [s]) l = Ret r /\ Forall2 R l r.
  Proof.
    induction l as [|a l IH]; intros F; cbn [flat_map_o]; [exists []; split; constructor|].
    destruct (F a (or_introl eq_refl)) as (b & -> & Rb). cbn [obind].
    destruct IH as (r & -> & Rr); [intros x Hx; apply F; now right|]. cbn [obind app].
    exists (b :: r). split; [reflexivity|now constructor].
  Qed.

  Lemma flat_map_o_pure {A B} (f : A -> outcome B) (g : A -> B) (l : list A) :
    (forall a, f a = Ret (g a)) -> flat_map_o (fun a => s <- f a ;; Ret [s]) l = Ret (map g l).
  Proof.
    intros F. induction l as [|a l IH]; cbn [flat_map_o]; [reflexivity|]. rewrite F. cbn [obind]. rewrite IH. reflexivity.
  Qed.

  Variables (w : world T AK V) (h : TreeHandle).

  Lemma succ_children t x l : nth_error w h = Some t -> dot_succ t x = Ret l -> children w h x l.
  Proof.
    intros E S. destruct x as [i|i]; cbn [dot_succ] in S.
    - destruct (get_node t i) as [s| |] eqn:G; cbn [obind] in S; try discriminate. injection S as <-.
      assert (A : w_alts w {| nd_index := i; nd_inner := h |} = Ret (map (fun a => {| al_index := a; al_inner := h |}) s)).
      { unfold w_alts, with_. cbn [nd_inner nd_index]. rewrite E. cbn [expect obind]. rewrite G. reflexivity. }
      pose proof (children_node w h i _ A) as C. rewrite map_map in C. exact C.
    - destruct (get_alt t i) as [c| |] eqn:G; cbn [obind] in S; try discriminate. injection S as <-. destruct c as [k v|x ns].
      + apply (children_leaf w h i k v). unfold w_content, with_. cbn [al_inner al_index]. rewrite E. cbn [expect obind]. rewrite G. reflexivity.
      + assert (A : w_content w {| al_index := i; al_inner := h |} = Ret (NBranch x (map (fun n => {| nd_index := n; nd_inner := h |}) ns))).
        { unfold w_content, with_. cbn [al_inner al_index]. rewrite E. cbn [expect obind]. rewrite G. reflexivity. }
        pose proof (children_branch w h i x _ A) as C. rewrite map_map in C. exact C.
  Qed.

  Lemma label_ok t x l : nth_error w h = Some t -> dot_succ t x = Ret l ->
    exists lab, node_label debug_t debug_ak debug_v t x = Ret lab /\ labelled debug_t debug_ak debug_v w h x lab (node_shape x).
  Proof.
    intros E S. destruct x as [i|i]; cbn [dot_succ node_label node_shape] in *.
    - eexists. split; [reflexivity|]. constructor.
    - destruct (get_alt t i) as [c| |] eqn:G; cbn [obind] in S |- *; try discriminate. eexists. split; [reflexivity|]. destruct c as [k v|x ns].
      + apply labelled_leaf. unfold w_content, with_. cbn [al_inner al_index]. rewrite E. cbn [expect obind]. rewrite G. reflexivity.
      + eapply labelled_branch. unfold w_content, with_. cbn [al_inner al_index]. rewrite E. cbn [expect obind]. rewrite G. reflexivity.
  Qed.

  Lemma to_dot_statements t n : nth_error w h = Some t -> TInv t -> node_ok t n ->
    exists ns vs es, runs_to (to_dot_stmts debug_t debug_ak debug_v t n) (Ret (vs ++ es)%list) /\ NoDup ns /\
      (forall x, In x ns <-> plus (leads w h) (DNode n) x) /\
      vertex_stmts debug_t debug_ak debug_v w h vertex_id ns vs /\ edge_stmts w h vertex_id ns es.
  Proof.
    intros E I O. destruct (to_dot_exact t n I O) as (ns & es & R & N & Hn & _).
    pose proof (to_dot_edges t n ns es R) as Es.
    assert (Suc : forall x, In x ns -> exists l, dot_succ t x = Ret l).
    { intros x Hx. apply Hn in Hx. exact (dot_succ_total t x (plus_ok t _ _ I Hx)). }
    destruct (flat_map_o_one (node_stmt debug_t debug_ak debug_v t) ns
      (fun x s => exists lab, s = NodeStmt (vertex_id x) lab (node_shape x) /\ labelled debug_t debug_ak debug_v w h x lab (node_shape x)))
      as (vs & Ev & Fv).
    { intros x Hx. destruct (Suc x Hx) as [l Hl]. destruct (label_ok t x l E Hl) as (lab & El & Hlab).
      unfold node_stmt. rewrite node_id_vertex. cbn [obind]. rewrite El. cbn [obind]. eexists. split; [reflexivity|]. eauto. }
    exists ns, vs, (map (fun e => EdgeStmt (vertex_id (fst e)) (vertex_id (snd e))) es).
    split; [|split; [exact N|split; [|split]]].
    - destruct R as (_ & k & R). split; [discriminate|]. exists k. intros fuel L. unfold to_dot_stmts. rewrite (R fuel L).
      cbn [obind]. rewrite Ev. cbn [obind].
      rewrite (flat_map_o_pure edge_stmt (fun e => EdgeStmt (vertex_id (fst e)) (vertex_id (snd e)))); [reflexivity|].
      intros e. unfold edge_stmt. rewrite !node_id_vertex. reflexivity.
    - intro x. rewrite Hn. apply plus_ext. intros a b. symmetry. apply leads_tedge. exact E.
    - clear - Fv. induction Fv as [|x s xs ss (lab & -> & Hl) _ IH]; constructor; assumption.
    - clear R Hn N Ev Fv. revert es Es. induction ns as [|x ns IH]; intros es Es; cbn [flat_map_o] in Es.
      + injection Es as <-. constructor.
      + destruct (dot_succ t x) as [l| |] eqn:S; cbn [obind] in Es; try discriminate.
        destruct (flat_map_o _ ns) as [es'| |] eqn:F; cbn [obind] in Es; try discriminate. injection Es as <-.
        rewrite map_app, map_map. cbn [fst snd]. constructor.
        * exact (succ_children t x l E S).
        * apply IH; [|reflexivity]. intros y Hy. apply Suc. now right.
  Qed.
End D.

Lemma ids_distinct x y i : node_id x = Ret i -> node_id y = Ret i -> x = y.
Proof. rewrite !node_id_vertex. intros [= <-] [= E]. symmetry. now apply vertex_id_inj. Qed.
Lemma ids_valid x : exists i, node_id x = Ret i /\ id_new i = Some i.
Proof. exists (vertex_id x). split; [apply node_id_vertex|apply vertex_id_valid]. Qed.

Section E.
  Context {T AK V : Type} `{OrdEq T} `{OrdEq AK} `{OrdEq V}.
  Variables (debug_t : T -> string) (debug_ak : AK -> string) (debug_v : V -> string).

  Lemma vertex_stmts_In w h id xs vs x : vertex_stmts debug_t debug_ak debug_v (w : world T AK V) h id xs vs -> In x xs ->
    exists l s, In (NodeStmt (id x) l s) vs.
  Proof.
    induction 1 as [|y xs l s ss L _ IH]; [intros []|]. intros [->|J]; [exists l, s; now left|].
    destruct (IH J) as (l' & s' & K). exists l', s'. now right.
  Qed.
  Lemma edge_stmts_In w h id xs es a b : edge_stmts (w : world T AK V) h id xs es -> In (EdgeStmt a b) es ->
    exists x ys y, In x xs /\ children w h x ys /\ In y ys /\ a = id x /\ b = id y.
  Proof.
    induction 1 as [|x xs ys ss C _ IH]; [intros []|]. intros J. apply in_app_or in J. destruct J as [J|J].
    - apply in_map_iff in J. destruct J as (y & [= <- <-] & J). exists x, ys, y. cbn. auto.
    - destruct (IH J) as (x' & ys' & y & J' & R). exists x', ys', y. split; [now right|exact R].
  Qed.
  Lemma children_leads (w : world T AK V) h t x ys y : nth_error w h = Some t -> children w h x ys -> In y ys -> leads w h x y.
  Proof.
    intros E C J. apply (leads_tedge w h t x y E). destruct C as [n l A|a z ns A|a k v A]; [| |destruct J].
    - unfold w_alts, with_ in A. cbn [nd_inner nd_index] in A. rewrite E in A. cbn [expect obind] in A.
      unfold tedge, dot_succ. destruct (get_node t n) as [s| |]; cbn [obind] in *; try discriminate. injection A as <-.
      rewrite map_map in J. cbn [al_index] in J. eauto.
    - unfold w_content, with_ in A. cbn [al_inner al_index] in A. rewrite E in A. cbn [expect obind] in A.
      unfold tedge, dot_succ. destruct (get_alt t a) as [c| |]; cbn [obind] in *; try discriminate. destruct c as [k v|k is]; [discriminate|].
      injection A as <- <-. rewrite map_map in J. cbn [nd_index] in J. eauto.
  Qed.

  Lemma dot_statements (tr : history T AK V) w n t :
    run tr w -> known_node tr n -> nth_error w (nd_inner n) = Some t ->
    exists id xs vs es,
      runs_to (to_dot_stmts debug_t debug_ak debug_v t (nd_index n)) (Ret (vs ++ es)%list) /\
      (forall x, node_id x = Ret (id x)) /\ NoDup xs /\
      (forall x, In x xs <-> plus (leads w (nd_inner n)) (DNode (nd_index n)) x) /\
      vertex_stmts debug_t debug_ak debug_v w (nd_inner n) id xs vs /\
      edge_stmts w (nd_inner n) id xs es /\
      (forall a b, In (EdgeStmt a b) es -> exists x y l s l' s', a = id x /\ b = id y /\
         In (NodeStmt a l s) vs /\ In (NodeStmt b l' s') vs).
  Proof.
    intros R K E. pose proof (run_inv _ _ R) as I. destruct (hi_node _ _ I n K) as (t' & E' & O).
    rewrite E in E'. injection E' as <-.
    destruct (to_dot_statements debug_t debug_ak debug_v w (nd_inner n) t (nd_index n) E (hi_w _ _ I _ _ E) O)
      as (xs & vs & es & Rt & N & X & Vs & Es).
    exists vertex_id, xs, vs, es. split; [exact Rt|]. split; [exact node_id_vertex|]. split; [exact N|]. split; [exact X|].
    split; [exact Vs|]. split; [exact Es|]. intros a b J.
    destruct (edge_stmts_In _ _ _ _ _ a b Es J) as (x & ys & y & Jx & C & Jy & -> & ->).
    destruct (vertex_stmts_In _ _ _ _ _ x Vs Jx) as (l & s & Kx).
    assert (Jy' : In y xs).
    { apply X. apply X in Jx. pose proof (children_leads w _ t x ys y E C Jy) as L. destruct Jx as (z & S & Lz).
      exists x. split; [|exact L]. exact (star_step _ _ z x S Lz). }
    destruct (vertex_stmts_In _ _ _ _ _ y Vs Jy') as (l' & s' & Ky).
    exists x, y, l, s, l', s'. auto.
  Qed.
End E.
