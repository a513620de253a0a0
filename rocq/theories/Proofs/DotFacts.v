(** The dot export walks what is strictly below the root. *)
From Coq Require Import List Arith Lia Bool.
From Verif.Model Require Import Ord BTree Outcome Utils Tree.
From Verif.Spec Require Import Reach TreeSpec.
From Verif.Proofs Require Import OrdFacts BTreeFacts LoopFacts UtilsFacts TreeFacts TreeHist.
Import ListNotations.

Section DF.
  Context {T AK V : Type} `{OrdEq T} `{OrdEq AK} `{OrdEq V}.
  Local Notation tree := (Inner T AK V).
  Local Notation wld := (world T AK V).
  Implicit Types (t : tree) (w : wld).

  Lemma dot_visit_bfs items : forall next seen : btset DotNode, sorted seen ->
    dot_visit items (next, seen) = bfs_visit items (next, seen) /\ sorted (snd (bfs_visit items (next, seen))).
  Proof.
    induction items as [|x items IH]; intros next seen S; [split; [reflexivity|exact S]|].
    unfold dot_visit, bfs_visit in *. cbn [fold_left]. unfold bs_insert.
    destruct (bs_mem x seen) eqn:M; cbn [negb].
    - rewrite (bs_add_mem_id x seen S M). apply IH. exact S.
    - apply IH. apply bs_add_sorted. exact S.
  Qed.
  Lemma dot_round_bfs t curr : forall next seen : btset DotNode, sorted seen ->
    dot_round t curr (next, seen) = bfs_round (dot_succ t) curr (next, seen) /\
    (forall n' s', bfs_round (dot_succ t) curr (next, seen) = Ret (n', s') -> sorted s').
  Proof.
    induction curr as [|c curr IH]; intros next seen S; cbn [dot_round bfs_round].
    - split; [reflexivity|]. intros n' s' [= _ <-]. exact S.
    - destruct (dot_succ t c) as [l| |]; cbn [obind]; [|split; [reflexivity|discriminate]|split; [reflexivity|discriminate]].
      destruct (dot_visit_bfs l next seen S) as [-> S']. destruct (bfs_visit l (next, seen)) as [n1 s1]. apply IH. exact S'.
  Qed.
  Lemma dot_loop_bfs t n : forall curr seen : btset DotNode, sorted seen -> dot_loop t n curr seen = bfs_loop (dot_succ t) n curr seen.
  Proof.
    induction n as [|n IH]; intros curr seen S; cbn [dot_loop bfs_loop]; [reflexivity|]. destruct curr as [|c curr]; [reflexivity|].
    destruct (dot_round_bfs t (c :: curr) [] seen S) as [Q S']. unfold btset in *. rewrite Q. destruct (bfs_round _ _ _) as [[a b]| |] eqn:E; cbn [obind]; [|reflexivity|reflexivity].
    apply IH. eapply S'. reflexivity.
  Qed.

  Definition dok t (x : DotNode) : Prop :=
    match x with DNode i => i < length (in_nodes t) | DAlt i => i < length (id_to_value (in_alts t)) end.
  Definition tedge t (x y : DotNode) : Prop := exists l, dot_succ t x = Ret l /\ In y l.

  Lemma dot_succ_total t x : dok t x -> exists l, dot_succ t x = Ret l.
  Proof.
    destruct x as [i|i]; simpl; unfold get_node, get_alt; intro L.
    - destruct (nth_error (in_nodes t) i) eqn:E; [simpl; eauto|]. apply nth_error_None in E. lia.
    - destruct (nth_error _ i) eqn:E; [simpl; eauto|]. apply nth_error_None in E. lia.
  Qed.
  Lemma tedge_ok t x y : TInv t -> tedge t x y -> dok t y.
  Proof.
    intros I (l & E & J). destruct x as [i|i]; simpl in E; unfold get_node, get_alt in E.
    - destruct (nth_error (in_nodes t) i) as [s|] eqn:F; [|discriminate]. simpl in E. injection E as <-.
      apply in_map_iff in J. destruct J as (a & <- & J). simpl.
      destruct (ti_alts t I i a) as (c & Ca); [unfold nalts; rewrite F; exact J|]. exact (nth_lt _ _ _ Ca).
    - destruct (nth_error _ i) as [c|] eqn:F; [|discriminate]. simpl in E. injection E as <-.
      pose proof (ti_nodes t I i c F) as Fo. destruct c as [k v|x ns]; [destruct J|]. apply in_map_iff in J. destruct J as (n & <- & J).
      simpl in *. rewrite Forall_forall in Fo. exact (Fo n J).
  Qed.
  Lemma plus_ok t x y : TInv t -> plus (tedge t) x y -> dok t y.
  Proof. intros I (z & _ & E). exact (tedge_ok t z y I E). Qed.

  Definition universe t : list DotNode :=
    map DNode (seq 0 (length (in_nodes t))) ++ map DAlt (seq 0 (length (id_to_value (in_alts t)))).
  Lemma universe_ok t x : dok t x -> In x (universe t).
  Proof.
    intro L. apply in_or_app. destruct x as [i|i]; [left|right]; apply in_map; apply in_seq; simpl in L; lia.
  Qed.
  Lemma dot_succ_fuel t x : dot_succ t x <> NoFuel.
  Proof. destruct x; simpl; unfold get_node, get_alt; destruct (nth_error _ _); simpl; discriminate. Qed.

  Lemma flat_map_o_ok {A B} (f : A -> outcome (list B)) (l : list A) : (forall a, In a l -> exists x, f a = Ret x) ->
    exists r, flat_map_o f l = Ret r /\ forall b, In b r <-> exists a x, In a l /\ f a = Ret x /\ In b x.
  Proof.
    induction l as [|a l IH]; intro F; simpl.
    - exists []. split; [reflexivity|]. intro b. split; [intros []|intros (a & x & [] & _)].
    - destruct (F a (or_introl eq_refl)) as [x Ex]. rewrite Ex. simpl.
      destruct IH as (r & -> & R); [intros; apply F; right; assumption|]. simpl. exists (x ++ r). split; [reflexivity|].
      intro b. rewrite in_app_iff, R. split.
      + intros [J|(a' & y & J & E & K)]; [exists a, x; auto|exists a', y; auto].
      + intros (a' & y & [<-|J] & E & K); [left; congruence|right; eauto].
  Qed.

  Lemma dot_nodes_In (seen : list DotNode) x :
    In x (dot_nodes (flat_map (fun x => match x with DNode i => [i] | DAlt _ => [] end) seen)
                    (flat_map (fun x => match x with DAlt i => [i] | DNode _ => [] end) seen)) <-> In x seen.
  Proof.
    unfold dot_nodes. rewrite in_app_iff, !in_map_iff. split.
    - intros [(i & <- & J)|(i & <- & J)]; apply in_flat_map in J; destruct J as ([j|j] & J & K); simpl in K; try tauto;
        destruct K as [->|[]]; exact J.
    - intro J. destruct x as [i|i]; [left|right]; exists i; (split; [reflexivity|]); apply in_flat_map; eexists; (split; [exact J|]); left; reflexivity.
  Qed.
  Lemma dot_nodes_NoDup (seen : list DotNode) : NoDup seen ->
    NoDup (dot_nodes (flat_map (fun x => match x with DNode i => [i] | DAlt _ => [] end) seen)
                     (flat_map (fun x => match x with DAlt i => [i] | DNode _ => [] end) seen)).
  Proof.
    intro N. unfold dot_nodes.
    assert (A : NoDup (map DNode (flat_map (fun x => match x with DNode i => [i] | DAlt _ => [] end) seen)) /\
                NoDup (map DAlt (flat_map (fun x => match x with DAlt i => [i] | DNode _ => [] end) seen))).
    { induction N as [|x seen X N [IH1 IH2]]; [split; constructor|]. destruct x as [i|i]; simpl; split; try assumption.
      - constructor; [|exact IH1]. intro J. apply X. apply in_map_iff in J. destruct J as (j & [= ->] & J).
        apply in_flat_map in J. destruct J as ([k|k] & J & K); simpl in K; [destruct K as [->|[]]; exact J|destruct K].
      - constructor; [|exact IH2]. intro J. apply X. apply in_map_iff in J. destruct J as (j & [= ->] & J).
        apply in_flat_map in J. destruct J as ([k|k] & J & K); simpl in K; [destruct K|destruct K as [->|[]]; exact J]. }
    destruct A as [A B].
    assert (App : forall l1 l2 : list DotNode, NoDup l1 -> NoDup l2 -> (forall x, In x l1 -> ~ In x l2) -> NoDup (l1 ++ l2)).
    { intros l1 l2 N1 N2 D. induction N1 as [|x l1 X N1 IH]; [exact N2|]. simpl. constructor.
      - rewrite in_app_iff. intros [Y|Y]; [auto|]. exact (D x (or_introl eq_refl) Y).
      - apply IH. intros y Y. apply D. right. exact Y. }
    apply App; [exact A|exact B|]. intros x J K. apply in_map_iff in J, K. destruct J as (i & <- & _), K as (j & E & _). discriminate.
  Qed.

  Lemma to_dot_exact t n : TInv t -> node_ok t n ->
    exists ns es, runs_to (to_dot t n) (Ret (ns, es)) /\ NoDup ns /\
      (forall x, In x ns <-> plus (tedge t) (DNode n) x) /\
      (forall x y, In (x, y) es <-> In x ns /\ tedge t x y).
  Proof.
    intros I O.
    destruct (bfs_total (dot_succ t) [DNode n] (universe t)) as (r & Rt & P).
    { apply dot_succ_fuel. }
    { intros y (x & _ & Pl). apply universe_ok. exact (plus_ok t x y I Pl). }
    assert (Total : forall x, reach_ (dot_succ t) [DNode n] x -> exists l, dot_succ t x = Ret l).
    { intros x (y & [<-|[]] & St). apply dot_succ_total. destruct (star_plus _ _ _ St) as [<-|Pl]; [exact O|exact (plus_ok t _ _ I Pl)]. }
    destruct r as [seen|m|]; simpl in P; [|destruct P as (x & Rx & F); destruct (Total x Rx) as (l & F'); congruence|destruct P].
    destruct P as (So & Se & _).
    assert (Sn : forall y, In y seen <-> plus (tedge t) (DNode n) y).
    { intro y. rewrite Se. unfold reachp. split; [intros (x & [<-|[]] & Pl); exact Pl|]. intro Pl. exists (DNode n). split; [left; reflexivity|exact Pl]. }
    set (nodes := flat_map (fun x => match x with DNode i => [i] | DAlt _ => [] end) seen).
    set (alts := flat_map (fun x => match x with DAlt i => [i] | DNode _ => [] end) seen).
    assert (Ns : forall x, In x (dot_nodes nodes alts) <-> plus (tedge t) (DNode n) x).
    { intro x. rewrite <- Sn. apply dot_nodes_In. }
    destruct (flat_map_o_ok (fun x => ys <- dot_succ t x ;; Ret (map (fun y => (x, y)) ys)) (dot_nodes nodes alts)) as (es & Es & Ee).
    { intros x J. apply Ns in J. destruct (dot_succ_total t x (plus_ok t _ _ I J)) as (l & ->). simpl. eauto. }
    exists (dot_nodes nodes alts), es. split; [|split; [|split; [exact Ns|]]].
    - destruct Rt as (_ & k & Rk). split; [discriminate|]. exists k. intros fuel L. specialize (Rk fuel L).
      unfold to_dot, collect_nodes_and_alts. rewrite dot_loop_bfs by constructor. unfold breadth_first_search in Rk.
      change (bs_of_list [DNode n]) with (bs_add (DNode n) []) in Rk. rewrite Rk. simpl. fold nodes. fold alts.
      unfold dot_edges. rewrite Es. reflexivity.
    - apply dot_nodes_NoDup. apply sorted_NoDup. exact So.
    - intros x y. rewrite Ee. split.
      + intros (a & xs & J & E & K). destruct (dot_succ t a) as [l| |] eqn:D; simpl in E; try discriminate. injection E as <-.
        apply in_map_iff in K. destruct K as (z & [= -> ->] & K). split; [exact J|]. exists l. auto.
      + intros (J & l & D & K). exists x, (map (fun y => (x, y)) l). split; [exact J|]. rewrite D. simpl. split; [reflexivity|].
        apply in_map_iff. eauto.
  Qed.

  Lemma leads_tedge w h t x y : nth_error w h = Some t -> leads w h x y <-> tedge t x y.
  Proof.
    intro E. split.
    - intro L. destruct L as [n l a A J|a z ns n A J].
      + unfold w_alts, with_ in A. cbn [nd_inner nd_index] in A. rewrite E in A. cbn [expect obind] in A.
        unfold tedge, dot_succ. destruct (get_node t n) as [s| |]; try discriminate. cbn [obind] in *. injection A as <-.
        eexists. split; [reflexivity|]. apply in_map_iff in J. destruct J as (i & [= ->] & J). apply in_map. exact J.
      + unfold w_content, with_ in A. cbn [al_inner al_index] in A. rewrite E in A. cbn [expect obind] in A.
        unfold tedge, dot_succ. destruct (get_alt t a) as [c| |]; try discriminate. cbn [obind] in *. destruct c as [k v|k is]; [discriminate|].
        injection A as <- <-. eexists. split; [reflexivity|]. apply in_map_iff in J. destruct J as (i & [= ->] & J). apply in_map. exact J.
    - intros (l & D & J). destruct x as [i|i]; cbn [dot_succ] in D.
      + destruct (get_node t i) as [s| |] eqn:G; try discriminate. cbn [obind] in D. injection D as <-.
        apply in_map_iff in J. destruct J as (a & <- & J). eapply leads_alt.
        * unfold w_alts, with_. cbn [nd_inner nd_index]. rewrite E. cbn [expect obind]. rewrite G. reflexivity.
        * apply in_map_iff. eauto.
      + destruct (get_alt t i) as [c| |] eqn:G; try discriminate. cbn [obind] in D. injection D as <-.
        destruct c as [k v|k is]; [destruct J|]. apply in_map_iff in J. destruct J as (n & <- & J). eapply leads_node.
        * unfold w_content, with_. cbn [al_inner al_index]. rewrite E. cbn [expect obind]. rewrite G. reflexivity.
        * apply in_map_iff. eauto.
  Qed.
End DF.
