(** Programs that read trees out of a forest. *)
From Coq Require Import String List Arith Lia FinFun.
From Verif.Model Require Import Ord BTree Outcome Tree.
From Verif.Spec Require Import Reach TreeSpec EarleySpec SizeSpec AmbigSpec WalkSpec.
From Verif.Proofs Require Import UtilsFacts OrdFacts BTreeFacts LoopFacts NullableFacts TreeFacts EarleyParse EarleySize AmbigFacts.
Import ListNotations.

Lemma NoDup_app {A} (l1 l2 : list A) : NoDup l1 -> NoDup l2 -> (forall x, In x l1 -> ~ In x l2) -> NoDup (l1 ++ l2).
Proof.
  induction 1 as [|x l1 N _ IH]; intros N2 D; simpl; [exact N2|]. constructor.
  - rewrite in_app_iff. intros [I|I]; [auto|exact (D x (or_introl eq_refl) I)].
  - apply IH; [exact N2|]. intros y I. apply D. right. exact I.
Qed.

(** ** Running the combinators *)
Lemma runs_to_S {A} (f k : nat -> outcome A) r : (forall n, f (S n) = k n) -> runs_to k r -> runs_to f r.
Proof. intros E [N [n R]]. split; [exact N|]. exists (S n). intros [|m] L; [lia|]. rewrite E. apply R. lia. Qed.

Lemma each_runs {A B} (f : nat -> A -> outcome B) (Q : A -> B -> Prop) l :
  (forall x, In x l -> exists y, runs_to (fun n => f n x) (Ret y) /\ Q x y) ->
  exists ys, runs_to (fun n => each (f n) l) (Ret ys) /\ Forall2 Q l ys.
Proof.
  induction l as [|x l IH]; intro F; cbn [each].
  - exists []. split; [apply runs_to_ret|constructor].
  - destruct (F x (or_introl eq_refl)) as (y & Ry & Qy). destruct IH as (ys & Rs & Qs); [intros z I; apply F; right; exact I|].
    exists (y :: ys). split; [|constructor; assumption].
    apply (runs_to_bind (fun n => f n x) (fun n y => ys <- each (f n) l ;; Ret (y :: ys)) y _ Ry).
    apply (runs_to_bind (fun n => each (f n) l) (fun n ys => Ret (y :: ys)) ys _ Rs). apply runs_to_ret.
Qed.
Lemma each_ret {A B} (f : A -> outcome B) (Q : A -> B -> Prop) : forall l ys, (forall x y, In x l -> f x = Ret y -> Q x y) ->
  each f l = Ret ys -> Forall2 Q l ys.
Proof.
  induction l as [|x l IH]; intros ys F E; cbn [each] in E; [injection E as <-; constructor|].
  destruct (f x) as [y|e|] eqn:Ey; cbn [obind] in E; try discriminate.
  destruct (each f l) as [ys'|e|] eqn:Es; cbn [obind] in E; try discriminate. injection E as <-.
  constructor; [apply F; [left; reflexivity|exact Ey]|]. apply IH; [|reflexivity]. intros z y' I. apply F. right. exact I.
Qed.
Lemma each_calm {A B} (f : A -> outcome B) l : (forall x e, In x l -> f x <> Panic e) -> forall e, each f l <> Panic e.
Proof.
  induction l as [|x l IH]; intros F e; cbn [each]; [discriminate|].
  destruct (f x) as [y|e'|] eqn:Ey; cbn [obind]; [|exfalso; exact (F x e' (or_introl eq_refl) Ey)|discriminate].
  specialize (IH (fun z e I => F z e (or_intror I))). destruct (each f l) as [ys|e'|]; cbn [obind]; [discriminate|exfalso; exact (IH e' eq_refl)|discriminate].
Qed.
Lemma choose_In {A} (ls : list (list A)) : forall ys, In ys (choose ls) <-> Forall2 (fun y l => In y l) ys ls.
Proof.
  induction ls as [|l ls IH]; intro ys; simpl.
  - split; [intros [<-|[]]; constructor|intro F; inversion F; left; reflexivity].
  - rewrite in_flat_map. split.
    + intros (x & Ix & I). apply in_map_iff in I as (zs & <- & I). constructor; [exact Ix|]. apply IH. exact I.
    + intro F. inversion F as [|y l' ys' ls' Iy Fs]; subst. exists y. split; [exact Iy|]. apply in_map. apply IH. exact Fs.
Qed.
Lemma NoDup_flat {A B} (f : A -> list B) l : NoDup l -> (forall x, In x l -> NoDup (f x)) ->
  (forall x y z, In x l -> In y l -> In z (f x) -> In z (f y) -> x = y) -> NoDup (flat_map f l).
Proof.
  induction 1 as [|x l N _ IH]; intros F D; simpl; [constructor|].
  apply NoDup_app; [apply F; left; reflexivity|apply IH; intros; [apply F; right; assumption|eapply D; try right; eassumption]|].
  intros z I J. apply in_flat_map in J as (y & Iy & J). apply N. rewrite (D x y z (or_introl eq_refl) (or_intror Iy) I J). exact Iy.
Qed.
Lemma choose_NoDup {A} (ls : list (list A)) : Forall (@NoDup A) ls -> NoDup (choose ls).
Proof.
  induction 1 as [|l ls N _ IH]; simpl; [repeat constructor; intros []|].
  apply NoDup_flat; [exact N| |].
  - intros x _. apply Injective_map_NoDup; [intros a b [= E]; exact E|exact IH].
  - intros x y z _ _ I J. apply in_map_iff in I as (a & <- & _). apply in_map_iff in J as (b & [= E _] & _). congruence.
Qed.
Lemma Forall2_In_l {A B} (Q : A -> B -> Prop) l l' x : Forall2 Q l l' -> In x l -> exists y, In y l' /\ Q x y.
Proof. induction 1 as [|a b l l' q F IH]; intros []; [subst; exists b; split; [left; reflexivity|exact q]|]. destruct (IH H) as (y & I & Qy). exists y. split; [right; exact I|exact Qy]. Qed.
Lemma Forall2_In_r {A B} (Q : A -> B -> Prop) l l' y : Forall2 Q l l' -> In y l' -> exists x, In x l /\ Q x y.
Proof. induction 1 as [|a b l l' q F IH]; intros []; [subst; exists a; split; [left; reflexivity|exact q]|]. destruct (IH H) as (x & I & Qy). exists x. split; [right; exact I|exact Qy]. Qed.

(** ** More fuel does not change a result *)
Lemma each_mono {A B} (f f' : A -> outcome B) l : (forall x, f x <> NoFuel -> f' x = f x) -> each f l <> NoFuel -> each f' l = each f l.
Proof.
  intro E. induction l as [|x l IH]; cbn [each]; intro N; [reflexivity|].
  destruct (f x) as [y|e|] eqn:Ey; cbn [obind] in N |- *; [| |congruence].
  - rewrite (E x) by (rewrite Ey; discriminate). rewrite Ey. cbn [obind]. destruct (each f l); cbn [obind] in N |- *; [| |congruence];
      rewrite IH by discriminate; reflexivity.
  - rewrite (E x) by (rewrite Ey; discriminate). rewrite Ey. reflexivity.
Qed.
Lemma each_some_mono {A B} (f f' : A -> outcome (option B)) l : (forall x, f x <> NoFuel -> f' x = f x) -> each_some f l <> NoFuel -> each_some f' l = each_some f l.
Proof.
  intro E. induction l as [|x l IH]; cbn [each_some]; intro N; [reflexivity|].
  destruct (f x) as [y|e|] eqn:Ey; cbn [obind] in N |- *; [| |congruence].
  - rewrite (E x) by (rewrite Ey; discriminate). rewrite Ey. cbn [obind]. destruct y as [y|]; [|reflexivity].
    destruct (each_some f l); cbn [obind] in N |- *; [| |congruence]; rewrite IH by discriminate; reflexivity.
  - rewrite (E x) by (rewrite Ey; discriminate). rewrite Ey. reflexivity.
Qed.
Section Mono.
  Context {T AK V : Type}.
  Variable w : world T AK V.
  Lemma first_mono : forall n n' p, n <= n' -> first_tree w n p <> NoFuel -> first_tree w n' p = first_tree w n p.
  Proof.
    induction n as [|n IH]; intros n' p L N; [exfalso; apply N; reflexivity|]. destruct n' as [|n']; [lia|]. cbn [first_tree] in *.
    destruct (w_alts w p) as [l|e|]; cbn [obind] in *; try reflexivity.
    destruct (expect (hd_error l) _) as [a|e|]; cbn [obind] in *; try reflexivity.
    destruct (w_content w a) as [[k v|x ns]|e|]; cbn [obind] in *; try reflexivity.
    rewrite (each_mono (first_tree w n) (first_tree w n') ns); [reflexivity| |intro X; apply N; rewrite X; reflexivity]. intros q Q. apply IH; [lia|exact Q].
  Qed.
  Lemma only_mono : forall n n' p, n <= n' -> only_tree w n p <> NoFuel -> only_tree w n' p = only_tree w n p.
  Proof.
    induction n as [|n IH]; intros n' p L N; [exfalso; apply N; reflexivity|]. destruct n' as [|n']; [lia|]. cbn [only_tree] in *.
    destruct (w_alts w p) as [l|e|]; cbn [obind] in *; try reflexivity.
    destruct l as [|a [|b l]]; try reflexivity.
    destruct (w_content w a) as [[k v|x ns]|e|]; cbn [obind] in *; try reflexivity.
    rewrite (each_some_mono (only_tree w n) (only_tree w n') ns); [reflexivity| |intro X; apply N; rewrite X; reflexivity]. intros q Q. apply IH; [lia|exact Q].
  Qed.
  Lemma all_mono : forall n n' p, n <= n' -> all_trees w n p <> NoFuel -> all_trees w n' p = all_trees w n p.
  Proof.
    induction n as [|n IH]; intros n' p L N; [exfalso; apply N; reflexivity|]. destruct n' as [|n']; [lia|]. cbn [all_trees] in *.
    destruct (w_alts w p) as [l|e|]; cbn [obind] in *; try reflexivity.
    match goal with |- obind (each ?f' l) _ = obind (each ?f l) _ => rewrite (each_mono f f' l); [reflexivity| |intro X; apply N; rewrite X; reflexivity] end.
    intros a Na. destruct (w_content w a) as [[k v|x ns]|e|]; cbn [obind] in *; try reflexivity.
    rewrite (each_mono (all_trees w n) (all_trees w n') ns); [reflexivity| |intro X; apply Na; rewrite X; reflexivity]. intros q Q. apply IH; [lia|exact Q].
  Qed.
End Mono.

Section Walk.
  Context {T AK V : Type}.
  Variable w : world T AK V.
  Variable h : TreeHandle.
  Variable t : Inner T AK V.
  Hypothesis At : nth_error w h = Some t.
  Local Notation pt := (ptree T AK V).
  Local Notation N n := {| nd_index := n; nd_inner := h |}.
  Local Notation Al a := {| al_index := a; al_inner := h |}.

  Lemma alts_at n s : get_node t n = Ret s -> w_alts w (N n) = Ret (map (fun a => Al a) s).
  Proof. intro G. unfold w_alts, with_. cbn [nd_inner nd_index]. rewrite At. cbn [expect obind]. rewrite G. reflexivity. Qed.
  Lemma content_at a : w_content w (Al a) = match get_alt t a with
    | Ret (CLeaf k v) => Ret (NLeaf k v)
    | Ret (CBranch x ns) => Ret (NBranch x (map (fun i => N i) ns))
    | Panic e => Panic e
    | NoFuel => NoFuel
    end.
  Proof. unfold w_content, with_. cbn [al_inner al_index]. rewrite At. cbn [expect obind]. destruct (get_alt t a) as [[k v|x ns]|e|]; reflexivity. Qed.
  Lemma alts_inv n l : w_alts w (N n) = Ret l -> exists s, get_node t n = Ret s /\ l = map (fun a => Al a) s.
  Proof.
    unfold w_alts, with_. cbn [nd_inner nd_index]. rewrite At. cbn [expect obind].
    destruct (get_node t n) as [s|e|]; cbn [obind]; try discriminate. intros [= <-]. eauto.
  Qed.

  Lemma reads_all_Forall2 ns : forall cs, reads_all t ns cs <-> Forall2 (reads t) ns cs.
  Proof.
    induction ns as [|n ns IH]; intro cs; split; intro F; inversion F; subst; constructor; auto; apply IH; assumption.
  Qed.
  Lemma live_child n s a x ns n' : live t n -> get_node t n = Ret s -> In a s -> get_alt t a = Ret (CBranch x ns) -> In n' ns -> live t n'.
  Proof.
    intros L G I E J. apply (live_below t n n' L). apply (star_step _ _ n); [constructor|]. exists s, a, x, ns. auto.
  Qed.
  Lemma live_alt n s a : live t n -> get_node t n = Ret s -> In a s -> exists c, get_alt t a = Ret c.
  Proof.
    intros L G I. destruct (L n (star_refl _ _)) as (s' & G' & _ & A). rewrite G in G'. injection G' as <-.
    destruct (A a I) as (tr & [k v E|x ns cs E _]); eauto.
  Qed.

  (** ** The first tree *)
  Definition ranked (m : nat) : Prop := forall n a x ns n', forest_node t m n -> In a (nalts t n) -> get_alt t a = Ret (CBranch x ns) -> In n' ns ->
    exists b, In b (nalts t n') /\ b < a.
  Lemma first_runs m : live t m -> ranked m -> (forall n, sorted (nalts t n)) ->
    forall a n, forest_node t m n -> hd_error (nalts t n) = Some a ->
    exists tr, runs_to (fun fuel => first_tree w fuel (N n)) (Ret tr) /\ reads t n tr.
  Proof.
    intros L Rk So a. induction a as [a IH] using lt_wf_ind. intros n F Hd.
    destruct (L n F) as (s & G & Ne & _). pose proof (get_node_nalts _ _ _ G) as En. rewrite En in Hd.
    destruct s as [|a0 s]; [discriminate|]. injection Hd as ->.
    destruct (live_alt n _ a (live_below _ _ _ L F) G (or_introl eq_refl)) as (c & Ec).
    destruct c as [k v|x ns].
    - exists (PLeaf k v). split; [|exact (reads_leaf t n _ a k v G (or_introl eq_refl) Ec)].
      eapply runs_to_S; [intro fuel; cbn [first_tree]; rewrite (alts_at _ _ G); cbn [obind map hd_error expect]; rewrite content_at, Ec; cbn [obind]; reflexivity|].
      apply runs_to_ret.
    - assert (Cs : forall p, In p (map (fun i => N i) ns) -> exists tr, runs_to (fun fuel => first_tree w fuel p) (Ret tr) /\ reads t (nd_index p) tr).
      { intros p I. apply in_map_iff in I as (n' & <- & I). cbn [nd_index].
        assert (F' : forest_node t m n') by (apply (star_step _ _ n); [exact F|]; exists (a :: s), a, x, ns; split; [exact G|]; split; [left; reflexivity|auto]).
        destruct (Rk n a x ns n' F ltac:(rewrite En; left; reflexivity) Ec I) as (b & Ib & Lb).
        specialize (So n'). destruct (nalts t n') as [|b0 s'] eqn:E'; [destruct Ib|].
        assert (b0 <= b).
        { destruct Ib as [->|Ib]; [lia|]. inversion So as [|? ? _ Hd']; subst. rewrite Forall_forall in Hd'. specialize (Hd' b Ib).
          apply Nat.compare_lt_iff in Hd'. lia. }
        apply (IH b0 ltac:(lia) n' F'). rewrite E'. reflexivity. }
      destruct (each_runs (first_tree w) _ _ Cs) as (cs & Rc & Fc). exists (PBranch x cs). split.
      + eapply runs_to_S; [intro fuel; cbn [first_tree]; rewrite (alts_at _ _ G); cbn [obind map hd_error expect]; rewrite content_at, Ec; cbn [obind]; reflexivity|].
        apply (runs_to_bind (fun fuel => each (first_tree w fuel) (map (fun i => N i) ns)) (fun _ cs => Ret (PBranch x cs)) cs _ Rc). apply runs_to_ret.
      + apply (reads_branch t n _ a x ns cs G (or_introl eq_refl) Ec). apply reads_all_Forall2. clear - Fc.
        remember (map (fun i => N i) ns) as l eqn:E. revert ns E. induction Fc as [|p c l cs R Fc IH]; intros [|n' ns] E; try discriminate; constructor.
        * injection E as -> _. exact R.
        * injection E as _ ->. apply IH. reflexivity.
  Qed.
  (** ** All trees *)
  Lemma nodes_Forall2 {B} (Q : nat -> B -> Prop) ns ys : Forall2 (fun p y => Q (nd_index p) y) (map (fun i => N i) ns) ys <-> Forall2 Q ns ys.
  Proof.
    revert ys. induction ns as [|n ns IH]; intro ys; split; intro F; inversion F; subst; constructor; auto; apply IH; assumption.
  Qed.
  Definition of_alt (f : Node -> outcome (list pt)) (a : Alternative) : outcome (list pt) :=
    c <- w_content w a ;;
    match c with
    | NLeaf k v => Ret [PLeaf k v]
    | NBranch x ns => css <- each f ns ;; Ret (map (PBranch x) (choose css))
    end.
  Lemma all_trees_S fuel n : all_trees w (S fuel) n = (l <- w_alts w n ;; trs <- each (of_alt (all_trees w fuel)) l ;; Ret (concat trs)).
  Proof. reflexivity. Qed.
  (** What it lists, if it returns. *)
  Lemma Forall2_swap (css : list (list pt)) ns : Forall2 (fun n l => forall tr, In tr l <-> reads t n tr) ns css ->
    forall cs, Forall2 (fun c l => In c l) cs css <-> reads_all t ns cs.
  Proof.
    induction 1 as [|n l ns css E _ IH]; intro cs; split; intro F; inversion F; subst; constructor; try (apply E; assumption); apply IH; assumption.
  Qed.
  Lemma all_lists fuel : forall n l, all_trees w fuel (N n) = Ret l -> forall tr, In tr l <-> reads t n tr.
  Proof.
    induction fuel as [|fuel IH]; intros n l E; [discriminate|]. rewrite all_trees_S in E.
    destruct (w_alts w (N n)) as [al|e|] eqn:Ea; cbn [obind] in E; try discriminate.
    destruct (alts_inv _ _ Ea) as (s & G & ->).
    destruct (each (of_alt (all_trees w fuel)) _) as [trs|e|] eqn:Et; cbn [obind] in E; try discriminate. injection E as <-.
    assert (F : Forall2 (fun a l => forall tr, In tr l <-> reads_alt t (al_index a) tr) (map (fun a => Al a) s) trs).
    { refine (each_ret _ _ _ _ _ Et). intros a y I Y. apply in_map_iff in I as (a0 & <- & I). cbn [al_index].
      unfold of_alt in Y. rewrite content_at in Y. destruct (get_alt t a0) as [[k v|x ns]|e|] eqn:Ec; cbn [obind] in Y; try discriminate.
      - injection Y as <-. intro tr. split; [intros [<-|[]]; constructor; exact Ec|]. intros [k' v' E'|x' ns' cs E' _]; rewrite Ec in E'; [|discriminate]. injection E' as <- <-. left. reflexivity.
      - destruct (each (all_trees w fuel) _) as [css|e|] eqn:Es; cbn [obind] in Y; try discriminate. injection Y as <-.
        assert (Fs : Forall2 (fun n l => forall tr, In tr l <-> reads t n tr) ns css).
        { apply nodes_Forall2. refine (each_ret _ _ _ _ _ Es). intros p y I' Y. apply in_map_iff in I' as (n' & <- & _). exact (IH n' y Y). }
        intro tr. rewrite in_map_iff. split.
        + intros (cs & <- & J). apply (reads_alt_branch t a0 x ns cs Ec). apply (Forall2_swap css ns Fs). apply choose_In. exact J.
        + intros [k' v' E'|x' ns' cs E' R]; rewrite Ec in E'; [discriminate|]. injection E' as <- <-. exists cs. split; [reflexivity|].
          apply choose_In. apply (Forall2_swap css ns Fs). exact R. }
    intro tr. rewrite in_concat. split.
    - intros (y & Iy & J). destruct (Forall2_In_r _ _ _ _ F Iy) as (a & Ia & Q). apply in_map_iff in Ia as (a0 & <- & Ia).
      exact (reads_alt_reads t n s a0 tr G Ia (proj1 (Q tr) J)).
    - intro R. destruct (reads_reads_alt t n tr R) as (s' & a & G' & I & Ra). rewrite G in G'. injection G' as <-.
      destruct (Forall2_In_l _ _ _ (Al a) F (in_map _ _ _ I)) as (y & Iy & Q). exists y. split; [exact Iy|]. apply Q. exact Ra.
  Qed.
  (** It never panics. *)
  Lemma all_calm fuel : forall n, live t n -> forall e, all_trees w fuel (N n) <> Panic e.
  Proof.
    induction fuel as [|fuel IH]; intros n L e; [discriminate|]. rewrite all_trees_S.
    destruct (L n (star_refl _ _)) as (s & G & _ & _). rewrite (alts_at _ _ G). cbn [obind].
    assert (X : forall e, each (of_alt (all_trees w fuel)) (map (fun a => Al a) s) <> Panic e).
    { apply each_calm. intros a e' I. apply in_map_iff in I as (a0 & <- & I). unfold of_alt. rewrite content_at.
      destruct (live_alt n s a0 L G I) as (c & Ec). rewrite Ec. destruct c as [k v|x ns]; cbn [obind]; [discriminate|].
      assert (Y : forall e, each (all_trees w fuel) (map (fun i => N i) ns) <> Panic e).
      { apply each_calm. intros p e2 J. apply in_map_iff in J as (n' & <- & J). apply IH. exact (live_child n s a0 x ns n' L G I Ec J). }
      destruct (each (all_trees w fuel) _) as [css|e2|]; cbn [obind]; [discriminate|exfalso; exact (Y _ eq_refl)|discriminate]. }
    destruct (each (of_alt _) _) as [trs|e2|]; cbn [obind]; [discriminate|exfalso; exact (X _ eq_refl)|discriminate].
  Qed.
  (** It ends if the paths are bounded. *)
  Lemma all_runs K : forall n, live t n -> (forall l, path t n l -> length l <= K) ->
    exists l, runs_to (fun fuel => all_trees w fuel (N n)) (Ret l).
  Proof.
    induction K as [|K IH]; intros n L B.
    - specialize (B [n] (path_one t n)). simpl in B. lia.
    - destruct (L n (star_refl _ _)) as (s & G & _ & _).
      assert (X : exists trs, runs_to (fun fuel => each (of_alt (all_trees w fuel)) (map (fun a => Al a) s)) (Ret trs) /\
        Forall2 (fun _ _ => True) (map (fun a => Al a) s) trs).
      { apply (each_runs (fun fuel => of_alt (all_trees w fuel)) (fun _ _ => True)). intros a I. apply in_map_iff in I as (a0 & <- & I).
        destruct (live_alt n s a0 L G I) as (c & Ec). unfold of_alt. rewrite content_at, Ec. destruct c as [k v|x ns]; cbn [obind].
        - eexists. split; [apply runs_to_ret|exact Logic.I].
        - assert (Y : exists css, runs_to (fun fuel => each (all_trees w fuel) (map (fun i => N i) ns)) (Ret css) /\ Forall2 (fun _ _ => True) (map (fun i => N i) ns) css).
          { apply each_runs. intros p J. apply in_map_iff in J as (n' & <- & J).
            destruct (IH n' (live_child n s a0 x ns n' L G I Ec J)) as (l & R); [|exists l; auto].
            intros l Pl. assert (Cn : child t n n') by (exists s, a0, x, ns; auto).
            specialize (B _ (path_more t n n' l Cn Pl)). simpl in B. lia. }
          destruct Y as (css & Rc & _). eexists. split; [|exact Logic.I].
          apply (runs_to_bind (fun fuel => each (all_trees w fuel) (map (fun i => N i) ns)) (fun _ css => Ret (map (PBranch x) (choose css))) css _ Rc).
          apply runs_to_ret. }
      destruct X as (trs & Rt & _). exists (concat trs).
      eapply runs_to_S; [intro fuel; rewrite all_trees_S, (alts_at _ _ G); cbn [obind]; reflexivity|].
      apply (runs_to_bind (fun fuel => each (of_alt (all_trees w fuel)) (map (fun a => Al a) s)) (fun _ trs => Ret (concat trs)) trs _ Rt). apply runs_to_ret.
  Qed.
  Lemma all_acyclic n : live t n -> ~ cyclic t n -> exists l, runs_to (fun fuel => all_trees w fuel (N n)) (Ret l).
  Proof.
    intros L A. apply (all_runs (length (in_nodes t)) n L). intros l Pl. pose proof (path_nodup t _ _ Pl A) as Nd.
    rewrite <- (seq_length (length (in_nodes t)) 0). apply NoDup_incl_length; [exact Nd|]. intros x I. apply in_seq.
    destruct (L x (path_star t _ _ Pl x I)) as (s & G & _). split; [lia|]. unfold get_node in G. simpl. apply nth_error_Some.
    destruct (nth_error (in_nodes t) x); [discriminate|discriminate G].
  Qed.
  Lemma all_cyclic n : live t n -> cyclic t n -> diverges (fun fuel => all_trees w fuel (N n)).
  Proof.
    intros L C fuel. destruct (all_trees w fuel (N n)) as [l|e|] eqn:E; [|exfalso; exact (all_calm fuel n L e E)|reflexivity].
    exfalso. apply (cycle_infinite t n L C). exists l. intro tr. apply (all_lists fuel n l E).
  Qed.
  (** Each tree once, if different alternatives of a node are never read alike. *)
  Lemma all_nodup m : (forall n s a a' tr, forest_node t m n -> get_node t n = Ret s -> In a s -> In a' s -> reads_alt t a tr -> reads_alt t a' tr -> a = a') ->
    (forall n, sorted (nalts t n)) ->
    forall fuel n l, forest_node t m n -> all_trees w fuel (N n) = Ret l -> NoDup l.
  Proof.
    intros D So. induction fuel as [|fuel IH]; intros n l F E; [discriminate|]. pose proof E as E0. rewrite all_trees_S in E.
    destruct (w_alts w (N n)) as [al|e|] eqn:Ea; cbn [obind] in E; try discriminate.
    destruct (alts_inv _ _ Ea) as (s & G & ->).
    destruct (each (of_alt (all_trees w fuel)) _) as [trs|e|] eqn:Et; cbn [obind] in E; try discriminate. injection E as <-.
    assert (Q : Forall2 (fun a l => NoDup l /\ forall tr, In tr l -> reads_alt t (al_index a) tr) (map (fun a => Al a) s) trs).
    { refine (each_ret _ _ _ _ _ Et). intros a y I Y. apply in_map_iff in I as (a0 & <- & I). cbn [al_index].
      unfold of_alt in Y. rewrite content_at in Y. destruct (get_alt t a0) as [[k v|x ns]|e|] eqn:Ec; cbn [obind] in Y; try discriminate.
      - injection Y as <-. split; [repeat constructor; intros []|]. intros tr [<-|[]]. constructor. exact Ec.
      - destruct (each (all_trees w fuel) _) as [css|e|] eqn:Es; cbn [obind] in Y; try discriminate. injection Y as <-.
        assert (Fs : Forall2 (fun n l => NoDup l /\ forall tr, In tr l <-> reads t n tr) ns css).
        { apply nodes_Forall2. refine (each_ret _ _ _ _ _ Es). intros p y J Y. apply in_map_iff in J as (n' & <- & J). cbn [nd_index].
          split; [|exact (all_lists fuel n' y Y)]. apply (IH n'); [|exact Y]. apply (star_step _ _ n); [exact F|]. exists s, a0, x, ns. auto. }
        split.
        + apply Injective_map_NoDup; [intros u v [= U]; exact U|]. apply choose_NoDup.
          clear - Fs. induction Fs as [|n l ns css [X _] _ IH]; constructor; auto.
        + intros tr J. apply in_map_iff in J as (cs & <- & J). apply (reads_alt_branch t a0 x ns cs Ec).
          apply (Forall2_swap css ns); [|apply choose_In; exact J]. clear - Fs. induction Fs as [|n l ns css [_ X] _ IH]; constructor; auto. }
    assert (Ns : NoDup s).
    { specialize (So n). rewrite (get_node_nalts _ _ _ G) in So. clear - So. induction So as [|a s _ IH Hd]; constructor; [|exact IH].
      intro I. rewrite Forall_forall in Hd. specialize (Hd a I). apply Nat.compare_lt_iff in Hd. lia. }
    assert (Ds : forall a a' tr, In a s -> In a' s -> reads_alt t a tr -> reads_alt t a' tr -> a = a') by (intros; eapply D; eassumption).
    clear - Q Ns Ds. remember (map (fun a => Al a) s) as as_ eqn:Eas. revert s Eas Ns Ds. induction Q as [|a l as_ trs [Nl Ra] Q IH]; intros s E Ns Ds; simpl; [constructor|].
    destruct s as [|a0 s]; [discriminate|]. injection E as -> ->. cbn [al_index] in Ra. inversion Ns as [|? ? Na Ns']; subst. apply NoDup_app; [exact Nl| |].
    - apply (IH s eq_refl Ns'). intros u v tr I J. apply Ds; right; assumption.
    - intros tr J J2. apply in_concat in J2 as (l2 & I2 & J2). destruct (Forall2_In_r _ _ _ _ Q I2) as (b & Ib & _ & Rb). apply in_map_iff in Ib as (b0 & <- & Ib).
      apply Na. rewrite (Ds a0 b0 tr (or_introl eq_refl) (or_intror Ib) (Ra tr J) (Rb tr J2)). exact Ib.
  Qed.

  (** ** The only tree *)
  Lemma forest_left n n' : forest_node t n n' -> n = n' \/ exists c, child t n c /\ forest_node t c n'.
  Proof.
    intro F. induction F as [|y z F IH C]; [left; reflexivity|]. right. destruct IH as [->|(c & Cc & Fc)].
    - exists z. split; [exact C|constructor].
    - exists c. split; [exact Cc|]. exact (star_step _ _ _ _ Fc C).
  Qed.
  Lemma only_runs : (forall n tr, reads t n tr ->
      (no_choice t n /\ runs_to (fun fuel => only_tree w fuel (N n)) (Ret (Some tr))) \/
      (~ no_choice t n /\ runs_to (fun fuel => only_tree w fuel (N n)) (Ret None))) /\
    (forall ns cs, reads_all t ns cs ->
      ((forall n, In n ns -> no_choice t n) /\ runs_to (fun fuel => each_some (only_tree w fuel) (map (fun i => N i) ns)) (Ret (Some cs))) \/
      ((exists n, In n ns /\ ~ no_choice t n) /\ runs_to (fun fuel => each_some (only_tree w fuel) (map (fun i => N i) ns)) (Ret None))).
  Proof.
    assert (Many : forall n s a, get_node t n = Ret s -> In a s -> s = [a] \/
      (~ no_choice t n /\ runs_to (fun fuel => only_tree w fuel (N n)) (Ret None))).
    { intros n s a G I. destruct s as [|a0 [|a1 s]]; [destruct I|left; destruct I as [->|[]]; reflexivity|]. right. split.
      - intro Nc. specialize (Nc n _ (star_refl _ _) G). simpl in Nc. lia.
      - eapply runs_to_S; [intro fuel; cbn [only_tree]; rewrite (alts_at _ _ G); cbn [obind map]; reflexivity|]. apply runs_to_ret. }
    apply reads_reads_all_ind.
    - intros n s a k v G I E. destruct (Many n s a G I) as [->|M]; [|right; exact M]. left. split.
      + intros n' s' F G'. destruct (forest_left _ _ F) as [<-|(c & (s2 & a2 & x & ns & G2 & I2 & E2 & _) & _)].
        * rewrite G in G'. injection G' as <-. simpl. lia.
        * rewrite G in G2. injection G2 as <-. destruct I2 as [<-|[]]. congruence.
      + eapply runs_to_S; [intro fuel; cbn [only_tree]; rewrite (alts_at _ _ G); cbn [obind map]; rewrite content_at, E; cbn [obind]; reflexivity|]. apply runs_to_ret.
    - intros n s a x ns cs G I E Rs IH. destruct (Many n s a G I) as [->|M]; [|right; exact M].
      assert (Eq : forall fuel, only_tree w (S fuel) (N n) = (cs <- each_some (only_tree w fuel) (map (fun i => N i) ns) ;; Ret (option_map (PBranch x) cs))).
      { intro fuel. cbn [only_tree]. rewrite (alts_at _ _ G). cbn [obind map]. rewrite content_at, E. reflexivity. }
      destruct IH as [[Nc Rn]|[(n' & In' & Nn) Rn]]; [left|right]; (split; [|eapply runs_to_S; [exact Eq|];
        eapply (runs_to_bind _ (fun _ cs => Ret (option_map (PBranch x) cs)) _ _ Rn); apply runs_to_ret]).
      + intros n' s' F G'. destruct (forest_left _ _ F) as [<-|(c & (s2 & a2 & x2 & ns2 & G2 & I2 & E2 & J) & Fc)].
        * rewrite G in G'. injection G' as <-. simpl. lia.
        * rewrite G in G2. injection G2 as <-. destruct I2 as [<-|[]]. assert (ns2 = ns) as -> by congruence. exact (Nc c J n' s' Fc G').
      + intro Nc. apply Nn. intros k sk Fk. apply Nc. apply (forest_trans t n n' k); [|exact Fk].
        apply (star_step _ _ n); [constructor|]. exists [a], a, x, ns. split; [exact G|]. split; [left; reflexivity|auto].
    - left. split; [intros n []|]. apply runs_to_ret.
    - intros n ns c cs _ IH1 _ IH2. cbn [map each_some].
      destruct IH1 as [[N1 R1]|[N1 R1]].
      + destruct IH2 as [[N2 R2]|[(n' & I' & N2) R2]]; [left|right].
        * split; [intros k [<-|K]; auto|].
          apply (runs_to_bind (fun fuel => only_tree w fuel (N n)) (fun fuel o => match o with None => Ret None | Some y =>
            ys <- each_some (only_tree w fuel) (map (fun i => N i) ns) ;; Ret (option_map (cons y) ys) end) (Some c) _ R1).
          apply (runs_to_bind (fun fuel => each_some (only_tree w fuel) (map (fun i => N i) ns)) (fun _ ys => Ret (option_map (cons c) ys)) _ _ R2). apply runs_to_ret.
        * split; [exists n'; split; [right; exact I'|exact N2]|].
          apply (runs_to_bind (fun fuel => only_tree w fuel (N n)) (fun fuel o => match o with None => Ret None | Some y =>
            ys <- each_some (only_tree w fuel) (map (fun i => N i) ns) ;; Ret (option_map (cons y) ys) end) (Some c) _ R1).
          apply (runs_to_bind (fun fuel => each_some (only_tree w fuel) (map (fun i => N i) ns)) (fun _ ys => Ret (option_map (cons c) ys)) _ _ R2). apply runs_to_ret.
      + right. split; [exists n; split; [left; reflexivity|exact N1]|].
        apply (runs_to_bind (fun fuel => only_tree w fuel (N n)) (fun fuel o => match o with None => Ret None | Some y =>
            ys <- each_some (only_tree w fuel) (map (fun i => N i) ns) ;; Ret (option_map (cons y) ys) end) None _ R1). apply runs_to_ret.
  Qed.

  (** ** How deep the recursion goes *)
  Lemma each_all {A B} (f : A -> outcome B) l : (forall x, In x l -> exists y, f x = Ret y) -> exists ys, each f l = Ret ys.
  Proof.
    induction l as [|x l IH]; intro F; cbn [each]; [eauto|].
    destruct (F x (or_introl eq_refl)) as (y & ->). destruct IH as (ys & ->); [intros z I; apply F; right; exact I|]. cbn [obind]. eauto.
  Qed.
  Lemma first_deep m b : live t m -> ranked m -> (forall n, sorted (nalts t n)) ->
    (forall l, NoDup l -> (forall a, In a l -> forest_alt t m a) -> length l <= b) ->
    forall K used a n, forest_node t m n -> hd_error (nalts t n) = Some a -> NoDup used ->
      (forall u, In u used -> forest_alt t m u /\ a < u) -> length used + K = b ->
      forall fuel, K <= fuel -> exists tr, first_tree w fuel (N n) = Ret tr.
  Proof.
    intros L Rk So Bd. induction K as [|K IH]; intros used a n F Hd Nu Us El fuel Lf;
      destruct (L n F) as (s & G & Ne & _); pose proof (get_node_nalts _ _ _ G) as En; rewrite En in Hd;
      (destruct s as [|a0 s]; [discriminate|]); injection Hd as ->;
      (assert (Fa : forest_alt t m a) by (exists n, (a :: s); split; [exact F|]; split; [exact G|left; reflexivity]));
      (assert (Nu' : NoDup (a :: used)) by (constructor; [intro I; destruct (Us a I); lia|exact Nu]));
      assert (Fs : forall u, In u (a :: used) -> forest_alt t m u) by (intros u [<-|I]; [exact Fa|apply Us; exact I]).
    - specialize (Bd _ Nu' Fs). simpl in Bd. lia.
    - destruct fuel as [|fuel]; [lia|]. cbn [first_tree]. rewrite (alts_at _ _ G). cbn [obind map hd_error expect]. rewrite content_at.
      destruct (live_alt n _ a (live_below _ _ _ L F) G (or_introl eq_refl)) as (c & Ec). rewrite Ec.
      destruct c as [k v|x ns]; cbn [obind]; [eauto|].
      destruct (each_all (first_tree w fuel) (map (fun i => N i) ns)) as (cs & ->); [|cbn [obind]; eauto].
      intros p I. apply in_map_iff in I as (n' & <- & I).
      assert (F' : forest_node t m n') by (apply (star_step _ _ n); [exact F|]; exists (a :: s), a, x, ns; split; [exact G|]; split; [left; reflexivity|auto]).
      destruct (Rk n a x ns n' F ltac:(rewrite En; left; reflexivity) Ec I) as (b1 & Ib & Lb).
      pose proof (So n') as So'. destruct (nalts t n') as [|b0 s'] eqn:E'; [destruct Ib|].
      assert (b0 <= b1).
      { destruct Ib as [->|Ib]; [lia|]. inversion So' as [|? ? _ Hd']; subst. rewrite Forall_forall in Hd'. specialize (Hd' b1 Ib).
        apply Nat.compare_lt_iff in Hd'. lia. }
      apply (IH (a :: used) b0 n' F'); [rewrite E'; reflexivity|exact Nu'| |simpl; lia|lia].
      intros u [<-|J]; [split; [exact Fa|lia]|]. destruct (Us u J). split; [assumption|lia].
  Qed.
  Lemma first_height fuel : forall n tr, first_tree w fuel (N n) = Ret tr -> pheight tr <= fuel.
  Proof.
    induction fuel as [|fuel IH]; intros n tr E; [discriminate|]. cbn [first_tree] in E.
    destruct (w_alts w (N n)) as [al|e|] eqn:Ea; cbn [obind] in E; try discriminate. destruct (alts_inv _ _ Ea) as (s & G & ->).
    destruct s as [|a s]; cbn [map hd_error expect obind] in E; [discriminate|]. rewrite content_at in E.
    destruct (get_alt t a) as [[k v|x ns]|e|]; cbn [obind] in E; try discriminate; [injection E as <-; simpl; lia|].
    destruct (each (first_tree w fuel) _) as [cs|e|] eqn:Ec; cbn [obind] in E; try discriminate. injection E as <-. simpl.
    assert (F : Forall2 (fun p c => pheight c <= fuel) (map (fun i => N i) ns) cs).
    { refine (each_ret _ _ _ _ _ Ec). intros p c I X. apply in_map_iff in I as (n' & <- & _). exact (IH n' c X). }
    assert (list_max (map pheight cs) <= fuel); [|lia]. clear - F. induction F as [|p c l cs Le _ IH]; simpl; lia.
  Qed.
  Lemma all_deep K : forall n, live t n -> (forall l, path t n l -> length l <= K) ->
    forall fuel, K <= fuel -> exists l, all_trees w fuel (N n) = Ret l.
  Proof.
    induction K as [|K IH]; intros n L B fuel Lf; [specialize (B [n] (path_one t n)); simpl in B; lia|].
    destruct (L n (star_refl _ _)) as (s & G & _ & _). destruct fuel as [|fuel]; [lia|]. rewrite all_trees_S, (alts_at _ _ G). cbn [obind].
    destruct (each_all (of_alt (all_trees w fuel)) (map (fun a => Al a) s)) as (trs & ->); [|cbn [obind]; eauto].
    intros a I. apply in_map_iff in I as (a0 & <- & I). unfold of_alt. rewrite content_at.
    destruct (live_alt n s a0 L G I) as (c & Ec). rewrite Ec. destruct c as [k v|x ns]; cbn [obind]; [eauto|].
    destruct (each_all (all_trees w fuel) (map (fun i => N i) ns)) as (css & ->); [|cbn [obind]; eauto].
    intros p J. apply in_map_iff in J as (n' & <- & J). apply (IH n' (live_child n s a0 x ns n' L G I Ec J)); [|lia].
    intros l Pl. assert (Cn : child t n n') by (exists s, a0, x, ns; auto). specialize (B _ (path_more t n n' l Cn Pl)). simpl in B. lia.
  Qed.
  Lemma only_deep : (forall n tr, reads t n tr -> forall fuel, pheight tr <= fuel -> exists o, only_tree w fuel (N n) = Ret o) /\
    (forall ns cs, reads_all t ns cs -> forall fuel, list_max (map pheight cs) <= fuel ->
      exists o, each_some (only_tree w fuel) (map (fun i => N i) ns) = Ret o).
  Proof.
    assert (Many : forall n s a fuel, get_node t n = Ret s -> In a s -> s = [a] \/ exists o, only_tree w (S fuel) (N n) = Ret o).
    { intros n s a fuel G I. destruct s as [|a0 [|a1 s]]; [destruct I|left; destruct I as [->|[]]; reflexivity|]. right.
      cbn [only_tree]. rewrite (alts_at _ _ G). cbn [obind map]. eauto. }
    apply reads_reads_all_ind.
    - intros n s a k v G I E fuel Lf. simpl in Lf. destruct fuel as [|fuel]; [lia|]. destruct (Many n s a fuel G I) as [->|M]; [|exact M].
      cbn [only_tree]. rewrite (alts_at _ _ G). cbn [obind map]. rewrite content_at, E. cbn [obind]. eauto.
    - intros n s a x ns cs G I E Rs IH fuel Lf. simpl in Lf. destruct fuel as [|fuel]; [lia|]. destruct (Many n s a fuel G I) as [->|M]; [|exact M].
      cbn [only_tree]. rewrite (alts_at _ _ G). cbn [obind map]. rewrite content_at, E. cbn [obind].
      destruct (IH fuel ltac:(lia)) as (o & ->). cbn [obind]. eauto.
    - intros fuel _. cbn. eauto.
    - intros n ns c cs _ IH1 _ IH2 fuel Lf. simpl in Lf. cbn [map each_some]. destruct (IH1 fuel ltac:(lia)) as (o & ->). cbn [obind].
      destruct o; [|eauto]. destruct (IH2 fuel ltac:(lia)) as (o & ->). cbn [obind]. eauto.
  Qed.
End Walk.
