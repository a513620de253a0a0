(** The parser among other threads: a simulation up to the numbers of nodes and alternatives. *)
From Coq Require Import String List Arith Bool Lia.
From Verif.Model Require Import Ord BTree Outcome Utils Grammar StartGrammar Tokens Tree State Earley EarleyShared.
From Verif.Spec Require Import Reach TreeSpec EarleySpec ShareSpec.
From Verif.Proofs Require Import OrdFacts BTreeFacts LoopFacts GrammarFacts TreeFacts TreeHist EarleyRun.
Import ListNotations.

(** ** Outcomes in step.  [lax]: the first program may give up ([NoFuel]). *)
Definition osim_ (lax : bool) {A B} (Q : A -> B -> Prop) (o : outcome A) (o' : outcome B) : Prop :=
  match o, o' with
  | Ret a, Ret b => Q a b
  | Panic m, Panic m' => m = m'
  | NoFuel, NoFuel => True
  | NoFuel, _ => lax = true
  | _, _ => False
  end.
Section Osim.
Context {lax : bool}.
Local Notation osim := (osim_ lax).
Lemma osim_bind {A B A' B'} (Q : A -> B -> Prop) (Q' : A' -> B' -> Prop) o o' f f' :
  osim Q o o' -> (forall a b, Q a b -> osim Q' (f a) (f' b)) -> osim Q' (obind o f) (obind o' f').
Proof. destruct o, o'; simpl; intros X F; try contradiction; auto. destruct (f' a); auto. Qed.
Lemma osim_impl {A B} (Q Q' : A -> B -> Prop) o o' : (forall a b, Q a b -> Q' a b) -> osim Q o o' -> osim Q' o o'.
Proof. intros F. destruct o, o'; simpl; auto. Qed.
Lemma osim_same {A} (o : outcome A) : osim eq o o.
Proof. destruct o; simpl; auto. Qed.

Lemma change_iter_sim {S S' I I'} (f : I -> S -> outcome (WasChanged * S)) (f' : I' -> S' -> outcome (WasChanged * S')) (RI : I -> I' -> Prop) (Q : S -> S' -> Prop) :
  (forall i i' s s', RI i i' -> Q s s' -> osim (fun x y => fst x = fst y /\ Q (snd x) (snd y)) (f i s) (f' i' s')) ->
  forall l l', Forall2 RI l l' -> forall c s s', Q s s' ->
    osim (fun x y => fst x = fst y /\ Q (snd x) (snd y)) (change_iter_from f c l s) (change_iter_from f' c l' s').
Proof.
  intros St l l' F. induction F as [|i i' l l' Ri F IH]; intros c s s' q; cbn [change_iter_from]; [simpl; auto|].
  eapply osim_bind; [exact (St _ _ _ _ Ri q)|]. intros [c1 s1] [c1' s1'] [E q1]. cbn [fst snd] in *. subst c1'. apply IH. exact q1.
Qed.
Lemma change_loop_sim {S S'} (f : S -> outcome (WasChanged * S)) (f' : S' -> outcome (WasChanged * S')) (Q : S -> S' -> Prop) :
  (forall s s', Q s s' -> osim (fun x y => fst x = fst y /\ Q (snd x) (snd y)) (f s) (f' s')) ->
  forall fuel s s', Q s s' -> osim Q (change_loop f fuel s) (change_loop f' fuel s').
Proof.
  intros St. induction fuel as [|fuel IH]; intros s s' q; cbn [change_loop]; [exact Logic.I|].
  eapply osim_bind; [exact (St _ _ q)|]. intros [c1 s1] [c1' s1'] [E q1]. cbn [fst snd] in *. subst c1'. destruct c1; [apply IH; exact q1|exact q1].
Qed.
End Osim.
Notation osim := (osim_ false).

(** ** The parser over two sets of tree operations that are in step *)
Section Sim.
  Context {T NT AK AV V S1 S2 : Type} `{Ord T} `{Ord NT} `{Ord AK} `{Ord V}.
  Variable lax : bool.
  Local Notation osim := (osim_ lax).
  Variable o1 : TreeOps T AK V S1.
  Variable o2 : TreeOps T AK V S2.
  Variable lay : layout (StartNonTerminal NT).
  Variable sg : StartGrammar T NT AK AV.
  Local Notation pairs := (list (nat * nat)).
  Local Notation ESet := (EarleyStateSet T NT AK AV).
  Local Notation EState := (EarleyState T NT AK AV).
  Variable SW : pairs -> S1 -> S2 -> Prop.
  Definition rel (W : pairs) (n n' : nat) : Prop := In (n, n') W.
  Hypothesis Leaf : forall W k v s s', SW W s s' ->
    osim (fun x y => SW ((fst x, fst y) :: W) (snd x) (snd y)) (op_leaf o1 k v s) (op_leaf o2 k v s').
  Hypothesis Branch : forall W x ns ns' s s', SW W s s' -> Forall2 (rel W) ns ns' ->
    osim (fun x y => SW ((fst x, fst y) :: W) (snd x) (snd y)) (op_branch o1 x ns s) (op_branch o2 x ns' s').
  Hypothesis AddAll : forall W n m n' m' s s', SW W s s' -> rel W n n' -> rel W m m' ->
    osim (fun x y => fst x = fst y /\ SW W (snd x) (snd y)) (op_add_all o1 n m s) (op_add_all o2 n' m' s').

  Definition strel (W : pairs) (st st' : EState) : Prop := es_key st = es_key st' /\ Forall2 (rel W) (es_value st) (es_value st').
  Definition entrel (W : pairs) (x y : EarleyStateKey T NT AK AV * list nat) : Prop := fst x = fst y /\ Forall2 (rel W) (snd x) (snd y).
  Definition setrel (W : pairs) (s s' : ESet) : Prop := Forall2 (entrel W) s s'.
  Lemma F2_impl {A B} (P Q : A -> B -> Prop) l l' : (forall a b, P a b -> Q a b) -> Forall2 P l l' -> Forall2 Q l l'.
  Proof. intros F X. induction X; constructor; auto. Qed.
  Lemma F2_length {A B} (P : A -> B -> Prop) l l' : Forall2 P l l' -> length l = length l'.
  Proof. induction 1; simpl; congruence. Qed.
  Lemma F2_app {A B} (P : A -> B -> Prop) l1 l2 l1' l2' : Forall2 P l1 l1' -> Forall2 P l2 l2' -> Forall2 P (l1 ++ l2) (l1' ++ l2').
  Proof. induction 1; simpl; auto. Qed.
  Lemma F2_nth {A B} (P : A -> B -> Prop) l l' n : Forall2 P l l' ->
    match nth_error l n, nth_error l' n with Some a, Some b => P a b | None, None => True | _, _ => False end.
  Proof. intro F. revert n. induction F as [|a b l l' X F IH]; intros [|n]; simpl; [exact I|exact I|exact X|apply IH]. Qed.
  Lemma vals_mono W W' (v v' : list nat) : incl W W' -> Forall2 (rel W) v v' -> Forall2 (rel W') v v'.
  Proof. intro I. apply F2_impl. intros a b. apply I. Qed.
  Lemma strel_mono W W' st st' : incl W W' -> strel W st st' -> strel W' st st'.
  Proof. intros I [A B]. split; [exact A|exact (vals_mono _ _ _ _ I B)]. Qed.
  Lemma setrel_mono W W' s s' : incl W W' -> setrel W s s' -> setrel W' s s'.
  Proof. intro I. apply F2_impl. intros a b [A B]. split; [exact A|exact (vals_mono _ _ _ _ I B)]. Qed.
  Lemma states_sim W s s' : setrel W s s' -> Forall2 (strel W) (states s) (states s').
  Proof. unfold states. induction 1 as [|[k v] [k' v'] l l' [A B] F IH]; simpl; constructor; [split; assumption|exact IH]. Qed.
  Lemma strels_mono W W' l l' : incl W W' -> Forall2 (strel W) l l' -> Forall2 (strel W') l l'.
  Proof. intro I. apply F2_impl. intros a b. apply strel_mono. exact I. Qed.
  Lemma sets_mono W W' l l' : incl W W' -> Forall2 (setrel W) l l' -> Forall2 (setrel W') l l'.
  Proof. intro I. apply F2_impl. intros a b. apply setrel_mono. exact I. Qed.

  (** Results that come with a state: the state, with more pairs, and the rest. *)
  Definition later {A B} (W : pairs) (P : pairs -> A -> B -> Prop) (x : A * S1) (y : B * S2) : Prop :=
    exists W', incl W W' /\ SW W' (snd x) (snd y) /\ P W' (fst x) (fst y).

  Lemma scan_sim W st st' tok s s' : strel W st st' -> SW W s s' ->
    osim (later W (fun W' o o' => match o, o' with Some a, Some b => strel W' a b | None, None => True | _, _ => False end))
      (gscan o1 st tok s) (gscan o2 st' tok s').
  Proof.
    intros [Ek Ev] R. unfold gscan. rewrite <- Ek.
    assert (Nn : later W (fun W' (o o' : option EState) => match o, o' with Some a, Some b => strel W' a b | None, None => True | _, _ => False end) (None, s) (None, s')).
    { exists W. split; [apply incl_refl|]. simpl. auto. }
    destruct (next_elem_state (ek_prod_state (es_key st))) as [[e ps]|]; [|exact Nn].
    destruct (as_term (pe_elem e)) as [tm|]; [|exact Nn]. destruct (has_kind tm (tk_kind tok)); [|exact Nn].
    eapply osim_bind; [exact (Leaf W _ _ _ _ R)|]. intros [n s1] [n' s1'] R1. cbn [fst snd] in *. simpl.
    exists ((n, n') :: W). split; [apply incl_tl, incl_refl|]. split; [exact R1|]. split; [reflexivity|].
    cbn. unfold create_next_value. apply F2_app; [exact (vals_mono _ _ _ _ (incl_tl _ (incl_refl _)) Ev)|].
    constructor; [left; reflexivity|constructor].
  Qed.

  Lemma complete_from_sim : forall sts sts' W self self' s s', strel W self self' -> Forall2 (strel W) sts sts' -> SW W s s' ->
    osim (later W (fun W' => Forall2 (strel W'))) (gcomplete_from o1 self sts s) (gcomplete_from o2 self' sts' s').
  Proof.
    intros sts sts' W self self' s s' Sf F. revert s s' Sf. 
    enough (X : forall W0, incl W W0 -> forall s s', strel W0 self self' -> SW W0 s s' ->
      osim (later W0 (fun W' => Forall2 (strel W'))) (gcomplete_from o1 self sts s) (gcomplete_from o2 self' sts' s')).
    { intros s s' Sf. apply (X W (incl_refl _)). exact Sf. }
    induction F as [|st st' sts sts' [Ek Ev] F IH]; intros W0 I0 s s' Sf R; cbn [gcomplete_from].
    { exists W0. split; [apply incl_refl|]. split; [exact R|constructor]. }
    rewrite <- Ek. destruct (next_elem_state (ek_prod_state (es_key st))) as [[e ps]|]; [|exact (IH W0 I0 s s' Sf R)].
    destruct (as_nonterm (pe_elem e)) as [nt|]; [|exact (IH W0 I0 s s' Sf R)].
    pose proof Sf as [Ek' Ev']. rewrite <- Ek'. destruct (eqb nt _); [|exact (IH W0 I0 s s' Sf R)].
    eapply osim_bind; [apply osim_same|]. intros ak ? <-.
    eapply osim_bind; [exact (Branch W0 ak _ _ _ _ R Ev')|]. intros [n s1] [n' s1'] R1. cbn [fst snd] in R1.
    assert (I1 : incl W0 ((n, n') :: W0)) by (apply incl_tl, incl_refl).
    eapply osim_bind; [exact (IH _ (fun x X => I1 x (I0 x X)) s1 s1' (strel_mono _ _ _ _ I1 Sf) R1)|].
    intros [cl s2] [cl' s2'] (W2 & I2 & R2 & Cl). cbn [fst snd] in *. simpl. exists W2. split; [intros x X; apply I2, I1; exact X|].
    split; [exact R2|]. constructor; [|exact Cl]. split; [reflexivity|]. cbn. unfold create_next_value. apply F2_app.
    - apply (vals_mono W); [|exact Ev]. intros x X. apply I2, I1, I0. exact X.
    - constructor; [apply I2; left; reflexivity|constructor].
  Qed.

  Lemma complete_sim W self self' prev prev' cur cur' s s' : strel W self self' -> Forall2 (setrel W) prev prev' -> setrel W cur cur' -> SW W s s' ->
    osim (later W (fun W' => Forall2 (strel W'))) (gcomplete o1 self prev cur s) (gcomplete o2 self' prev' cur' s').
  Proof.
    intros Sf Fp Fc R. unfold gcomplete. pose proof Sf as [Ek _]. rewrite <- Ek. destruct (is_complete _).
    - rewrite <- (F2_length _ _ _ Fp). apply (osim_bind (setrel W)).
      + destruct (Nat.eqb _ _); [exact Fc|]. pose proof (F2_nth _ _ _ (ek_origin (es_key self)) Fp) as X.
        destruct (nth_error prev _), (nth_error prev' _); simpl; try contradiction; auto.
      + intros a b Fab. apply complete_from_sim; [exact Sf|exact (states_sim _ _ _ Fab)|exact R].
    - exists W. split; [apply incl_refl|]. split; [exact R|constructor].
  Qed.

  Lemma merge_sim W v1 v1' v2 v2' s s' : Forall2 (rel W) v1 v1' -> Forall2 (rel W) v2 v2' -> SW W s s' ->
    osim (fun x y => fst x = fst y /\ SW W (snd x) (snd y)) (gmerge_values o1 v1 v2 s) (gmerge_values o2 v1' v2' s').
  Proof.
    intros F1 F2 R. unfold gmerge_values, change_iter.
    apply (change_iter_sim _ _ (fun i i' => rel W (fst i) (fst i') /\ rel W (snd i) (snd i')) (SW W)); [| |exact R].
    - intros [n m] [n' m'] t t' [A B] Rt. cbn [fst snd] in *. exact (AddAll W n m n' m' t t' Rt A B).
    - clear R. revert v2 v2' F2. induction F1 as [|a b l l' X F1 IH]; intros v2 v2' F2; simpl; [constructor|].
      destruct F2 as [|c d k k' Y F2]; constructor; [split; assumption|exact (IH _ _ F2)].
  Qed.

  Definition setst (W : pairs) (x : ESet * S1) (y : ESet * S2) : Prop := setrel W (fst x) (fst y) /\ SW W (snd x) (snd y).
  Lemma get_sim W (s s' : ESet) k : setrel W s s' ->
    match @bt_get _ _ (Ord_Key lay) k s, @bt_get _ _ (Ord_Key lay) k s' with
    | Some v, Some v' => Forall2 (rel W) v v' | None, None => True | _, _ => False end.
  Proof.
    induction 1 as [|[k1 v1] [k2 v2] l l' [E X] F IH]; simpl; [auto|]. cbn [fst snd] in *. subst k2.
    destruct (cmp k k1); auto.
  Qed.
  Lemma put_sim W (s s' : ESet) k v v' : setrel W s s' -> Forall2 (rel W) v v' ->
    setrel W (@bt_insert _ _ (Ord_Key lay) k v s) (@bt_insert _ _ (Ord_Key lay) k v' s').
  Proof.
    intros F X. induction F as [|[k1 v1] [k2 v2] l l' [E Y] F IH]; simpl; [repeat constructor; exact X|]. cbn [fst snd] in *. subst k2.
    destruct (cmp k k1); repeat constructor; auto.
  Qed.
  Lemma insert_sim W st st' x y : strel W st st' -> setst W x y ->
    osim (fun a b => fst a = fst b /\ setst W (snd a) (snd b)) (ginsert o1 lay st x) (ginsert o2 lay st' y).
  Proof.
    destruct x as [s t], y as [s' t']. intros [Ek Ev] [Fs R]. cbn [fst snd] in *. unfold ginsert. rewrite <- Ek.
    pose proof (get_sim W s s' (es_key st) Fs) as G. unfold Ord_GKey.
    destruct (bt_get (es_key st) s) as [v|], (bt_get (es_key st) s') as [v'|]; try contradiction.
    - rewrite <- (F2_length _ _ _ G), <- (F2_length _ _ _ Ev). eapply osim_bind; [apply osim_same|]. intros ? ? _.
      eapply osim_bind; [exact (merge_sim W _ _ _ _ _ _ G Ev R)|]. intros [c t1] [c' t1'] [E R1]. cbn [fst snd] in *. simpl. subst c'.
      split; [reflexivity|]. split; assumption.
    - split; [reflexivity|]. split; [exact (put_sim W _ _ _ _ _ Fs Ev)|exact R].
  Qed.

  Lemma from_scans_sim tok : forall sts sts' W x y, Forall2 (strel W) sts sts' -> setst W x y ->
    osim (fun a b => exists W', incl W W' /\ setst W' a b) (gfrom_scans o1 lay sts tok x) (gfrom_scans o2 lay sts' tok y).
  Proof.
    intros sts sts' W x y F. revert x y.
    enough (X : forall W0, incl W W0 -> forall x y, setst W0 x y ->
      osim (fun a b => exists W', incl W0 W' /\ setst W' a b) (gfrom_scans o1 lay sts tok x) (gfrom_scans o2 lay sts' tok y)).
    { intros x y. apply (X W (incl_refl _)). }
    induction F as [|st st' sts sts' Hs F IH]; intros W0 I0 [s t] [s' t'] R; cbn [gfrom_scans].
    { exists W0. split; [apply incl_refl|exact R]. }
    eapply osim_bind; [exact (scan_sim W0 st st' tok t t' (strel_mono _ _ _ _ I0 Hs) (proj2 R))|].
    intros [o t1] [o' t1'] (W1 & I1 & R1 & O). cbn [fst snd] in *.
    assert (R2 : setst W1 (s, t1) (s', t1')) by (split; [exact (setrel_mono _ _ _ _ I1 (proj1 R))|exact R1]).
    assert (I2 : incl W W1) by (intros z Z; apply I1, I0; exact Z).
    destruct o as [a|], o' as [b|]; try contradiction.
    - eapply osim_bind; [exact (insert_sim W1 a b _ _ O R2)|]. intros [c x2] [c' y2] [_ R3]. cbn [fst snd] in *.
      eapply osim_impl; [|exact (IH W1 I2 _ _ R3)]. intros p q (W' & I' & X). exists W'. split; [intros z Z; apply I', I1; exact Z|exact X].
    - eapply osim_impl; [|exact (IH W1 I2 _ _ R2)]. intros p q (W' & I' & X). exists W'. split; [intros z Z; apply I', I1; exact Z|exact X].
  Qed.
  Lemma from_states_sim W : forall sts sts' x y, Forall2 (strel W) sts sts' -> setst W x y ->
    osim (setst W) (gfrom_states o1 lay sts x) (gfrom_states o2 lay sts' y).
  Proof.
    intros sts sts' x y F. revert x y. induction F as [|st st' sts sts' Hs F IH]; intros x y R; cbn [gfrom_states]; [exact R|].
    eapply osim_bind; [exact (insert_sim W st st' _ _ Hs R)|]. intros [c x2] [c' y2] [_ R3]. exact (IH _ _ R3).
  Qed.
  Lemma new_start_sim W s s' : SW W s s' -> osim (setst W) (gnew_start o1 lay sg s) (gnew_start o2 lay sg s').
  Proof.
    intro R. unfold gnew_start. eapply osim_bind; [apply osim_same|]. intros r ? <-. apply from_states_sim; [|split; [constructor|exact R]].
    induction (rule_prods r) as [|p l IH]; simpl; constructor; [split; [reflexivity|constructor]|exact IH].
  Qed.
  Lemma closure_sim : forall sts sts' W prev prev' cur cur' s s', Forall2 (strel W) sts sts' -> Forall2 (setrel W) prev prev' -> setrel W cur cur' -> SW W s s' ->
    osim (later W (fun W' => Forall2 (strel W'))) (gclosure_of o1 sg sts prev cur s) (gclosure_of o2 sg sts' prev' cur' s').
  Proof.
    intros sts sts' W prev prev' cur cur' s s' F. revert s s'.
    enough (X : forall W0, incl W W0 -> forall s s', Forall2 (setrel W0) prev prev' -> setrel W0 cur cur' -> SW W0 s s' ->
      osim (later W0 (fun W' => Forall2 (strel W'))) (gclosure_of o1 sg sts prev cur s) (gclosure_of o2 sg sts' prev' cur' s')).
    { intros s s'. apply (X W (incl_refl _)). }
    induction F as [|st st' sts sts' Hs F IH]; intros W0 I0 s s' Fp Fc R; cbn [gclosure_of].
    { exists W0. split; [apply incl_refl|]. split; [exact R|constructor]. }
    eapply osim_bind; [exact (complete_sim W0 st st' _ _ _ _ _ _ (strel_mono _ _ _ _ I0 Hs) Fp Fc R)|].
    intros [c1 s1] [c1' s1'] (W1 & I1 & R1 & C1). cbn [fst snd] in *.
    assert (I2 : incl W W1) by (intros z Z; apply I1, I0; exact Z).
    eapply osim_bind; [exact (IH W1 I2 s1 s1' (sets_mono _ _ _ _ I1 Fp) (setrel_mono _ _ _ _ I1 Fc) R1)|].
    intros [c2 s2] [c2' s2'] (W2 & I3 & R2 & C2). cbn [fst snd] in *. simpl.
    exists W2. split; [intros z Z; apply I3, I1; exact Z|]. split; [exact R2|]. cbn [fst]. apply F2_app; [|exact C2]. apply F2_app; [|exact (strels_mono _ _ _ _ I3 C1)].
    rewrite <- (F2_length _ _ _ Fp). unfold predict. rewrite <- (proj1 Hs). destruct (next_elem _) as [e|]; [|constructor].
    destruct (as_nonterm e) as [nt|]; [|constructor]. destruct (try_get_rule sg nt) as [r|]; [|constructor].
    induction (rule_prods r) as [|p l IHl]; simpl; constructor; [split; [reflexivity|constructor]|exact IHl].
  Qed.

  Definition from (W : pairs) (prev prev' : list ESet) (x : ESet * S1) (y : ESet * S2) : Prop :=
    exists W', incl W W' /\ setst W' x y.
  Lemma round_sim W prev prev' x y : Forall2 (setrel W) prev prev' -> from W prev prev' x y ->
    osim (fun a b => fst a = fst b /\ from W prev prev' (snd a) (snd b)) (gclose_round o1 lay sg prev x) (gclose_round o2 lay sg prev' y).
  Proof.
    destruct x as [s t], y as [s' t']. intros Fp (W0 & I0 & Fs & R). cbn [fst snd] in *. unfold gclose_round.
    eapply osim_bind; [exact (closure_sim _ _ W0 prev prev' s s' t t' (states_sim _ _ _ Fs) (sets_mono _ _ _ _ I0 Fp) Fs R)|].
    intros [cl t1] [cl' t1'] (W1 & I1 & R1 & C1). cbn [fst snd] in *. unfold change_iter.
    eapply osim_impl; [|apply (change_iter_sim _ _ (strel W1) (setst W1)) with (l' := cl')].
    - intros a b [E X]. split; [exact E|]. exists W1. split; [intros z Z; apply I1, I0; exact Z|exact X].
    - intros i i' a b Hi Hs. exact (insert_sim W1 i i' a b Hi Hs).
    - exact C1.
    - split; [exact (setrel_mono _ _ _ _ I1 Fs)|exact R1].
  Qed.
  Lemma close_sim W prev prev' x y fuel : Forall2 (setrel W) prev prev' -> setst W x y ->
    osim (from W prev prev') (gclose_state o1 lay sg prev x fuel) (gclose_state o2 lay sg prev' y fuel).
  Proof.
    intros Fp R. unfold gclose_state.
    assert (E : match fst x with [] => false | _ => true end = match fst y with [] => false | _ => true end) by (destruct (proj1 R); reflexivity).
    rewrite E. eapply osim_bind; [apply osim_same|]. intros ? ? _.
    apply change_loop_sim; [|exists W; split; [apply incl_refl|exact R]]. intros x0 y0 Q. exact (round_sim W prev prev' x0 y0 Fp Q).
  Qed.
  Lemma last_sim {A B} (P : A -> B -> Prop) l l' : Forall2 P l l' ->
    match last (map Some l) None, last (map Some l') None with Some a, Some b => P a b | None, None => True | _, _ => False end.
  Proof. induction 1 as [|a b l l' X F IH]; simpl; [auto|]. destruct F; [exact X|exact IH]. Qed.
  Lemma tokens_sim fuel : forall tokens W sets sets' s s', Forall2 (setrel W) sets sets' -> SW W s s' ->
    osim (later W (fun W' => Forall2 (setrel W'))) (gparse_tokens o1 lay sg tokens sets s fuel) (gparse_tokens o2 lay sg tokens sets' s' fuel).
  Proof.
    induction tokens as [|tok tokens IH]; intros W sets sets' s s' F R; cbn [gparse_tokens].
    { exists W. split; [apply incl_refl|]. split; [exact R|exact F]. }
    apply (osim_bind (setrel W)).
    { pose proof (last_sim _ _ _ F) as X. destruct (last (map Some sets) None), (last (map Some sets') None); simpl; try contradiction; auto. }
    intros a b Fab. unfold gshift.
    eapply osim_bind; [exact (from_scans_sim tok _ _ W ([], s) ([], s') (states_sim _ _ _ Fab) (conj (Forall2_nil _) R))|].
    intros x y (W1 & I1 & R1).
    eapply osim_bind; [exact (close_sim W1 sets sets' x y fuel (sets_mono _ _ _ _ I1 F) R1)|].
    intros [s2 t2] [s2' t2'] (W2 & I2 & F2 & R2). cbn [fst snd] in *.
    assert (F3 : Forall2 (setrel W2) (sets ++ [s2]) (sets' ++ [s2'])).
    { apply F2_app; [|constructor; [exact F2|constructor]]. apply (sets_mono W); [|exact F]. intros z Z. apply I2, I1. exact Z. }
    eapply osim_impl; [|exact (IH W2 _ _ _ _ F3 R2)]. intros p q (W' & I' & X). exists W'. split; [intros z Z; apply I', I2, I1; exact Z|exact X].
  Qed.
  Lemma final_sim W (s s' : ESet) : setrel W s s' ->
    osim (fun o o' => match o, o' with Some n, Some n' => rel W n n' | None, None => True | _, _ => False end) (get_final s) (get_final s').
  Proof.
    induction 1 as [|[k v] [k' v'] l l' [E X] F IH]; cbn [get_final]; [exact I|]. cbn [fst snd] in *. subst k'.
    destruct (is_final_key k); [|exact IH]. rewrite <- (F2_length _ _ _ X). eapply osim_bind; [apply osim_same|]. intros ? ? _.
    apply (osim_bind (rel W)); [|intros x0 y0 R; exact R]. destruct X as [|x1 y1 l1 l2 R1 X1]; simpl; auto.
  Qed.
  Lemma parse_sim tokens s s' fuel : SW [] s s' ->
    osim (later [] (fun W o o' => match o, o' with Some n, Some n' => rel W n n' | None, None => True | _, _ => False end))
      (gparse o1 lay sg tokens s fuel) (gparse o2 lay sg tokens s' fuel).
  Proof.
    intro R. unfold gparse. eapply osim_bind; [exact (new_start_sim [] s s' R)|]. intros x y R1.
    eapply osim_bind; [exact (close_sim [] [] [] x y fuel (Forall2_nil _) R1)|]. intros [s1 t1] [s1' t1'] (W1 & I1 & F1 & R2). cbn [fst snd] in *.
    eapply osim_bind; [exact (tokens_sim fuel tokens W1 [s1] [s1'] t1 t1' (Forall2_cons _ _ F1 (Forall2_nil _)) R2)|].
    intros [sets t] [sets' t'] (W2 & I2 & R3 & F2). cbn [fst snd] in *.
    apply (osim_bind (setrel W2)).
    { pose proof (last_sim _ _ _ F2) as X. destruct (last (map Some sets) None), (last (map Some sets') None); simpl; try contradiction; auto. }
    intros a b Fab. eapply osim_bind; [exact (final_sim W2 a b Fab)|]. intros o o' O. simpl. exists W2. split; [intros z []|]. split; [exact R3|exact O].
  Qed.
End Sim.

(** ** Trees in step *)
Section Trees.
  Context {T AK V : Type} `{OrdEq T} `{OrdEq AK} `{OrdEq V}.
  Local Notation tree := (Inner T AK V).
  Local Notation C := (ContentInner T AK V).
  Local Notation pairs := (list (nat * nat)).
  Implicit Types (t : tree) (W : pairs) (c d : C) (mine : list nat).

  Record SR W t t' : Prop := {
    sr_t : TInv t;
    sr_t' : TInv t';
    sr_fun : forall n m m', rel W n m -> rel W n m' -> m = m';
    sr_inj : forall n n' m, rel W n m -> rel W n' m -> n = n';
    sr_ok : forall n n', rel W n n' -> node_ok t n /\ node_ok t' n';
    sr_alt : forall n n' a, rel W n n' -> In a (nalts t n) ->
      exists a' c c', In a' (nalts t' n') /\ acont t a = Some c /\ acont t' a' = Some c' /\ same_content (rel W) c c';
    sr_alt' : forall n n' a', rel W n n' -> In a' (nalts t' n') ->
      exists a c c', In a (nalts t n) /\ acont t a = Some c /\ acont t' a' = Some c' /\ same_content (rel W) c c'
  }.
  Lemma same_fun W c d d' : (forall n m m', rel W n m -> rel W n m' -> m = m') -> same_content (rel W) c d -> same_content (rel W) c d' -> d = d'.
  Proof.
    intros F A B. destruct A as [k v|x ns ns' A]; inversion B as [|? ? ns2 B']; subst; [reflexivity|]. f_equal.
    clear B. revert ns2 B'. induction A as [|n m l l' R A IH]; intros ns2 B; inversion B as [|? y1 ? l1 Ry Rl]; subst; [reflexivity|]. f_equal; [exact (F _ _ _ R Ry)|apply IH; assumption].
  Qed.
  Lemma same_inj W c c' d : (forall n n' m, rel W n m -> rel W n' m -> n = n') -> same_content (rel W) c d -> same_content (rel W) c' d -> c = c'.
  Proof.
    intros F A B. destruct A as [k v|x ns ns' A]; inversion B as [|? ns2 ? B']; subst; [reflexivity|]. f_equal.
    clear B. revert ns2 B'. induction A as [|n m l l' R A IH]; intros ns2 B; inversion B as [|x1 ? l1 ? Ry Rl]; subst; [reflexivity|]. f_equal; [exact (F _ _ _ R Ry)|apply IH; assumption].
  Qed.
  Lemma same_mono W W' c d : incl W W' -> same_content (rel W) c d -> same_content (rel W') c d.
  Proof. intros I [k v|x ns ns' F]; constructor. exact (vals_mono _ _ _ _ I F). Qed.

  (** What may happen to a tree without touching the nodes of [mine]. *)
  Record env mine t t' : Prop := {
    ev_t : TInv t';
    ev_len : length (in_nodes t) <= length (in_nodes t');
    ev_keep : forall a c, acont t a = Some c -> acont t' a = Some c;
    ev_mine : forall n, In n mine -> node_ok t n -> nalts t' n = nalts t n
  }.
  Lemma env_refl mine t : TInv t -> env mine t t.
  Proof. constructor; auto. Qed.
  Lemma env_trans mine mine' t1 t2 t3 : incl mine mine' -> env mine t1 t2 -> env mine' t2 t3 -> env mine t1 t3.
  Proof.
    intros I [A B D E] [A' B' D' E']. constructor; auto; [lia|]. intros n Im Ok. rewrite E'; [apply E; assumption|apply I; exact Im|]. unfold node_ok in *. lia.
  Qed.
  Lemma SR_env W mine mine' t t' u u' : SR W t t' -> (forall n n', rel W n n' -> In n mine /\ In n' mine') ->
    env mine t u -> env mine' t' u' -> SR W u u'.
  Proof.
    intros [A A' F I Ok Al Al'] M E E'. constructor; [apply E|apply E'|exact F|exact I| | |].
    - intros n n' R. destruct (Ok n n' R). pose proof (ev_len _ _ _ E). pose proof (ev_len _ _ _ E'). unfold node_ok in *. lia.
    - intros n n' a R Ia. destruct (M n n' R) as [M1 M2]. destruct (Ok n n' R) as [O1 O2]. rewrite (ev_mine _ _ _ E n M1 O1) in Ia. rewrite (ev_mine _ _ _ E' n' M2 O2).
      destruct (Al n n' a R Ia) as (a' & c & c' & X & Y & Z & S). exists a', c, c'. split; [exact X|]. split; [exact (ev_keep _ _ _ E _ _ Y)|]. split; [exact (ev_keep _ _ _ E' _ _ Z)|exact S].
    - intros n n' a R Ia. destruct (M n n' R) as [M1 M2]. destruct (Ok n n' R) as [O1 O2]. rewrite (ev_mine _ _ _ E' n' M2 O2) in Ia. rewrite (ev_mine _ _ _ E n M1 O1).
      destruct (Al' n n' a R Ia) as (a' & c & c' & X & Y & Z & S). exists a', c, c'. split; [exact X|]. split; [exact (ev_keep _ _ _ E _ _ Y)|]. split; [exact (ev_keep _ _ _ E' _ _ Z)|exact S].
  Qed.
  (** A node with one alternative is made. *)
  Definition mk mine t t' n c : Prop := env mine t t' /\ ~ node_ok t n /\ node_ok t' n /\ exists a, nalts t' n = [a] /\ acont t' a = Some c.
  Lemma SR_mk W mine mine' t t' u u' n n' c c' : SR W t t' -> (forall x y, rel W x y -> In x mine /\ In y mine') ->
    mk mine t u n c -> mk mine' t' u' n' c' -> same_content (rel W) c c' -> SR ((n, n') :: W) u u'.
  Proof.
    intros R M (E & Nn & On & a & Na & Ca) (E' & Nn' & On' & a' & Na' & Ca') Sc.
    pose proof (SR_env W mine mine' t t' u u' R M E E') as R1. assert (Iw : incl W ((n, n') :: W)) by apply incl_tl, incl_refl.
    constructor; [apply R1|apply R1| | | | |].
    - intros x y y' [[= <- <-]|X] [[= Y]|Y]; auto.
      + destruct Nn. exact (proj1 (sr_ok _ _ _ R _ _ Y)).
      + subst. destruct Nn. exact (proj1 (sr_ok _ _ _ R _ _ X)).
      + exact (sr_fun _ _ _ R _ _ _ X Y).
    - intros x x' y [[= <- <-]|X] [[= Y]|Y]; auto.
      + destruct Nn'. exact (proj2 (sr_ok _ _ _ R _ _ Y)).
      + subst. destruct Nn'. exact (proj2 (sr_ok _ _ _ R _ _ X)).
      + exact (sr_inj _ _ _ R _ _ _ X Y).
    - intros x y [[= <- <-]|X]; [auto|exact (sr_ok _ _ _ R1 _ _ X)].
    - intros x y b [[= <- <-]|X] Ib.
      + rewrite Na in Ib. destruct Ib as [<-|[]]. exists a', c, c'. rewrite Na'. split; [left; reflexivity|]. split; [exact Ca|]. split; [exact Ca'|exact (same_mono _ _ _ _ Iw Sc)].
      + destruct (sr_alt _ _ _ R1 x y b X Ib) as (b' & d & d' & P1 & P2 & P3 & P4). exists b', d, d'. repeat (split; [assumption|]). exact (same_mono _ _ _ _ Iw P4).
    - intros x y b [[= <- <-]|X] Ib.
      + rewrite Na' in Ib. destruct Ib as [<-|[]]. exists a, c, c'. rewrite Na. split; [left; reflexivity|]. split; [exact Ca|]. split; [exact Ca'|exact (same_mono _ _ _ _ Iw Sc)].
      + destruct (sr_alt' _ _ _ R1 x y b X Ib) as (b' & d & d' & P1 & P2 & P3 & P4). exists b', d, d'. repeat (split; [assumption|]). exact (same_mono _ _ _ _ Iw P4).
  Qed.

  (** [add_all] on matched nodes. *)
  Lemma SR_add_all W t t' n m n' m' : SR W t t' -> rel W n n' -> rel W m m' ->
    osim (fun x y => fst x = fst y /\ SR W (snd x) (snd y)) (in_add_all n m t) (in_add_all n' m' t').
  Proof.
    intros R Rn Rm. destruct (sr_ok _ _ _ R _ _ Rn) as [On On']. destruct (sr_ok _ _ _ R _ _ Rm) as [Om Om'].
    destruct (add_all_spec t n m (sr_t _ _ _ R) On Om) as (c & u & E & Ea & En & Iu & Ch). rewrite E.
    destruct (add_all_spec t' n' m' (sr_t' _ _ _ R) On' Om') as (c' & u' & E' & Ea' & En' & Iu' & Ch'). rewrite E'. simpl.
    assert (AC : forall b, acont u b = acont t b) by (intro b; unfold acont; rewrite Ea; reflexivity).
    assert (AC' : forall b, acont u' b = acont t' b) by (intro b; unfold acont; rewrite Ea'; reflexivity).
    assert (NL : forall x, nalts u x = if Nat.eqb n x then bs_extend (nalts t n) (nalts t m) else nalts t x).
    { intro x. rewrite <- (nalts_set t n (bs_extend (nalts t n) (nalts t m)) (in_alts t) x On). unfold nalts. rewrite En. reflexivity. }
    assert (NL' : forall x, nalts u' x = if Nat.eqb n' x then bs_extend (nalts t' n') (nalts t' m') else nalts t' x).
    { intro x. rewrite <- (nalts_set t' n' (bs_extend (nalts t' n') (nalts t' m')) (in_alts t') x On'). unfold nalts. rewrite En'. reflexivity. }
    assert (LenU : length (in_nodes u) = length (in_nodes t)) by (rewrite En, list_set_length; reflexivity).
    assert (LenU' : length (in_nodes u') = length (in_nodes t')) by (rewrite En', list_set_length; reflexivity).
    split.
    - assert (X : c = Changed <-> c' = Changed).
      { rewrite Ch, Ch'. split.
        - intros (a & I1 & I2). destruct (sr_alt _ _ _ R m m' a Rm I1) as (a' & d & d' & J & Da & Da' & Sd). exists a'. split; [exact J|].
          intro J2. destruct (sr_alt' _ _ _ R n n' a' Rn J2) as (b & e & e' & K & Eb & Ea2 & Se). assert (e' = d') as -> by congruence.
          assert (e = d) as -> by exact (same_inj _ _ _ _ (sr_inj _ _ _ R) Se Sd). apply I2.
          assert (a = b) as -> by exact (acont_inj _ _ _ _ (sr_t _ _ _ R) Da Eb). exact K.
        - intros (a' & I1 & I2). destruct (sr_alt' _ _ _ R m m' a' Rm I1) as (a & d & d' & J & Da & Da' & Sd). exists a. split; [exact J|].
          intro J2. destruct (sr_alt _ _ _ R n n' a Rn J2) as (b & e & e' & K & Eb & Eb' & Se). assert (e = d) as -> by congruence.
          assert (e' = d') as -> by exact (same_fun _ _ _ _ (sr_fun _ _ _ R) Se Sd). apply I2.
          assert (a' = b) as -> by exact (acont_inj _ _ _ _ (sr_t' _ _ _ R) Da' Eb'). exact K. }
      destruct c, c'; auto; destruct X as [X1 X2]; [discriminate (X1 eq_refl)|discriminate (X2 eq_refl)].
    - constructor; [exact Iu|exact Iu'|apply R|apply R| | |].
      + intros x y X. destruct (sr_ok _ _ _ R x y X). unfold node_ok in *. lia.
      + intros x y a X Ia. rewrite NL in Ia. rewrite NL'.
        destruct (Nat.eqb_spec n x) as [<-|Nx], (Nat.eqb_spec n' y) as [<-|Ny].
        * apply bs_extend_In in Ia. destruct Ia as [Ia|Ia].
          -- destruct (sr_alt _ _ _ R m m' a Rm Ia) as (a' & d & d' & P1 & P2 & P3 & P4). exists a', d, d'. rewrite AC, AC'. split; [apply bs_extend_In; auto|auto].
          -- destruct (sr_alt _ _ _ R n n' a Rn Ia) as (a' & d & d' & P1 & P2 & P3 & P4). exists a', d, d'. rewrite AC, AC'. split; [apply bs_extend_In; auto|auto].
        * destruct Ny. exact (sr_fun _ _ _ R _ _ _ Rn X).
        * destruct Nx. exact (sr_inj _ _ _ R _ _ _ Rn X).
        * destruct (sr_alt _ _ _ R x y a X Ia) as (a' & d & d' & P). exists a', d, d'. rewrite AC, AC'. exact P.
      + intros x y a X Ia. rewrite NL' in Ia. rewrite NL.
        destruct (Nat.eqb_spec n x) as [<-|Nx], (Nat.eqb_spec n' y) as [<-|Ny].
        * apply bs_extend_In in Ia. destruct Ia as [Ia|Ia].
          -- destruct (sr_alt' _ _ _ R m m' a Rm Ia) as (a' & d & d' & P1 & P2 & P3 & P4). exists a', d, d'. rewrite AC, AC'. split; [apply bs_extend_In; auto|auto].
          -- destruct (sr_alt' _ _ _ R n n' a Rn Ia) as (a' & d & d' & P1 & P2 & P3 & P4). exists a', d, d'. rewrite AC, AC'. split; [apply bs_extend_In; auto|auto].
        * destruct Ny. exact (sr_fun _ _ _ R _ _ _ Rn X).
        * destruct Nx. exact (sr_inj _ _ _ R _ _ _ Rn X).
        * destruct (sr_alt' _ _ _ R x y a X Ia) as (a' & d & d' & P). exists a', d, d'. rewrite AC, AC'. exact P.
  Qed.

  (** *** What the others do *)
  Lemma node_valid_ok t n : node_valid t n = true <-> node_ok t n.
  Proof. unfold node_valid, node_ok. apply Nat.ltb_lt. Qed.
  Lemma theirs_ok mine t n : theirs mine t n = true -> node_ok t n /\ ~ In n mine.
  Proof.
    unfold theirs. intro E. apply andb_prop in E. destruct E as [A B]. split; [apply node_valid_ok; exact A|]. intro I.
    rewrite (proj2 (existsb_exists (Nat.eqb n) mine)) in B; [discriminate|]. exists n. split; [exact I|apply Nat.eqb_refl].
  Qed.
  Lemma other_step_env mine o t : TInv t -> env mine t (other_step mine o t).
  Proof.
    intro I. destruct o as [|c|n a|n m]; cbn [other_step].
    - pose proof (make_node_spec t I) as M. destruct (in_make_node t) as [n u]. cbn [snd]. destruct M as (-> & N1 & A1 & I1). constructor; [exact I1| | |].
      + rewrite N1, app_length. lia.
      + intros a c E. unfold acont in *. rewrite A1. exact E.
      + intros n _ Ok. unfold nalts. rewrite N1, nth_error_snoc. destruct (Nat.eqb_spec n (length (in_nodes t))) as [->|]; [unfold node_ok in Ok; lia|reflexivity].
    - destruct (forallb _ _) eqn:E; [|apply env_refl; exact I].
      assert (F : Forall (node_ok t) (c_nodes c)).
      { apply Forall_forall. intros n In_. rewrite forallb_forall in E. apply node_valid_ok. apply E. destruct c; exact In_. }
      pose proof (make_alt_spec t c I F) as M. destruct (in_make_alt t c) as [a u]. cbn [snd]. destruct M as (I2 & Ca & N2 & X1 & X2).
      constructor; [exact I2|rewrite N2; lia|exact X1|]. intros n _ _. unfold nalts. rewrite N2. reflexivity.
    - destruct (theirs mine t n && alt_valid t a) eqn:E; [|apply env_refl; exact I]. apply andb_prop in E. destruct E as [E1 E2].
      apply theirs_ok in E1. destruct E1 as [Ok Nm].
      assert (Ex : exists c, acont t a = Some c).
      { unfold acont. unfold alt_valid in E2. apply Nat.ltb_lt in E2. destruct (nth_error (id_to_value (in_alts t)) a) eqn:E; [eauto|]. apply nth_error_None in E. lia. }
      destruct (add_node_alt_spec t n a I Ok Ex) as (u & R & A3 & N3 & I3). rewrite R. constructor; [exact I3|rewrite N3, list_set_length; lia| |].
      + intros b c E. unfold acont in *. rewrite A3. exact E.
      + intros x Ix _. unfold nalts. rewrite N3, nth_list_set. destruct (Nat.eqb_spec n x) as [->|]; [contradiction|reflexivity].
    - destruct (theirs mine t n && node_valid t m) eqn:E; [|apply env_refl; exact I]. apply andb_prop in E. destruct E as [E1 E2].
      apply theirs_ok in E1. destruct E1 as [Ok Nm]. apply node_valid_ok in E2.
      destruct (add_all_spec t n m I Ok E2) as (c & u & R & A3 & N3 & I3 & _). rewrite R. constructor; [exact I3|rewrite N3, list_set_length; lia| |].
      + intros b d E. unfold acont in *. rewrite A3. exact E.
      + intros x Ix _. unfold nalts. rewrite N3, nth_list_set. destruct (Nat.eqb_spec n x) as [->|]; [contradiction|reflexivity].
  Qed.
  Lemma others_env mine os : forall t, TInv t -> env mine t (fold_left (fun t o => other_step mine o t) os t).
  Proof.
    induction os as [|o os IH]; intros t I; simpl; [apply env_refl; exact I|].
    pose proof (other_step_env mine o t I) as E. exact (env_trans _ _ _ _ _ (incl_refl _) E (IH _ (ev_t _ _ _ E))).
  Qed.
  Lemma wait_env (s : shared T AK V) : TInv (sh_tree s) -> env (sh_mine s) (sh_tree s) (sh_tree (wait s)) /\ sh_mine (wait s) = sh_mine s.
  Proof.
    intro I. unfold wait. destruct (sh_others s) as [|os r]; [split; [apply env_refl; exact I|reflexivity]|]. simpl. split; [apply others_env; exact I|reflexivity].
  Qed.
  Lemma sh_make_spec c (s : shared T AK V) : TInv (sh_tree s) -> Forall (node_ok (sh_tree s)) (c_nodes c) ->
    exists n s', sh_make_node_with c s = Ret (n, s') /\ mk (sh_mine s) (sh_tree s) (sh_tree s') n c /\ sh_mine s' = n :: sh_mine s.
  Proof.
    intros I F. unfold sh_make_node_with.
    destruct (wait_env s I) as [E1 M1]. set (s1 := wait s) in *. clearbody s1.
    pose proof (make_node_spec (sh_tree s1) (ev_t _ _ _ E1)) as M. destruct (in_make_node (sh_tree s1)) as [n t1]. destruct M as (-> & N1 & A1 & I1).
    set (n := length (in_nodes (sh_tree s1))) in *.
    destruct (wait_env {| sh_tree := t1; sh_mine := n :: sh_mine s1; sh_others := sh_others s1 |} I1) as [E2 M2].
    set (s2 := wait _) in *. clearbody s2. cbn [sh_tree sh_mine] in E2, M2.
    assert (L1 : length (in_nodes t1) = S n) by (rewrite N1, app_length; simpl; unfold n; lia).
    assert (F2 : Forall (node_ok (sh_tree s2)) (c_nodes c)).
    { eapply Forall_impl; [|exact F]. pose proof (ev_len _ _ _ E1). pose proof (ev_len _ _ _ E2). unfold node_ok in *. intros m Lm. fold n in H5. lia. }
    pose proof (make_alt_spec (sh_tree s2) c (ev_t _ _ _ E2) F2) as M. destruct (in_make_alt (sh_tree s2) c) as [a t2]. destruct M as (I2 & Ca & N2 & X1 & X2).
    destruct (wait_env {| sh_tree := t2; sh_mine := sh_mine s2; sh_others := sh_others s2 |} I2) as [E3 M3].
    set (s3 := wait _) in *. clearbody s3. cbn [sh_tree sh_mine] in E3, M3.
    assert (Im : In n (sh_mine s2)) by (rewrite M2; left; reflexivity).
    assert (O2 : node_ok t2 n) by (pose proof (ev_len _ _ _ E2); unfold node_ok in *; rewrite N2; lia).
    assert (O3 : node_ok (sh_tree s3) n) by (pose proof (ev_len _ _ _ E3); unfold node_ok in *; lia).
    assert (Z1 : nalts t1 n = []).
    { unfold nalts. rewrite N1, nth_error_snoc. fold n. rewrite Nat.eqb_refl. reflexivity. }
    assert (Z2 : nalts (sh_tree s2) n = []).
    { rewrite (ev_mine _ _ _ E2 n); [exact Z1|left; reflexivity|]. unfold node_ok. lia. }
    assert (Z3 : nalts (sh_tree s3) n = []).
    { rewrite (ev_mine _ _ _ E3 n Im O2). unfold nalts in *. rewrite N2. exact Z2. }
    pose proof (ev_keep _ _ _ E3 a c Ca) as Ca3.
    destruct (add_node_alt_spec (sh_tree s3) n a (ev_t _ _ _ E3) O3 (ex_intro _ c Ca3)) as (t3 & R & A3 & N3 & I3). rewrite R. cbn [obind].
    exists n, {| sh_tree := t3; sh_mine := sh_mine s3; sh_others := sh_others s3 |}. split; [reflexivity|]. cbn [sh_tree sh_mine]. split; [|congruence].
    assert (NL : forall x, nalts t3 x = if Nat.eqb n x then [a] else nalts (sh_tree s3) x).
    { intro x. unfold nalts at 1. rewrite N3, nth_list_set. destruct (Nat.eqb_spec n x) as [<-|].
      - rewrite Z3. unfold node_ok in O3. destruct (nth_error (in_nodes (sh_tree s3)) n) eqn:E; [reflexivity|]. apply nth_error_None in E. lia.
      - reflexivity. }
    pose proof (ev_len _ _ _ E1) as L0. pose proof (ev_len _ _ _ E2) as L2. pose proof (ev_len _ _ _ E3) as L3. rewrite N2 in L3.
    split; [|split; [|split]].
    - constructor; [exact I3| | |].
      + rewrite N3, list_set_length. fold n in L0. lia.
      + intros b d E. unfold acont at 1. rewrite A3. apply (ev_keep _ _ _ E3), X1, (ev_keep _ _ _ E2). unfold acont. rewrite A1. apply (ev_keep _ _ _ E1). exact E.
      + intros x Ix Ok. rewrite NL. fold n in L0. destruct (Nat.eqb_spec n x) as [<-|Nx]; [unfold node_ok in Ok; lia|].
        assert (Ix2 : In x (sh_mine s2)) by (rewrite M2, M1; right; exact Ix).
        rewrite (ev_mine _ _ _ E3 x Ix2); [|unfold node_ok in *; rewrite N2; lia].
        assert (nalts t2 x = nalts (sh_tree s2) x) as -> by (unfold nalts; rewrite N2; reflexivity).
        rewrite (ev_mine _ _ _ E2 x); [|right; rewrite M1; exact Ix|unfold node_ok in *; lia].
        assert (nalts t1 x = nalts (sh_tree s1) x) as ->.
        { unfold nalts. rewrite N1, nth_error_snoc. fold n. destruct (Nat.eqb_spec x n); [congruence|reflexivity]. }
        exact (ev_mine _ _ _ E1 x Ix Ok).
    - unfold node_ok. fold n in L0. lia.
    - unfold node_ok in *. rewrite N3, list_set_length. exact O3.
    - exists a. split; [rewrite NL, Nat.eqb_refl; reflexivity|]. unfold acont. rewrite A3. exact Ca3.
  Qed.
  Lemma alone_make_spec c t : TInv t -> Forall (node_ok t) (c_nodes c) ->
    exists n t', (let '(n, t1) := in_make_node t in let '(a, t2) := in_make_alt t1 c in '(_, t3) <- in_add_node_alt n a t2 ;; Ret (n, t3)) = Ret (n, t') /\
      mk (seq 0 (length (in_nodes t))) t t' n c.
  Proof.
    intros I F. destruct (in_make_node_alt c t I F) as (a & t' & R & N & Ca & I' & K & _). exists (length (in_nodes t)), t'. split; [exact R|].
    assert (NL : forall x, nalts t' x = if Nat.eqb x (length (in_nodes t)) then [a] else nalts t x).
    { intro x. unfold nalts. rewrite N, nth_error_snoc. destruct (Nat.eqb x _); reflexivity. }
    split; [|split; [|split]].
    - constructor; [exact I'|rewrite N, app_length; lia|exact K|]. intros n _ Ok. rewrite NL. destruct (Nat.eqb_spec n (length (in_nodes t))) as [->|]; [unfold node_ok in Ok; lia|reflexivity].
    - unfold node_ok. lia.
    - unfold node_ok. rewrite N, app_length. simpl. lia.
    - exists a. rewrite NL, Nat.eqb_refl. auto.
  Qed.

  Definition SHR W t (s : shared T AK V) : Prop := SR W t (sh_tree s) /\ forall n n', rel W n n' -> In n' (sh_mine s).
  Lemma SHR_make W c c' t s : SHR W t s -> same_content (rel W) c c' ->
    osim (fun x y => SHR ((fst x, fst y) :: W) (snd x) (snd y))
      (let '(n, t1) := in_make_node t in let '(a, t2) := in_make_alt t1 c in '(_, t3) <- in_add_node_alt n a t2 ;; Ret (n, t3))
      (sh_make_node_with c' s).
  Proof.
    intros [R M] Sc.
    assert (F : Forall (node_ok t) (c_nodes c) /\ Forall (node_ok (sh_tree s)) (c_nodes c')).
    { destruct Sc as [k v|x ns ns' F]; [split; constructor|]. cbn [c_nodes]. clear -F R. induction F as [|n m l l' X F IH]; [split; constructor|].
      destruct (sr_ok _ _ _ R n m X), IH. split; constructor; assumption. }
    destruct (alone_make_spec c t (sr_t _ _ _ R) (proj1 F)) as (n & u & E & K).
    destruct (sh_make_spec c' s (sr_t' _ _ _ R) (proj2 F)) as (n' & s' & E' & K' & Mm). rewrite E, E'. simpl. split.
    - apply (SR_mk W (seq 0 (length (in_nodes t))) (sh_mine s) t (sh_tree s) u (sh_tree s') n n' c c' R); [|exact K|exact K'|exact Sc].
      intros x y X. split; [|exact (M x y X)]. apply in_seq. destruct (sr_ok _ _ _ R x y X) as [O _]. unfold node_ok in O. lia.
    - intros x y X. rewrite Mm. destruct X as [[= _ <-]|X]; [left; reflexivity|right; exact (M x y X)].
  Qed.
  Lemma SHR_wait W t s : SHR W t s -> SHR W t (wait s).
  Proof.
    intros [R M]. destruct (wait_env s (sr_t' _ _ _ R)) as [E Em]. split; [|intros n n' X; rewrite Em; exact (M n n' X)].
    apply (SR_env W (seq 0 (length (in_nodes t))) (sh_mine s) t (sh_tree s)); [exact R| |apply env_refl; exact (sr_t _ _ _ R)|exact E].
    intros x y X. split; [|exact (M x y X)]. apply in_seq. destruct (sr_ok _ _ _ R x y X) as [O _]. unfold node_ok in O. lia.
  Qed.
  Lemma SHR_add_all W n m n' m' t s : SHR W t s -> rel W n n' -> rel W m m' ->
    osim (fun x y => fst x = fst y /\ SHR W (snd x) (snd y)) (in_add_all n m t) (sh_add_all n' m' s).
  Proof.
    intros R Rn Rm. destruct (SHR_wait W t s R) as [R' M']. unfold sh_add_all. set (s1 := wait s) in *. clearbody s1.
    pose proof (SR_add_all W t (sh_tree s1) n m n' m' R' Rn Rm) as X.
    destruct (in_add_all n m t) as [[c u]|?|], (in_add_all n' m' (sh_tree s1)) as [[c' u']|?|]; simpl in *; try contradiction; try discriminate; try assumption.
    destruct X as [E X]. split; [exact E|]. split; [exact X|exact M'].
  Qed.

  (** *** What the others have and leave alone stays *)
  Definition quiet n (s : shared T AK V) : Prop := forall os o, In os (sh_others s) -> In o os ->
    match o with OAddAlt n' _ | OAddAll n' _ => n' <> n | _ => True end.
  Definition keeps n b (s : shared T AK V) : Prop :=
    node_ok (sh_tree s) n /\ nalts (sh_tree s) n = b /\ ~ In n (sh_mine s) /\ quiet n s.
  Lemma other_keep mine o t n : TInv t -> node_ok t n -> match o with OAddAlt n' _ | OAddAll n' _ => n' <> n | _ => True end ->
    node_ok (other_step mine o t) n /\ nalts (other_step mine o t) n = nalts t n.
  Proof.
    intros I Ok Q. pose proof (other_step_env mine o t I) as E. split; [pose proof (ev_len _ _ _ E); unfold node_ok in *; lia|].
    destruct o as [|c|n' a|n' m]; cbn [other_step].
    - pose proof (other_step_env [n] OMakeNode t I) as X. exact (ev_mine _ _ _ X n (or_introl eq_refl) Ok).
    - pose proof (other_step_env [n] (OMakeAlt c) t I) as X. exact (ev_mine _ _ _ X n (or_introl eq_refl) Ok).
    - destruct (theirs mine t n' && alt_valid t a); [|reflexivity]. unfold in_add_node_alt. destruct (get_node t n') as [s|?|] eqn:G; [|reflexivity|reflexivity].
      cbn [obind]. destruct (bs_insert a s) as [b s']. unfold nalts. cbn [in_nodes]. rewrite nth_list_set.
      destruct (Nat.eqb_spec n' n); [contradiction|reflexivity].
    - destruct (theirs mine t n' && node_valid t m) eqn:V0; [|reflexivity]. apply andb_prop in V0. destruct V0 as [V1 V2].
      apply theirs_ok in V1. apply node_valid_ok in V2. destruct (add_all_spec t n' m I (proj1 V1) V2) as (c & u & R & _ & N3 & _). rewrite R.
      unfold nalts. rewrite N3, nth_list_set. destruct (Nat.eqb_spec n' n); [contradiction|reflexivity].
  Qed.
  Lemma wait_keep n b s : TInv (sh_tree s) -> keeps n b s -> keeps n b (wait s).
  Proof.
    intros I (Ok & Eb & Nm & Q). unfold wait. destruct (sh_others s) as [|os r] eqn:Eo; [split; [exact Ok|]; auto|].
    assert (X : node_ok (fold_left (fun t o => other_step (sh_mine s) o t) os (sh_tree s)) n /\
                nalts (fold_left (fun t o => other_step (sh_mine s) o t) os (sh_tree s)) n = nalts (sh_tree s) n).
    { assert (Qo : forall o, In o os -> match o with OAddAlt n' _ | OAddAll n' _ => n' <> n | _ => True end).
      { intros o Io. apply (Q os o); [rewrite Eo; left; reflexivity|exact Io]. }
      clear Eo Eb Q. revert Ok I. generalize (sh_tree s). induction os as [|o os IH]; intros t Ok I; simpl; [auto|].
      destruct (other_keep (sh_mine s) o t n I Ok (Qo o (or_introl eq_refl))) as [O1 E1].
      destruct (IH (fun o Io => Qo o (or_intror Io)) _ O1 (ev_t _ _ _ (other_step_env (sh_mine s) o t I))) as [O2 E2]. split; [exact O2|congruence]. }
    split; [exact (proj1 X)|]. cbn [sh_tree sh_mine]. split; [rewrite (proj2 X); exact Eb|]. split; [exact Nm|].
    intros os' o Ios Io. apply (Q os' o); [|exact Io]. rewrite Eo. right. exact Ios.
  Qed.
  Lemma make_keep n b c s m s' : TInv (sh_tree s) -> Forall (node_ok (sh_tree s)) (c_nodes c) -> keeps n b s ->
    sh_make_node_with c s = Ret (m, s') -> keeps n b s'.
  Proof.
    intros I F K. unfold sh_make_node_with. destruct (wait_env s I) as [E1 M1]. pose proof (wait_keep n b s I K) as K1.
    set (s1 := wait s) in *. clearbody s1.
    pose proof (make_node_spec (sh_tree s1) (ev_t _ _ _ E1)) as M. destruct (in_make_node (sh_tree s1)) as [k t1]. destruct M as (-> & N1 & A1 & I1).
    set (k := length (in_nodes (sh_tree s1))) in *.
    assert (L1 : length (in_nodes t1) = S k) by (rewrite N1, app_length; simpl; unfold k; lia).
    assert (K2 : keeps n b {| sh_tree := t1; sh_mine := k :: sh_mine s1; sh_others := sh_others s1 |}).
    { destruct K1 as (Ok & Eb & Nm & Q). unfold node_ok in Ok. fold k in Ok. split; [unfold node_ok; cbn [sh_tree]; lia|]. cbn [sh_tree sh_mine]. split; [|split; [|exact Q]].
      - rewrite <- Eb. unfold nalts. rewrite N1, nth_error_snoc. fold k. destruct (Nat.eqb_spec n k); [lia|reflexivity].
      - intros [X|X]; [lia|exact (Nm X)]. }
    destruct (wait_env {| sh_tree := t1; sh_mine := k :: sh_mine s1; sh_others := sh_others s1 |} I1) as [E2 M2].
    pose proof (wait_keep n b {| sh_tree := t1; sh_mine := k :: sh_mine s1; sh_others := sh_others s1 |} I1 K2) as K3.
    set (s2 := wait _) in *. clearbody s2. cbn [sh_tree sh_mine] in E2, M2.
    assert (F2 : Forall (node_ok (sh_tree s2)) (c_nodes c)).
    { eapply Forall_impl; [|exact F]. pose proof (ev_len _ _ _ E1). pose proof (ev_len _ _ _ E2). unfold node_ok in *. intros x Lx. fold k in H5. lia. }
    pose proof (make_alt_spec (sh_tree s2) c (ev_t _ _ _ E2) F2) as M. destruct (in_make_alt (sh_tree s2) c) as [a t2]. destruct M as (I2 & Ca & N2 & X1 & X2).
    assert (K4 : keeps n b {| sh_tree := t2; sh_mine := sh_mine s2; sh_others := sh_others s2 |}).
    { destruct K3 as (Ok & Eb & Nm & Q). split; [unfold node_ok in *; cbn [sh_tree]; rewrite N2; exact Ok|]. cbn [sh_tree sh_mine].
      split; [rewrite <- Eb; unfold nalts; rewrite N2; reflexivity|]. split; [exact Nm|exact Q]. }
    assert (Im : In k (sh_mine s2)) by (rewrite M2; left; reflexivity).
    destruct (wait_env {| sh_tree := t2; sh_mine := sh_mine s2; sh_others := sh_others s2 |} I2) as [E3 M3].
    pose proof (wait_keep n b {| sh_tree := t2; sh_mine := sh_mine s2; sh_others := sh_others s2 |} I2 K4) as K5.
    set (s3 := wait _) in *. clearbody s3. cbn [sh_tree sh_mine] in E3, M3.
    unfold in_add_node_alt. destruct (get_node (sh_tree s3) k) as [nd|?|] eqn:G; cbn [obind]; [|discriminate|discriminate].
    destruct (bs_insert a nd) as [bb nd']. cbn [obind]. intros [= <- <-]. destruct K5 as (Ok & Eb & Nm & Q).
    split; [unfold node_ok in *; cbn [sh_tree in_nodes]; rewrite list_set_length; exact Ok|]. cbn [sh_tree sh_mine]. split; [|split; [exact Nm|exact Q]].
    rewrite <- Eb. unfold nalts. cbn [in_nodes]. rewrite nth_list_set. destruct (Nat.eqb_spec k n) as [->|]; [|reflexivity].
    destruct Nm. rewrite M3. exact Im.
  Qed.
  Lemma add_all_keep n b x y s (c : WasChanged) s' : TInv (sh_tree s) -> node_ok (sh_tree s) x -> node_ok (sh_tree s) y -> In x (sh_mine s) -> keeps n b s ->
    sh_add_all x y s = Ret (c, s') -> keeps n b s'.
  Proof.
    intros I Ox Oy Im K. unfold sh_add_all. destruct (wait_env s I) as [E1 M1]. pose proof (wait_keep n b s I K) as K1.
    set (s1 := wait s) in *. clearbody s1. pose proof (ev_len _ _ _ E1) as L1.
    destruct (add_all_spec (sh_tree s1) x y (ev_t _ _ _ E1)) as (c0 & u & R & _ & N3 & _); [unfold node_ok in *; lia|unfold node_ok in *; lia|].
    rewrite R. cbn [obind]. intros [= <- <-]. destruct K1 as (Ok & Eb & Nm & Q).
    split; [unfold node_ok in *; cbn [sh_tree]; rewrite N3, list_set_length; exact Ok|]. cbn [sh_tree sh_mine]. split; [|split; [exact Nm|exact Q]].
    rewrite <- Eb. unfold nalts. rewrite N3, nth_list_set. destruct (Nat.eqb_spec x n) as [->|]; [|reflexivity]. destruct Nm. rewrite M1. exact Im.
  Qed.
  Definition SHK n b W t s : Prop := SHR W t s /\ keeps n b s.
  Lemma SHK_make n b W c c' t s : SHK n b W t s -> same_content (rel W) c c' ->
    osim (fun x y => SHK n b ((fst x, fst y) :: W) (snd x) (snd y))
      (let '(n, t1) := in_make_node t in let '(a, t2) := in_make_alt t1 c in '(_, t3) <- in_add_node_alt n a t2 ;; Ret (n, t3))
      (sh_make_node_with c' s).
  Proof.
    intros [[R M] K] Sc. pose proof (SHR_make W c c' t s (conj R M) Sc) as X.
    assert (F : Forall (node_ok (sh_tree s)) (c_nodes c')).
    { destruct Sc as [k v|x ns ns' F]; [constructor|]. cbn [c_nodes]. clear -F R. induction F as [|p q l l' X F IH]; [constructor|].
      constructor; [exact (proj2 (sr_ok _ _ _ R p q X))|exact IH]. }
    destruct (sh_make_node_with c' s) as [[m' s']|?|] eqn:E; [|destruct (let '(_, _) := in_make_node t in _) as [[? ?]|?|]; exact X|destruct (let '(_, _) := in_make_node t in _) as [[? ?]|?|]; exact X].
    destruct (let '(_, _) := in_make_node t in _) as [[m u]|?|]; simpl in *; [|contradiction|discriminate].
    split; [exact X|]. exact (make_keep n b c' s m' s' (sr_t' _ _ _ R) F K E).
  Qed.
  Lemma SHK_add_all n b W x y x' y' t s : SHK n b W t s -> rel W x x' -> rel W y y' ->
    osim (fun p q => fst p = fst q /\ SHK n b W (snd p) (snd q)) (in_add_all x y t) (sh_add_all x' y' s).
  Proof.
    intros [[R M] K] Rx Ry. pose proof (SHR_add_all W x y x' y' t s (conj R M) Rx Ry) as X.
    destruct (sh_add_all x' y' s) as [[c' s']|?|] eqn:E, (in_add_all x y t) as [[c u]|?|]; simpl in *; try contradiction; try discriminate; try assumption.
    destruct X as [Ec X]. split; [exact Ec|]. split; [exact X|].
    exact (add_all_keep n b x' y' s c' s' (sr_t' _ _ _ R) (proj2 (sr_ok _ _ _ R _ _ Rx)) (proj2 (sr_ok _ _ _ R _ _ Ry)) (M x x' Rx) K E).
  Qed.
End Trees.

Section Parse.
  Context {T NT AK AV V : Type} `{OrdEq T} `{OrdEq NT} `{OrdEq AK} `{OrdEq V}.
  Variable lay : layout (StartNonTerminal NT).
  Variable sg : StartGrammar T NT AK AV.
  Local Notation tree := (Inner T AK V).

  (** The generic parser with the plain tree operations is Model/Earley.v. *)
  Lemma gparse_alone tokens (t : tree) fuel : gparse alone lay sg tokens t fuel = parse lay sg tokens t fuel.
  Proof. reflexivity. Qed.

  Lemma shared_sim tokens (t t' : tree) others fuel : TInv t -> TInv t' ->
    osim (fun x y => exists W, SR W (snd x) (snd y) /\ match fst x, fst y with Some m, Some m' => rel W m m' | None, None => True | _, _ => False end)
      (parse lay sg tokens t fuel) (shared_parse lay sg tokens others t' fuel).
  Proof.
    intros I I'. rewrite <- gparse_alone. unfold shared_parse.
    assert (R0 : SHR [] t {| sh_tree := t'; sh_mine := []; sh_others := others |}).
    { split; [|intros n n' []]. constructor; try assumption; intros n n' []; intros; contradiction. }
    pose proof (parse_sim false alone among_others lay sg SHR) as X.
    specialize (X (fun W k v s s' R => SHR_make W (CLeaf k v) (CLeaf k v) s s' R (same_leaf _ k v))).
    specialize (X (fun W x ns ns' s s' R F => SHR_make W (CBranch x ns) (CBranch x ns') s s' R (same_branch _ x ns ns' F))).
    specialize (X (fun W n m n' m' s s' R Rn Rm => SHR_add_all W n m n' m' s s' R Rn Rm)).
    specialize (X tokens t _ fuel R0).
    destruct (gparse alone lay sg tokens t fuel) as [[o u]|?|], (gparse among_others lay sg tokens _ fuel) as [[o' s']|?|]; simpl in *; try contradiction; try discriminate; try assumption.
    destruct X as (W & _ & [R _] & O). exists W. cbn [fst snd] in *. auto.
  Qed.

  Lemma shared_keeps tokens (t' : tree) others fuel r u n : TInv t' -> node_ok t' n ->
    (forall os o, In os others -> In o os -> match o with OAddAlt n' _ | OAddAll n' _ => n' <> n | _ => True end) ->
    shared_parse lay sg tokens others t' fuel = Ret (r, u) -> node_ok u n /\ nalts u n = nalts t' n.
  Proof.
    intros I' Ok Q. unfold shared_parse.
    assert (R0 : SHK n (nalts t' n) [] t' {| sh_tree := t'; sh_mine := []; sh_others := others |}).
    { split.
      - split; [|intros x x' []]. constructor; try assumption; intros x x' []; intros; contradiction.
      - split; [exact Ok|]. split; [reflexivity|]. split; [intros []|exact Q]. }
    pose proof (parse_sim false alone among_others lay sg (SHK n (nalts t' n))) as X.
    specialize (X (fun W k v s s' R => SHK_make n (nalts t' n) W (CLeaf k v) (CLeaf k v) s s' R (same_leaf _ k v))).
    specialize (X (fun W x ns ns' s s' R F => SHK_make n (nalts t' n) W (CBranch x ns) (CBranch x ns') s s' R (same_branch _ x ns ns' F))).
    specialize (X (fun W x y x' y' s s' R Rn Rm => SHK_add_all n (nalts t' n) W x y x' y' s s' R Rn Rm)).
    specialize (X tokens t' _ fuel R0).
    destruct (gparse alone lay sg tokens t' fuel) as [[o v]|?|], (gparse among_others lay sg tokens _ fuel) as [[o' s']|?|]; simpl in *; try contradiction; try discriminate.
    intros [= <- <-]. destruct X as (W & _ & [_ (K1 & K2 & _)] & _). cbn [snd] in *. auto.
  Qed.

  (** More fuel does not change what ends. *)
  Section Fuel.
    Context {S : Type} (ops : TreeOps T AK V S).
    Lemma gclose_mono prev s : fuel_mono (fun n => gclose_state ops lay sg prev s n).
    Proof. unfold gclose_state. apply (fuel_mono_bind (fun _ => _) (fun n l => _)); [apply fuel_mono_const|]. intro. apply change_loop_mono. Qed.
    Lemma gtokens_mono toks : forall sets (t : S), fuel_mono (fun n => gparse_tokens ops lay sg toks sets t n).
    Proof.
      induction toks as [|tok toks IH]; intros sets t; cbn [gparse_tokens]; [apply fuel_mono_const|].
      apply (fuel_mono_bind (fun _ => _) (fun n l => _)); [apply fuel_mono_const|]. intro lst.
      apply (fuel_mono_bind (fun _ => _) (fun n l => _)); [apply fuel_mono_const|]. intro s.
      apply (fuel_mono_bind _ (fun n l => _)); [apply gclose_mono|]. intros [s' t']. apply IH.
    Qed.
    Lemma gparse_mono toks (t : S) : fuel_mono (fun n => gparse ops lay sg toks t n).
    Proof.
      unfold gparse. apply (fuel_mono_bind (fun _ => _) (fun n l => _)); [apply fuel_mono_const|]. intro s.
      apply (fuel_mono_bind _ (fun n l => _)); [apply gclose_mono|]. intros [s' t'].
      apply (fuel_mono_bind _ (fun n l => _)); [apply gtokens_mono|]. intros [s2 t2]. apply fuel_mono_const.
    Qed.
  End Fuel.
  Lemma shared_mono tokens others (t : tree) : fuel_mono (fun n => shared_parse lay sg tokens others t n).
  Proof.
    unfold shared_parse. apply (fuel_mono_bind _ (fun n l => _)); [apply gparse_mono|]. intros [o s]. apply fuel_mono_const.
  Qed.
End Parse.
