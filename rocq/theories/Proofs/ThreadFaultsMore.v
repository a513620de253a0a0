(** What follows for the calls of threads whose code panics: progress, poison, and where panics come from. *)
From Coq Require Import String List Arith Lia Bool.
From Verif.Model Require Import Ord BTree Outcome Utils Tree RwLock ThreadFaults.
From Verif.Model Require TreeFaults.
From Verif.Spec Require Import TreeSpec TreeFaultsSpec RwLockSpec ThreadFaultsSpec.
From Verif.Proofs Require Import OrdFacts BTreeFacts LoopFacts UtilsFacts TreeFacts TreeHist RwLockSafe RwLockInv RwLockLive
  TreeFaultsFacts TreeFaultsPoison ThreadFaultsSafe ThreadFaultsOps ThreadFaultsInv.
Import ListNotations.

Section More.
  Context {T AK V : Type} `{OrdEq T} `{OrdEq AK} `{OrdEq V}.
  Local Notation tree := (Inner T AK V).
  Local Notation fault := TreeFaults.fault.
  Local Notation pwld := (TreeFaults.pworld T AK V).
  Local Notation hist := (history T AK V).
  Local Notation op := (tr_op T AK V).
  Local Notation val := (tr_val T AK V).
  Local Notation cfg := (config T AK V).
  Local Notation f_step := TreeFaults.f_step.
  Variable F : fault -> Prop.
  Hypothesis F0 : F TreeFaults.NoFault.
  Local Notation frun := (frun_of F).

  (** ** Effects and calls *)
  Lemma flin_det (l : list (lin_event T AK V)) st : flin l st -> forall st', flin l st' -> forall i, st i = st' i.
  Proof using Type.
    intro Ln. induction Ln as [|l st j o Ln IH E|l st j o d o' r' Ln IH E P|l st j o d r Ln IH E P]; intros st' L' i; inversion L'; subst; cbn.
    - reflexivity.
    - unfold upd. destruct (Nat.eqb i j); [reflexivity|]. eapply IH. eassumption.
    - match goal with X : flin l _ |- _ => pose proof (IH _ X) as Y end. unfold upd. destruct (Nat.eqb i j); [|apply Y].
      pose proof (Y j) as Z. congruence.
    - unfold upd. destruct (Nat.eqb i j); [reflexivity|]. eapply IH. eassumption.
  Qed.
  Lemma flin_app (E : list (lin_event T AK V)) : forall L st, flin (E ++ L) st -> exists st0, flin L st0.
  Proof using Type. induction E as [|e E IH]; intros L st Ln; [eauto|]. inversion Ln; subst; eauto. Qed.
  (** The effects of a call that began after [L]. *)
  Lemma flin_parts (E L : list (lin_event T AK V)) st0 : flin L st0 -> forall st, flin (E ++ L) st ->
    forall i, st0 i = None ->
    (forall o d, st i = Some (o, d) -> incl d (effects E)) /\
    (forall o r, In (ERet i o r) (erase E) -> exists d, fparts o r d /\ incl d (effects E)).
  Proof using Type.
    intros L0. induction E as [|e E IH]; intros st Ln i N; cbn [app] in *.
    - split; [intros o d X; rewrite <- (flin_det _ _ L0 _ Ln i) in X; congruence|intros o r []].
    - inversion Ln as [|l s j oj Ls Ej|l s j oj d o' r' Ls Ej Pj|l s j oj d r Ls Ej Pj]; subst; destruct (IH _ Ls i N) as [A B]; simpl; split.
      + intros o2 d2. unfold upd. destruct (Nat.eqb_spec i j) as [->|_]; [intros [= _ <-] x []|apply A].
      + intros o2 r2 [X|X]; [discriminate|eauto].
      + intros o2 d2. unfold upd. destruct (Nat.eqb_spec i j) as [->|_].
        * intros [= _ <-]. apply incl_cons; [left; reflexivity|apply incl_tl; eauto].
        * intro X. apply incl_tl. eauto.
      + intros o2 r2 X. destruct (B _ _ X) as (d2 & C & D). exists d2. split; [exact C|apply incl_tl; exact D].
      + intros o2 d2. unfold upd. destruct (Nat.eqb_spec i j) as [->|_]; [discriminate|apply A].
      + intros o2 r2 [[= -> <- <-]|X]; [|eauto]. exists (rev d). split; [exact Pj|]. intros x Jx. apply (A _ _ Ej). apply in_rev. exact Jx.
  Qed.
  (** Every effect belongs to a call. *)
  Lemma fparts_of o r (l : hist) o' r' : fparts o r l -> In (o', r') l ->
    o' = o \/ exists h ao, alt_call o h ao /\ (o' = TMakeNode h \/ o' = ao \/ exists n a, o' = TAddAlt n a).
  Proof using Type.
    intros P J. destruct P; cbn in J; repeat (destruct J as [J|J]; [injection J; intros; subst|]); try destruct J; auto;
      right; eexists _, _; (split; [eassumption|]); eauto 6.
  Qed.
  Lemma flin_call (L : list (lin_event T AK V)) st : flin L st ->
    (forall i o d, st i = Some (o, d) -> In (ECall i o) (erase L)) /\
    (forall o' r', In (o', r') (effects L) -> exists i o r l, In (ECall i o) (erase L) /\ fparts o r l /\ In (o', r') l).
  Proof using Type.
    intro Ln. induction Ln as [|l st j oj Ln [A B] E|l st j oj d o1 r1 Ln [A B] E P|l st j oj d r1 Ln [A B] E P]; simpl; split.
    - discriminate.
    - intros o' r' [].
    - intros i o d. unfold upd. destruct (Nat.eqb_spec i j) as [->|_]; [intros [= <- _]; left; reflexivity|intro X; right; eauto].
    - intros o' r' X. destruct (B _ _ X) as (i & o & r & l' & C & D). exists i, o, r, l'. split; [right; exact C|exact D].
    - intros i o d2. unfold upd. destruct (Nat.eqb_spec i j) as [->|_]; [intros [= <- _]; eauto|eauto].
    - intros o' r' [[= <- <-]|X]; [|eauto]. destruct P as (r & more & P). exists j, oj, r, (rev d ++ (o1, r1) :: more).
      split; [eauto|]. split; [exact P|apply in_or_app; right; left; reflexivity].
    - intros i o d2. unfold upd. destruct (Nat.eqb_spec i j) as [->|_]; [discriminate|intro X; right; eauto].
    - intros o' r' X. destruct (B _ _ X) as (i & o & r & l' & C & D). exists i, o, r, l'. split; [right; exact C|exact D].
  Qed.

  (** ** Poison *)
  (** Since a moment at which the history was [tr1] the tree [h] has been dead. *)
  Definition dead_since (tr1 : hist) (h : TreeHandle) (tr : hist) (pw : pwld) : Prop :=
    exists E, tr = E ++ tr1 /\ dead pw h /\ forall o r, In (o, r) E -> about o h -> exists m, r = Panic m.
  Lemma dead_since_step tr1 h tr pw f o r pw' : frun tr pw -> dead_since tr1 h tr pw -> can_call tr o -> F f -> f_step f pw o = (r, pw') ->
    dead_since tr1 h ((o, r) :: tr) pw'.
  Proof using Type.
    intros _ (E & -> & D & A) _ _ St. exists ((o, r) :: E). split; [reflexivity|]. split.
    - pose proof (step_dead f pw o h D) as X. rewrite St in X. exact X.
    - intros o2 r2 [[= <- <-]|J] Ab; [|eauto]. destruct (step_about f pw o h D Ab) as (m & X). rewrite St in X. eauto.
  Qed.
  Lemma inside_poisoned wp (c c' : cfg) h : inside wp c c' -> poisoned (c_lock c h) = true -> poisoned (c_lock c' h) = true.
  Proof using Type.
    intros I P. destruct I as [i c c' Ts|i o r c Et]; [|exact P].
    unfold thread_step in Ts. destruct (c_thread c i) as [|o p]; [discriminate|].
    destruct p as [r|k|h' k|h' k|h' k|h' b k|h' k|h' t k]; cbv zeta in Ts; try discriminate; try (injection Ts as <-; exact P);
      try (injection Ts as <-; cbn [c_lock]; unfold upd; destruct (Nat.eqb_spec h h') as [->|_]; cbn; rewrite ?P; auto; fail).
    - destruct (may_read wp (c_lock c h')); [|discriminate]. injection Ts as <-. cbn [c_lock]. unfold upd. destruct (Nat.eqb_spec h h') as [->|_]; cbn; auto.
    - destruct (may_write (c_lock c h')).
      + injection Ts as <-. cbn [c_lock]. unfold upd. destruct (Nat.eqb_spec h h') as [->|_]; cbn; auto.
      + destruct (existsb (Nat.eqb i) (waiting (c_lock c h'))); [discriminate|].
        injection Ts as <-. cbn [c_lock]. unfold upd. destruct (Nat.eqb_spec h h') as [->|_]; cbn; auto.
    - destruct (nth_error (c_world c) h'); [|discriminate]. injection Ts as <-. exact P.
  Qed.
  Lemma fsteps_poisoned wp (c c' : cfg) h : fault_steps F wp c c' -> poisoned (c_lock c h) = true -> poisoned (c_lock c' h) = true.
  Proof using Type.
    intros S P. induction S as [|c1 c2 S IH St]; [exact P|]. destruct St as [i f o c1 Et K Ff|c1 c2 I]; [exact IH|]. eapply inside_poisoned; eauto.
  Qed.

  (** ** Where panics and poison come from *)
  Lemma collect_text (pw : pwld) h t : healthy pw h t -> forall ns f, Forall (fun n => nd_inner n = h) ns ->
    (exists is, TreeFaults.f_collect pw h f ns = Ret is) \/ (exists k m, TreeFaults.f_collect pw h f ns = Panic m /\ f = TreeFaults.InIterator k m).
  Proof using Type.
    intro G. induction ns as [|n ns IH]; intros f A.
    - destruct f as [|[|k] m| | | |]; cbn; eauto 6.
    - inversion A as [|? ? En An]; subst.
      destruct f as [|[|k] m| | | |]; [|right; cbn; eauto|..];
        cbn [TreeFaults.f_collect]; unfold TreeFaults.p_with; rewrite (proj2 (lock_ret _ _ _) G); cbn; rewrite Nat.eqb_refl; cbn;
        match goal with |- context [TreeFaults.f_collect pw _ ?g ns] => destruct (IH g An) as [(is & ->)|(k' & m' & -> & Eg)] end; cbn; eauto; right; try discriminate Eg; eauto.
      injection Eg as -> ->. eauto.
  Qed.
  Lemma panic_text f (pw : pwld) w o m pw' : sim pw w -> WInv w -> held w o -> one_tree o -> (forall h ao, ~ alt_call o h ao) ->
    (forall h, about o h -> exists t, healthy pw h t) -> f_step f pw o = (Panic m, pw') ->
    (exists k, f = TreeFaults.InIterator k m) \/ f = TreeFaults.InClone m \/ exists h, about o h /\ dead pw' h.
  Proof using Type.
    intros S I K O Na Hl St.
    assert (No : forall r (P : Prop), f_step TreeFaults.NoFault pw o = r -> f_step f pw o = r -> P).
    { intros r P X Y. destruct (step_nofault pw w o S I K O Hl) as (v & p & Z). rewrite X, <- Y, St in Z. discriminate. }
    assert (Set_ : forall h (t t' : tree), healthy pw h t -> dead (list_set pw h {| TreeFaults.pt_tree := t'; TreeFaults.pt_poisoned := true |}) h).
    { intros h t t' G. exists t'. rewrite nth_list_set, Nat.eqb_refl. unfold healthy in G. rewrite G. reflexivity. }
    destruct o; try (eapply No; reflexivity).
    - cbn [f_step] in St. destruct (Hl _ eq_refl) as (t & G). unfold TreeFaults.f_make_leaf_alt in St.
      destruct (make_alt_healthy f pw h t (CLeaf kind value) G) as [(a & t' & E & _)|(m' & t' & E & Sf)]; rewrite E in St; cbn in St; [discriminate|].
      injection St as -> <-. right; right. exists h. split; [reflexivity|eapply Set_; exact G].
    - cbn [f_step] in St. destruct (Hl h (or_introl eq_refl)) as (t & G). unfold TreeFaults.f_make_branch_alt, TreeFaults.p_with in St.
      rewrite (proj2 (lock_ret _ _ _) G) in St. cbn [obind] in St.
      destruct (collect_text pw h t G nodes f (proj2 (Forall_forall _ _) O)) as [(is & E)|(k & m' & E & ->)]; rewrite E in St; cbn [TreeFaults.fmap_] in St.
      + destruct (make_alt_healthy f pw h t (CBranch action is) G) as [(a & t' & E' & _)|(m' & t' & E' & Sf)]; rewrite E' in St; cbn in St; [discriminate|].
        injection St as -> <-. right; right. exists h. split; [left; reflexivity|eapply Set_; exact G].
      + injection St as -> _. eauto.
    - destruct (Na h (TMakeLeafAlt h kind value)). constructor.
    - destruct (Na h (TMakeBranchAlt h action nodes)). constructor.
    - cbn [f_step] in St. destruct (Hl _ eq_refl) as (t & G). unfold TreeFaults.f_content, TreeFaults.p_with in St.
      rewrite (proj2 (lock_ret _ _ _) G) in St. cbn in St. destruct K as (c & E). unfold wcont in E. rewrite (proj2 S _ _ G) in E.
      unfold get_alt, acont in *. rewrite E in St. cbn in St. destruct f; try discriminate St. injection St as -> _. auto.
  Qed.
  Lemma mut_length {A} (pw : pwld) h (func : tree -> outcome A * tree) : List.length (snd (TreeFaults.p_with_mut pw h func)) = List.length pw.
  Proof using Type.
    unfold TreeFaults.p_with_mut. destruct (TreeFaults.p_lock pw h) as [t|m|]; try reflexivity. destruct (func t) as [r t']. cbn. apply list_set_length.
  Qed.
  Lemma fmap_length {A} (k : A -> val) (x : TreeFaults.fres A) : List.length (snd (TreeFaults.fmap_ k x)) = List.length (@snd (outcome A) pwld x).
  Proof using Type. destruct x as [[a|m|] p]; reflexivity. Qed.
  Lemma fbind_length {A B} n (x : TreeFaults.fres A) (k : A -> pwld -> TreeFaults.fres B) : List.length (snd x) = n ->
    (forall a p, List.length p = n -> List.length (snd (k a p)) = n) -> List.length (snd (TreeFaults.fbind x k)) = n.
  Proof using Type. destruct x as [[a|m|] p]; cbn; auto. Qed.
  Lemma make_branch_alt_length f (pw : pwld) h x ns : List.length (snd (TreeFaults.f_make_branch_alt f pw h x ns)) = List.length pw.
  Proof using Type. unfold TreeFaults.f_make_branch_alt. destruct (TreeFaults.p_with pw h _); try reflexivity. apply mut_length. Qed.
  Lemma add_alt_length (pw : pwld) n a : List.length (snd (TreeFaults.f_add_alt pw n a)) = List.length pw.
  Proof using Type. unfold TreeFaults.f_add_alt. match goal with |- context [match ?x with _ => _ end] => destruct x end; try reflexivity. apply mut_length. Qed.
  Lemma step_length f (pw : pwld) o : o <> TNewTree -> List.length (snd (f_step f pw o)) = List.length pw.
  Proof using Type.
    intro N. destruct o; cbn [f_step]; try congruence; rewrite fmap_length; try reflexivity.
    - apply mut_length.
    - apply mut_length.
    - apply make_branch_alt_length.
    - apply fbind_length; [apply mut_length|]. intros. apply fbind_length; [etransitivity; [apply mut_length|assumption]|].
      intros. apply fbind_length; [rewrite add_alt_length; assumption|]. intros; assumption.
    - apply fbind_length; [apply mut_length|]. intros. apply fbind_length; [rewrite make_branch_alt_length; assumption|].
      intros. apply fbind_length; [rewrite add_alt_length; assumption|]. intros; assumption.
    - apply add_alt_length.
    - unfold TreeFaults.f_add_all. match goal with |- context [match ?x with _ => _ end] => destruct x end; try reflexivity. apply mut_length.
  Qed.
  Lemma frun_cause tr (pw : pwld) h : frun tr pw -> dead pw h ->
    exists o m f, In (o, Panic m) tr /\ stores o = Some h /\ F f /\ storing f m.
  Proof using H0 H2 H4.
    intro R. induction R as [|tr pw f o r pw' R IH K Ff St]; intro D.
    - destruct D as (t & D). destruct h; discriminate.
    - destruct (frun_sim tr pw (frun_of_frun F tr pw R)) as (tr0 & w & W & R0 & S). pose proof (run_inv _ _ R0) as I.
      destruct (nth_error pw h) as [[t b]|] eqn:E.
      + destruct b.
        * destruct IH as (o1 & m & f1 & J & X); [exists t; exact E|]. exists o1, m, f1. split; [right; exact J|exact X].
        * pose proof (step_cause f pw w o h t S (hi_w _ _ I) (held_of _ _ _ I (wp_call _ _ _ W K)) E) as C. rewrite St in C.
          destruct (C D) as [A (m & B & Sf)]. cbn in B. subst r. exists o, m, f. split; [left; reflexivity|]. split; [exact A|]. split; [exact Ff|exact Sf].
      + exfalso. destruct D as (t & D). assert (Dec : o = TNewTree \/ o <> TNewTree) by (destruct o; auto; right; discriminate).
        destruct Dec as [->|Nn].
        * cbn in St. injection St as _ <-. rewrite nth_error_snoc in D. destruct (Nat.eqb_spec h (List.length pw)); [discriminate|congruence].
        * pose proof (step_length f pw o Nn) as Ln. rewrite St in Ln. cbn in Ln. apply nth_error_None in E. apply nth_lt in D. lia.
  Qed.

  Lemma effects_app (A B : list (lin_event T AK V)) : effects (A ++ B) = effects A ++ effects B.
  Proof using Type. unfold effects. apply flat_map_app. Qed.
  Lemma erase_app (A B : list (lin_event T AK V)) : erase (A ++ B) = erase A ++ erase B.
  Proof using Type. unfold erase. apply flat_map_app. Qed.
  Lemma fparts_dead o r (l : hist) h : fparts o r l -> about o h -> (forall o' r', In (o', r') l -> about o' h -> exists m, r' = Panic m) ->
    exists m, r = Panic m.
  Proof using Type.
    intros P Ab X. destruct P as [o r N|a c m|o h' ao n a c Al|o h' ao m Al|o h' ao n m Al|o h' ao n a m Al]; eauto.
    - apply (X o r); [left; reflexivity|exact Ab].
    - assert (Ab' : about ao h) by (destruct Al; exact Ab).
      destruct (X ao (Ret (RAlt a)) (or_intror (or_introl eq_refl)) Ab') as (m & Y). discriminate.
  Qed.
  Theorem dead_for_ever wp (c1 c2 : cfg) h : fault_reachable F wp c1 -> fault_steps F wp c1 c2 -> poisoned (c_lock c1 h) = true ->
    exists E, c_trace c2 = E ++ c_trace c1 /\
      forall i, c_thread c1 i = Idle -> forall o r, In (ERet i o r) E -> about o h -> exists m, r = Panic m.
  Proof using Type*.
    intros R S P. destruct (freachable_good F F0 wp c1 R) as (L & st & hs & pw & G).
    assert (D : dead pw h).
    { destruct (pl_poison _ _ _ _ _ (pg_lock _ _ _ _ _ _ _ G h) P) as ([t b] & E & X). cbn in X. subst b. exists t. exact E. }
    assert (G' : pgood F (dead_since (effects L) h) c1 L st hs pw).
    { eapply pgood_other; [exact G|]. exists []. split; [reflexivity|]. split; [exact D|intros o r []]. }
    destruct (fsteps_good F F0 _ (dead_since_step (effects L) h) wp c1 c2 L st hs pw G' S) as (E & st2 & hs2 & pw2 & G2).
    exists (erase E). split.
    - rewrite <- (pg_erase _ _ _ _ _ _ _ G2), <- (pg_erase _ _ _ _ _ _ _ G). apply erase_app.
    - intros i Ei o r J Ab. destruct (pg_run _ _ _ _ _ _ _ G2) as [_ (E2 & EE & _ & X)].
      rewrite effects_app in EE. apply app_inv_tail in EE. subst E2.
      destruct (flin_parts E L st (pg_lin _ _ _ _ _ _ _ G) st2 (pg_lin _ _ _ _ _ _ _ G2) i (proj1 (pg_idle _ _ _ _ _ _ _ G i Ei))) as [_ B].
      destruct (B o r J) as (d & Pd & I). eapply fparts_dead; [exact Pd|exact Ab|]. intros o' r' J'. apply X. apply I. exact J'.
  Qed.

  Lemma frun_dead_app (A : hist) : forall tr (pw : pwld), frun (A ++ tr) pw -> exists pw0, frun tr pw0 /\ forall h, dead pw0 h -> dead pw h.
  Proof using Type.
    induction A as [|[o r] A IH]; intros tr pw R; [exists pw; auto|]. inversion R as [|? pw1 f ? ? ? R1 K Ff St]; subst.
    destruct (IH _ _ R1) as (pw0 & R0 & D). exists pw0. split; [exact R0|]. intros h X. pose proof (step_dead f pw1 o h (D h X)) as Y. rewrite St in Y. exact Y.
  Qed.
  Lemma about_held (w : world T AK V) o h : held w o -> one_tree o -> about o h -> h < List.length w.
  Proof using Type.
    destruct o; cbn; intros K O Ab; try (subst; tauto); try (destruct K as [K K2]).
    - destruct Ab as [->|(n & J & ->)]; [exact K|rewrite (O n J); exact K].
    - destruct Ab as [->|(n & J & ->)]; [exact K|rewrite (O n J); exact K].
    - destruct Ab as [->| ->]; [apply vnode_lt; exact K|rewrite <- O || rewrite O; apply vnode_lt; exact K].
    - destruct Ab as [->| ->]; apply vnode_lt; assumption.
    - subst. apply vnode_lt. exists K. exact K2.
    - subst. apply valt_lt. exists K. exact K2.
  Qed.
  (** A panic among the effects, when the trees in question are alive in the end. *)
  Lemma effect_panic tr (pw : pwld) o m : frun tr pw -> In (o, Panic m) tr -> one_tree o -> (forall h ao, ~ alt_call o h ao) ->
    (forall h, about o h -> ~ dead pw h) ->
    exists f, F f /\ ((exists k, f = TreeFaults.InIterator k m) \/ f = TreeFaults.InClone m).
  Proof using H0 H2 H4.
    intros R J O Na Al. apply in_split in J. destruct J as (A & B & ->). destruct (frun_dead_app A _ _ R) as (pw2 & R2 & D2).
    inversion R2 as [|? pw1 f ? ? ? R1 K Ff St]; subst.
    destruct (frun_sim B pw1 (frun_of_frun F B pw1 R1)) as (tr0 & w & W & R0 & S). pose proof (run_inv _ _ R0) as I.
    pose proof (held_of _ _ _ I (wp_call _ _ _ W K)) as Hd. exists f. split; [exact Ff|].
    destruct (panic_text f pw1 w o m pw2 S (hi_w _ _ I) Hd O Na) as [X|[X|(h & Ab & D)]]; [|exact St|auto|auto|].
    - intros h Ab. assert (L : h < List.length pw1) by (rewrite (sim_len _ _ S); eapply about_held; eauto).
      destruct (lock_cases pw1 w h S L) as [(t & G & _)|(D & _)]; [eauto|]. exfalso. apply (Al h Ab). apply D2.
      pose proof (step_dead f pw1 o h D) as Y. rewrite St in Y. exact Y.
    - destruct (Al h Ab (D2 h D)).
  Qed.
  Lemma run_alt_tree (tr : hist) (w : world T AK V) o a : run tr w -> In (o, Ret (RAlt a)) tr ->
    match o with TMakeLeafAlt h _ _ | TMakeBranchAlt h _ _ => al_inner a = h | _ => True end.
  Proof using Type.
    induction 1 as [|tr w o' r w' R IH Kc St]; [intros []|]. intros [J|J]; [|exact (IH J)]. injection J as -> ->.
    destruct o; try exact Logic.I; cbn [tr_step] in St.
    - unfold w_make_leaf_alt, w_make_alt, with_ in St. destruct (nth_error w h) as [t|]; [|discriminate].
      cbn in St. destruct (in_make_alt t (CLeaf kind value)). injection St as <- _. reflexivity.
    - unfold w_make_branch_alt, w_make_alt, with_ in St. destruct (nth_error w h) as [t|]; [|discriminate]. cbn in St.
      destruct (collect_indexes h nodes) as [is|m|]; try discriminate.
      cbn in St. destruct (in_make_alt t (CBranch action is)). injection St as <- _. reflexivity.
  Qed.

  (** ** Progress *)
  Section Progress.
    Variable wp : bool.
    Variable c : cfg.
    Variables (L : list (lin_event T AK V)) (st : nat -> option (op * hist)) (hs : nat -> list (@phold T AK V)) (pw : pwld).
    Hypothesis G0 : pgood F anything c L st hs pw.
    Hypothesis St : stopped wp c.
    Lemma fblocked i o p : c_thread c i = Running o p ->
      (exists h k, p = RLock h k /\ may_read wp (c_lock c h) = false /\ pall_reads (hs i)) \/
      (exists h k, p = WLock h k /\ may_write (c_lock c h) = false /\ hs i = []).
    Proof using F0 G0 St.
      intros Et. destruct (pnormal F F0 anything (fun _ _ _ _ _ _ _ _ _ _ _ => Logic.I) _ _ _ _ _ _ _ _ G0 Et) as (L1 & st1 & d & G & Es & Id & Sh).
      assert (No : thread_step wp i c = None).
      { destruct (thread_step wp i c) as [c'|] eqn:E; [|reflexivity]. destruct (St c'). eapply in_run; eauto. }
      unfold thread_step in No. rewrite Et in No.
      destruct p as [r|k|h k|h k|h k|h b k|h k|h t k]; cbv zeta in No; cbn [pshape] in Sh; try discriminate.
      - exfalso. eapply St. eapply in_ret; eauto.
      - destruct (may_read wp (c_lock c h)) eqn:E; [discriminate|]. left. exists h, k. destruct Sh as ([A B] & _). auto.
      - destruct (may_write (c_lock c h)) eqn:E; [discriminate|]. right. exists h, k. destruct Sh as (A & _). auto.
      - exfalso. destruct Sh as (m & t & J & _). pose proof (pg_agree _ _ _ _ _ _ _ G i m h t J) as E.
        rewrite <- (pg_world _ _ _ _ _ _ _ G), (map_nth_error _ _ _ E) in No. discriminate.
    Qed.
    Lemma fholder_runs i : hs i <> [] -> exists o p, c_thread c i = Running o p.
    Proof using G0.
      intros N. destruct (c_thread c i) as [|o p] eqn:E; [|eauto]. destruct (pg_idle _ _ _ _ _ _ _ G0 i E) as [_ X]. contradiction.
    Qed.
    Lemma fno_writer h : writer (c_lock c h) = None.
    Proof using F0 G0 St.
      destruct (writer (c_lock c h)) as [i|] eqn:W; [|reflexivity].
      apply (pl_write _ _ _ _ _ (pg_lock _ _ _ _ _ _ _ G0 h)) in W. destruct W as (t & J).
      destruct (fholder_runs i) as (o & p & Et); [intro X; rewrite X in J; destruct J|].
      destruct (fblocked i o p Et) as [(h' & k & _ & _ & A)|(h' & k & _ & _ & A)].
      - specialize (A _ _ _ J). discriminate.
      - rewrite A in J. destruct J.
    Qed.
    Lemma freader_trapped i h : In i (readers (c_lock c h)) -> waiting_again wp c.
    Proof using F0 G0 St.
      intros Ir.
      assert (Nh : hs i <> []).
      { intro Eh. pose proof (pl_read _ _ _ _ _ (pg_lock _ _ _ _ _ _ _ G0 h) i) as C. rewrite Eh in C. cbn in C.
        apply (count_occ_not_In Nat.eq_dec) in C. contradiction. }
      destruct (fholder_runs i Nh) as (o & p & Et).
      destruct (fblocked i o p Et) as [(h' & k & -> & Mr & A)|(h' & k & _ & _ & A)]; [|congruence].
      unfold may_read in Mr. rewrite (fno_writer h') in Mr. apply orb_false_iff in Mr. destruct Mr as [Mw Mr].
      split; [destruct wp; [reflexivity|discriminate]|]. destruct (waiting (c_lock c h')) as [|j ws] eqn:Ew; [discriminate|].
      destruct (pl_wait _ _ _ _ _ (pg_lock _ _ _ _ _ _ _ G0 h') j) as (o' & k' & Ej); [rewrite Ew; left; reflexivity|].
      exists i, j, h, h', o, o', k, k'.
      split; [congruence|]. split; [exact Et|]. split; [exact Ir|]. split; [exact Ej|rewrite Ew; left; reflexivity].
    Qed.
    Lemma fwriter_trapped i o h k : c_thread c i = Running o (WLock h k) -> waiting_again wp c.
    Proof using F0 G0 St.
      intros Et. destruct (fblocked i o _ Et) as [(h' & k' & X & _)|(h' & k' & [= <- <-] & Mw & _)]; [discriminate|].
      unfold may_write in Mw. rewrite (fno_writer h) in Mw. destruct (readers (c_lock c h)) as [|r l] eqn:Er; [discriminate|].
      apply (freader_trapped r h). rewrite Er. left. reflexivity.
    Qed.
    Lemma fidle_or_trapped i : c_thread c i <> Idle -> waiting_again wp c.
    Proof using F0 G0 St.
      intros Ni. destruct (c_thread c i) as [|o p] eqn:Et; [congruence|].
      destruct (fblocked i o p Et) as [(h & k & -> & Mr & _)|(h & k & -> & _)].
      - unfold may_read in Mr. rewrite (fno_writer h) in Mr.
        destruct (waiting (c_lock c h)) as [|j ws] eqn:Ew; [rewrite orb_true_r in Mr; discriminate|].
        destruct (pl_wait _ _ _ _ _ (pg_lock _ _ _ _ _ _ _ G0 h) j) as (o' & k' & Ej); [rewrite Ew; left; reflexivity|].
        eapply fwriter_trapped; eauto.
      - eapply fwriter_trapped; eauto.
    Qed.
  End Progress.
  Theorem fidle_or_waiting wp (c : cfg) : fault_reachable F wp c -> stopped wp c -> forall i, c_thread c i <> Idle -> waiting_again wp c.
  Proof using Type*.
    intros R S. destruct (freachable_good F F0 wp c R) as (L & st & hs & pw & G). intros i. exact (fidle_or_trapped wp c L st hs pw G S i).
  Qed.
  Lemma freachable_finite wp (c : cfg) : fault_reachable F wp c -> exists l, NoDup l /\ forall i, c_thread c i <> Idle -> In i l.
  Proof using Type.
    intro R. induction R as [|c1 c2 R (l & Nd & Rl) St].
    - exists []. split; [constructor|]. intros i X. simpl in X. congruence.
    - destruct St as [i f o c Et K A|c c' I].
      + destruct (in_dec Nat.eq_dec i l) as [J|J].
        * exists l. split; [exact Nd|]. intros j. cbn [c_thread]. destruct (Nat.eq_dec j i) as [->|N]; [auto|].
          rewrite upd_other by exact N. auto.
        * exists (i :: l). split; [constructor; assumption|].
          intros j. cbn [c_thread]. destruct (Nat.eq_dec j i) as [->|N]; [left; reflexivity|].
          rewrite upd_other by exact N. right. auto.
      + exists l. split; [exact Nd|]. destruct (inside_place wp c c' I) as (i & Ni & B & O).
        intros j Nj. destruct (Nat.eq_dec j i) as [->|N]; [auto|]. apply Rl. specialize (O j N). unfold place in O. congruence.
  Qed.
  Theorem ffinishes (c : cfg) : fault_reachable F false c -> finishes false c.
  Proof using Type*.
    intros R. destruct (freachable_finite _ _ R) as (l & Nd & Rl). pose proof (ends_gen false l Nd c Rl) as A. clear l Nd Rl.
    induction A as [c _ IH]. constructor.
    - intros c' I. apply IH; [exact I|]. eapply fs_step; [exact R|apply fs_inside; exact I].
    - intros St i. destruct (c_thread c i) as [|o p] eqn:Et; [reflexivity|]. exfalso.
      assert (Ni : c_thread c i <> Idle) by congruence. destruct (fidle_or_waiting false c R St i Ni) as [X _]. discriminate.
  Qed.
End More.
