(** Production states and state sets (C49-C51, C71). *)
From Coq Require Import String List Arith Lia Permutation NArith.
From Verif.Model Require Import Ord BTree Outcome Grammar State.
From Verif.Spec Require Import Reach NullSpec BuildSpec StateSpec Examples.
From Verif.Proofs Require Import OrdFacts BTreeFacts LoopFacts GrammarFacts BuildMore StateFacts StateMore StateSets.
Import ListNotations.

(** C49. Every state the API can produce for [p]. *)
Theorem C49_position {T NT AK AV} `{OrdEq T} `{OrdEq NT} (p : Prod T NT AK AV) (s : ProdState T NT AK AV) :
  position p s ->
  ps_prod s = p /\ ps_index s <= length (prod_elements p) /\
  (is_complete s = true <-> ps_index s = length (prod_elements p)) /\
  (is_complete s = true <-> next_prod_elem s = None) /\
  (is_complete s = true <-> next_elem s = None) /\
  (is_complete s = true <-> next_elem_state s = None) /\
  (forall i, offset_prod_elem s i = nth_error (prod_elements p) (ps_index s + i) /\
             offset_elem s i = nth_error (elements p) (ps_index s + i)) /\
  (forall e s', next_elem_state s = Some (e, s') <->
     next_prod_elem s = Some e /\ s' = Build_ProdState p (S (ps_index s))) /\
  (forall e s', advance_if s e = Some s' <->
     next_elem s = Some e /\ s' = Build_ProdState p (S (ps_index s))) /\
  ps_action_key s = action_key p.
Proof.
  intro P. destruct (position_inv p s P) as [E L].
  assert (C : is_complete s = true <-> length (prod_elements p) <= ps_index s).
  { unfold is_complete. rewrite E. rewrite Nat.eqb_eq. unfold num_elements. fold (prod_elements p). lia. }
  assert (NN : next_prod_elem s = None <-> length (prod_elements p) <= ps_index s).
  { unfold next_prod_elem, offset_prod_elem. rewrite E, Nat.add_0_r. apply nth_error_None. }
  assert (O : forall i, offset_elem s i = nth_error (elements p) (ps_index s + i)).
  { intro i. unfold offset_elem, offset_prod_elem. rewrite E. symmetry. apply nth_error_map. }
  split; [exact E|]. split; [exact L|]. split; [rewrite C; lia|]. split; [rewrite C, NN; reflexivity|].
  split.
  { rewrite C, <- NN. unfold next_elem, offset_elem, next_prod_elem.
    destruct (offset_prod_elem s 0); simpl; split; congruence. }
  split; [rewrite C, (next_elem_state_None s), E; reflexivity|].
  split. { intro i. split; [|apply O]. unfold offset_prod_elem. rewrite E. reflexivity. }
  assert (NX : forall e s', next_elem_state s = Some (e, s') <->
     next_prod_elem s = Some e /\ s' = Build_ProdState p (S (ps_index s))).
  { intros e s'. rewrite next_elem_state_iff. unfold next_prod_elem, offset_prod_elem. rewrite Nat.add_0_r, E.
    split; intros [A B]; (split; [exact A|]).
    - destruct B as [B1 B2]. destruct s' as [p' i']. simpl in *. congruence.
    - rewrite B. auto. }
  split; [exact NX|]. split.
  - intros e s'. rewrite advance_if_iff. unfold next_elem, offset_elem.
    change (offset_prod_elem s 0) with (next_prod_elem s). split.
    + intros (pe & N & <-). apply NX in N. destruct N as [-> ->]. auto.
    + intros [N ->]. destruct (next_prod_elem s) as [pe|] eqn:NE; [|discriminate]. simpl in N.
      exists pe. split; [apply NX; auto | congruence].
  - unfold ps_action_key. rewrite E. reflexivity.
Qed.

(** C49. Reading a production from its start with [next_elem_state] yields exactly its body, and every
    position in the body is reached. *)
Theorem C49_enumerates {T NT AK AV} `{OrdEq T} `{OrdEq NT} (p : Prod T NT AK AV) :
  (forall l, reads (from_start p) l <-> l = prod_elements p) /\
  (forall i, i <= length (prod_elements p) ->
     position p (Build_ProdState p i) /\ reads (Build_ProdState p i) (skipn i (prod_elements p))).
Proof.
  split.
  - intro l. rewrite reads_skipn. reflexivity.
  - intros i L. split; [apply position_all; exact L|]. apply reads_skipn. reflexivity.
Qed.

Example C49_example :
  let p := Build_Prod 0 0 (Build_ProdInner 10 0
    [Build_ProdElement (Some "l"%string) (NonTerm 0); Build_ProdElement None (Term 1)]) : Prod nat nat nat nat in
  position p (Build_ProdState p 2) /\ is_complete (Build_ProdState p 2) = true /\
  advance_if (from_start p) (NonTerm 0) = Some (Build_ProdState p 1) /\
  advance_if (from_start p) (Term 1) = None.
Proof. split; [apply position_all; simpl; lia|]. vm_compute. auto. Qed.

(** C50 as stated is false: in any accepted grammar, adding two positions of one production loses the
    second, and [nexts] does not mention its advance. *)
Theorem C50_add_holds_refuted {T NT AK AV} `{OrdEq T} `{OrdEq NT} (g : Grammar T NT AK AV) (lay : layout NT)
  (p : Prod T NT AK AV) :
  built g -> In p (prods g) -> prod_elements p <> [] ->
  exists s1 s2, position p s1 /\ position p s2 /\ ~ In s2 (adds lay [s1; s2]) /\
    exists e s2', next_elem_state s2 = Some (e, s2') /\
      forall e' s', In (e', s') (pss_nexts lay (adds lay [s1; s2])) -> ~ In s2' s'.
Proof.
  intros B I NE.
  assert (A : forall x y : ProdState T NT AK AV, ps_prod x = p -> ps_prod y = p -> adds lay [x; y] = [x]).
  { intros x y E1 E2. unfold adds, pss_add, pss_new_empty. simpl. unfold cmp, Ord_ProdState, prod_cmp.
    rewrite E1, E2, N.compare_refl. reflexivity. }
  destruct (prod_elements p) as [|e0 es] eqn:Ep; [congruence|].
  exists (Build_ProdState p 1), (Build_ProdState p 0).
  assert (P0 : position p (Build_ProdState p 0)) by (apply position_all; lia).
  assert (P1 : position p (Build_ProdState p 1)) by (apply position_all; rewrite Ep; simpl; lia).
  split; [exact P1|]. split; [exact P0|]. rewrite A by reflexivity. split.
  - intros [E|[]]. discriminate.
  - exists e0, (Build_ProdState p 1). split.
    + apply next_elem_state_iff. simpl. rewrite Ep. auto.
    + intros e' s' In'. destruct (nexts_facts lay [Build_ProdState p 1]) as (_ & N & _).
      { repeat constructor. }
      destruct (N e' s' In') as (_ & _ & X). rewrite X. intros (x & [<-|[]] & Nx).
      apply next_elem_state_iff in Nx. destruct Nx as (_ & _ & Nx). simpl in Nx. discriminate.
Qed.
Example C50_refuted_example : exists p : Prod nat nat nat nat, In p (prods ex_expr_g) /\ prod_elements p <> [].
Proof. eexists. split; [left; reflexivity | discriminate]. Qed.

(** C71. A set holds one state per production: the first one added (for [from_iter], the first or the
    last yielded, depending on the version of std). *)
Theorem C71_adds {T NT AK AV} `{OrdEq T} `{OrdEq NT} (g : Grammar T NT AK AV) (lay : layout NT)
  (l : list (ProdState T NT AK AV)) (x : ProdState T NT AK AV) :
  built g -> lay_inj g lay -> Forall (fun s => In (ps_prod s) (prods g)) l ->
  (In x (adds lay l) <-> earliest_in x l) /\
  (In x (pss_from_iter lay false l) <-> earliest_in x l) /\
  (In x (pss_from_iter lay true l) <-> latest_in x l).
Proof.
  intros B I F. split; [exact (adds_first lay g B I l x F)|]. exact (from_iter_facts lay g B I l x F).
Qed.

(** C71. [nexts]: elements in increasing order, each once, with exactly the advances over that element
    of the states held. *)
Theorem C71_nexts {T NT AK AV} `{OrdEq T} `{OrdEq NT} (lay : layout NT) (s : ProdStateSet T NT AK AV) :
  pss_built lay s ->
  msorted (pss_nexts lay s) /\
  (forall e s', In (e, s') (pss_nexts lay s) ->
     s' <> [] /\ forall x', In x' s' <-> exists x, In x s /\ next_elem_state x = Some (e, x')) /\
  (forall x e x', In x s -> next_elem_state x = Some (e, x') -> exists s', In (e, s') (pss_nexts lay s)).
Proof.
  intro B. destruct (nexts_facts lay s (pss_built_sorted lay s B)) as (A1 & A2 & A3).
  split; [exact A1|]. split; [|exact A3]. intros e s' I. destruct (A2 e s' I) as (X & _ & Y). auto.
Qed.

(** C71. [complete]: exactly the held states with no next element. *)
Theorem C71_complete {T NT AK AV} `{OrdEq T} `{OrdEq NT} (s : ProdStateSet T NT AK AV) x :
  In x (pss_complete s) <-> In x s /\ ps_index x = length (prod_elements (ps_prod x)).
Proof.
  unfold pss_complete. rewrite filter_In. unfold is_complete. rewrite Nat.eqb_eq.
  unfold num_elements, prod_elements. split; intros [A B]; auto.
Qed.

(** C71. Sets compare equal iff they hold the same productions, whatever the positions. *)
Theorem C71_equality {T NT AK AV} `{OrdEq T} `{OrdEq NT} (g : Grammar T NT AK AV) (lay : layout NT)
  (a b : ProdStateSet T NT AK AV) :
  built g -> lay_inj g lay -> pss_built lay a -> pss_built lay b ->
  Forall (fun s => In (ps_prod s) (prods g)) a -> Forall (fun s => In (ps_prod s) (prods g)) b ->
  (pss_eqb lay a b = true <->
   forall p, (exists x, In x a /\ ps_prod x = p) <-> (exists y, In y b /\ ps_prod y = p)) /\
  (pss_cmp lay a b = Eq <-> pss_eqb lay a b = true).
Proof.
  intros B I Ba Bb Fa Fb. split; [|apply pss_cmp_eqb].
  exact (pss_eq_iff lay g B I a b (pss_built_sorted lay a Ba) (pss_built_sorted lay b Bb) Fa Fb).
Qed.

Section Ex.
  Definition st_e0 : ProdState nat nat nat nat :=
    Build_ProdState (hd (Build_Prod 0 0 (Build_ProdInner 0 0 [])) (prods ex_expr_g)) 0.
  Definition st_e1 : ProdState nat nat nat nat := Build_ProdState (ps_prod st_e0) 1.
  Definition st_f : ProdState nat nat nat nat :=
    Build_ProdState (nth 1 (prods ex_expr_g) (Build_Prod 0 0 (Build_ProdInner 0 0 []))) 0.
  (** Concrete sets meeting the hypotheses: different positions, equal sets. *)
  Example C71_example :
    built ex_expr_g /\ lay_inj ex_expr_g ex_lay /\
    Forall (fun s => In (ps_prod s) (prods ex_expr_g)) [st_e0; st_f; st_e1] /\
    In st_e0 (adds ex_lay [st_e0; st_f; st_e1]) /\ ~ In st_e1 (adds ex_lay [st_e0; st_f; st_e1]) /\
    In st_e1 (pss_from_iter ex_lay true [st_e0; st_f; st_e1]) /\
    pss_eqb ex_lay (adds ex_lay [st_e0; st_f]) (adds ex_lay [st_e1; st_f]) = true /\
    map (fun kv => (pe_elem (fst kv), length (snd kv))) (pss_nexts ex_lay (adds ex_lay [st_e0; st_f; st_e1])) =
      [(NonTerm 1, 1); (NonTerm 0, 1)].
  Proof.
    split; [exact built_expr|]. split; [apply ex_lay_inj; vm_compute; reflexivity|].
    split; [repeat constructor; vm_compute; tauto|].
    split; [vm_compute; tauto|]. split; [vm_compute; intuition congruence|].
    split; [vm_compute; tauto|]. split; vm_compute; reflexivity.
  Qed.
End Ex.

(** C51. Partial correctness, for every stateful closure function: nothing is lost; the function is
    called exactly once for each state of the result; everything it returned is in the result up to
    [==]; and the result contains nothing else. *)
Theorem C51_take_closure {T NT AK AV St} `{OrdEq T} `{OrdEq NT} (lay : layout NT)
  (F : ProdState T NT AK AV -> St -> list (ProdState T NT AK AV) * St)
  (s : ProdStateSet T NT AK AV) st n s' st' :
  pss_built lay s -> take_closure lay F s st n = Ret (s', st') ->
  exists calls,
    take_closure lay (logged F) s (st, []) n = Ret (s', (st', calls)) /\
    incl s s' /\ Permutation (map fst calls) s' /\
    (forall x ys y, In (x, ys) calls -> In y ys -> exists z, In z s' /\ ps_eqb lay y z = true) /\
    (forall y, In y s' -> In y s \/ exists x ys, In (x, ys) calls /\ In y ys) /\
    (forall x ys, In (x, ys) calls -> exists st0, fst (F x st0) = ys) /\
    (forall x y, In x s' -> In y s' -> ps_eqb lay x y = true -> x = y).
Proof.
  intros B E. apply pss_built_sorted in B. apply take_closure_logged in E. destruct E as (calls & E).
  exists calls. destruct (take_closure_facts lay F s st n s' st' calls B E) as (A1 & A2 & A3 & A4 & A5).
  split; [exact E|]. split; [exact A2|]. split; [exact A3|]. split; [exact A4|]. split; [exact A5|].
  split; [exact (take_closure_calls lay F s st n s' st' calls E)|].
  intros x y Ix Iy X. apply (@sorted_eq_unique _ (Ord_ProdState lay) (TotalPre_PS lay) s' x y A1 Ix Iy).
  apply eqb_cmp. exact X.
Qed.

(** C51. For a function of the state alone: the result is closed up to [==] and every member is
    reachable from a member of the original set. *)
Theorem C51_closed {T NT AK AV} `{OrdEq T} `{OrdEq NT} (lay : layout NT)
  (f : ProdState T NT AK AV -> list (ProdState T NT AK AV)) (s : ProdStateSet T NT AK AV) n s' u :
  pss_built lay s -> take_closure lay (fun x st => (f x, st)) s tt n = Ret (s', u) ->
  incl s s' /\
  (forall x y, In x s' -> In y (f x) -> exists z, In z s' /\ ps_eqb lay y z = true) /\
  (forall y, In y s' -> exists x, In x s /\ star (fun a b => In b (f a)) x y).
Proof.
  intros B E. destruct (C51_take_closure lay _ s tt n s' u B E) as (calls & E' & A2 & A3 & A4 & A5 & A6 & A7).
  split; [exact A2|]. split.
  - intros x y Ix Iy. apply (Permutation_in _ (Permutation_sym A3)) in Ix. apply in_map_iff in Ix.
    destruct Ix as ([x' ys] & <- & Ic). apply (A4 x' ys y Ic). destruct (A6 x' ys Ic) as (st0 & <-). exact Iy.
  - (* every state satisfies the invariant "reachable": run the loop with that invariant *)
    pose (R := fun y => exists x, In x s /\ star (fun a b => In b (f a)) x y).
    assert (G : forall n seen curr l st' s1, tc_loop lay (fun x (st : unit) => (f x, st)) n seen curr l = Ret (s1, st') ->
      Forall R seen -> Forall R curr -> Forall R s1).
    { clear - f lay. induction n as [|n IH]; intros seen curr l st' s1 E Fs Fc; [discriminate|]. cbn [tc_loop] in E.
      destruct (tc_round_R lay (fun x (st : unit) => (f x, st)) R) with (curr := curr) (seen := seen)
        (next := @nil (ProdState T NT AK AV)) (st := l) as [G1 G2]; auto.
      { intros x st y (x0 & I0 & S0) Iy. exists x0. split; [exact I0|]. exact (star_step _ _ x y S0 Iy). }
      unfold ProdStateSet, btset in *.
      destruct (tc_round lay (fun x (st : unit) => (f x, st)) curr (seen, [], l)) as [[seen1 next] st1].
      cbn [fst snd] in *. destruct next as [|a next]; [injection E as <- <-; exact G1|]. exact (IH _ _ _ _ _ E G1 G2). }
    assert (F0 : Forall R s).
    { apply Forall_forall. intros x I. exists x. split; [exact I | apply star_refl]. }
    pose proof (G n s s tt u s' E F0 F0) as F1. rewrite Forall_forall in F1. exact F1.
Qed.

(** C51. Termination: whenever the states reachable by the function are finitely many up to [==]. *)
Theorem C51_terminates {T NT AK AV} `{OrdEq T} `{OrdEq NT} (lay : layout NT)
  (f : ProdState T NT AK AV -> list (ProdState T NT AK AV)) (s : ProdStateSet T NT AK AV) :
  pss_built lay s ->
  (exists univ, forall x y, In x s -> star (fun a b => In b (f a)) x y ->
     exists u, In u univ /\ ps_eqb lay y u = true) ->
  exists s', runs_to (take_closure lay (fun x st => (f x, st)) s tt) (Ret (s', tt)).
Proof.
  intros B (univ & U). apply pss_built_sorted in B.
  destruct (take_closure_terminates lay (fun x (st : unit) => (f x, st))
    (fun y => exists x, In x s /\ star (fun a b => In b (f a)) x y) univ) with (s := s) (st := tt)
    as (s' & [] & Rn).
  - intros x st y (x0 & I0 & S0) Iy. exists x0. split; [exact I0|]. exact (star_step _ _ x y S0 Iy).
  - intros y (x & I & S). exact (U x y I S).
  - exact B.
  - apply Forall_forall. intros x I. exists x. split; [exact I | apply star_refl].
  - exists s'. exact Rn.
Qed.

(** C51. In particular for every closure function, stateful or not, that yields states of one grammar. *)
Theorem C51_terminates_in_grammar {T NT AK AV St} `{OrdEq T} `{OrdEq NT} (g : Grammar T NT AK AV) (lay : layout NT)
  (F : ProdState T NT AK AV -> St -> list (ProdState T NT AK AV) * St) (s : ProdStateSet T NT AK AV) st :
  pss_built lay s -> Forall (fun x => In (ps_prod x) (prods g)) s ->
  (forall x st y, In (ps_prod x) (prods g) -> In y (fst (F x st)) -> In (ps_prod y) (prods g)) ->
  exists s' st', runs_to (take_closure lay F s st) (Ret (s', st')).
Proof.
  intros B Fs Cl. apply pss_built_sorted in B.
  apply (take_closure_terminates lay F (fun x => In (ps_prod x) (prods g)) (map from_start (prods g))); auto.
  intros y Iy. exists (from_start (ps_prod y)). split; [apply in_map; exact Iy|].
  unfold ps_eqb, prod_eqb. apply N.eqb_refl.
Qed.

(** C51. When the function treats equal states alike, the result holds, up to [==], exactly the states
    reachable from the original set. *)
Theorem C51_exact {T NT AK AV} `{OrdEq T} `{OrdEq NT} (lay : layout NT)
  (f : ProdState T NT AK AV -> list (ProdState T NT AK AV)) (s : ProdStateSet T NT AK AV) n s' u :
  pss_built lay s -> take_closure lay (fun x st => (f x, st)) s tt n = Ret (s', u) ->
  (forall a b, ps_eqb lay a b = true ->
     forall y, In y (f a) -> exists z, In z (f b) /\ ps_eqb lay y z = true) ->
  forall p, (exists y, In y s' /\ ps_eqb lay p y = true) <->
    (exists x y, In x s /\ star (fun a b => In b (f a)) x y /\ ps_eqb lay p y = true).
Proof.
  intros B E Re p. destruct (C51_closed lay f s n s' u B E) as (A1 & A2 & A3).
  assert (Tr : forall a b c : ProdState T NT AK AV, ps_eqb lay a b = true -> ps_eqb lay b c = true -> ps_eqb lay a c = true).
  { unfold ps_eqb, prod_eqb. intros a b c. rewrite !N.eqb_eq. congruence. }
  assert (Sy : forall a b : ProdState T NT AK AV, ps_eqb lay a b = true -> ps_eqb lay b a = true).
  { unfold ps_eqb, prod_eqb. intros a b. rewrite !N.eqb_eq. congruence. }
  split.
  - intros (y & Iy & Ey). destruct (A3 y Iy) as (x & Ix & S). exists x, y. auto.
  - intros (x & y & Ix & S & Ey).
    assert (G : exists z, In z s' /\ ps_eqb lay y z = true).
    { clear Ey. induction S as [|y z S IH Hz].
      - exists x. split; [exact (A1 x Ix)|]. unfold ps_eqb, prod_eqb. apply N.eqb_refl.
      - destruct IH as (w & Iw & Ew). destruct (Re y w Ew z Hz) as (v & Iv & Ev).
        destruct (A2 w v Iw Iv) as (v' & Iv' & Ev'). exists v'. split; [exact Iv' | exact (Tr _ _ _ Ev Ev')]. }
    destruct G as (z & Iz & Ez). exists z. split; [exact Iz | exact (Tr _ _ _ Ey Ez)].
Qed.

(** The usual LR(0) closure function on the expression grammar, from the start production. *)
Definition ex_close (x : ProdState nat nat nat nat) : list (ProdState nat nat nat nat) :=
  match next_elem x with
  | Some (NonTerm A) => map from_start (filter (fun p => Nat.eqb (p_head p) A) (prods ex_expr_g))
  | _ => []
  end.
Example C51_example :
  pss_built ex_lay (adds ex_lay [st_e0]) /\
  (forall x y, In y (ex_close x) -> In (ps_prod y) (prods ex_expr_g)) /\
  exists s', runs_to (take_closure ex_lay (fun x st => (ex_close x, st)) (adds ex_lay [st_e0]) tt) (Ret (s', tt)) /\
    length s' = 4.
Proof.
  split; [apply pb_add; apply pb_empty|]. split.
  - intros x y. unfold ex_close. destruct (next_elem x) as [[t|A]|]; [intros [] | | intros []].
    intro I. apply in_map_iff in I. destruct I as (p & <- & I). apply filter_In in I. apply I.
  - eexists. split.
    + apply runs_to_mono with (n := 4); [|vm_compute; reflexivity | discriminate].
      unfold take_closure. apply tc_loop_mono.
    + reflexivity.
Qed.

(** A closure function that depends on the production only, so the hypothesis of [C51_exact] is met. *)
Definition ex_close_prod (x : ProdState nat nat nat nat) : list (ProdState nat nat nat nat) :=
  map from_start (filter (fun p => N.leb (ex_lay (p_head p) (p_ix p)) (ex_lay (p_head (ps_prod x)) (p_ix (ps_prod x)) + 4096)) (prods ex_expr_g)).
Example C51_exact_example :
  (forall a b, ps_eqb ex_lay a b = true ->
     forall y, In y (ex_close_prod a) -> exists z, In z (ex_close_prod b) /\ ps_eqb ex_lay y z = true) /\
  exists s', runs_to (take_closure ex_lay (fun x st => (ex_close_prod x, st)) (adds ex_lay [st_e1]) tt) (Ret (s', tt)) /\
    length s' = 4.
Proof.
  split.
  - intros a b E y Iy. exists y. split; [|unfold ps_eqb, prod_eqb; apply N.eqb_refl].
    unfold ex_close_prod in *. unfold ps_eqb, prod_eqb in E. apply N.eqb_eq in E. rewrite <- E. exact Iy.
  - eexists. split.
    + apply runs_to_mono with (n := 4); [|vm_compute; reflexivity | discriminate].
      unfold take_closure. apply tc_loop_mono.
    + reflexivity.
Qed.

Print Assumptions C49_position.
Print Assumptions C49_enumerates.
Print Assumptions C50_add_holds_refuted.
Print Assumptions C71_adds.
Print Assumptions C71_nexts.
Print Assumptions C71_complete.
Print Assumptions C71_equality.
Print Assumptions C51_take_closure.
Print Assumptions C51_closed.
Print Assumptions C51_terminates.
Print Assumptions C51_terminates_in_grammar.
Print Assumptions C51_exact.
