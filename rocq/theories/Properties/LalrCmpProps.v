(** C103: comparison of LALR parse states (src/parsers/lalr.rs). *)
From Coq Require Import String List Arith Lia NArith Sorted.
From Verif.Model Require Import Ord BTree Outcome Grammar Nullable Firsts State Lalr Compare.
From Verif.Spec Require Import Reach Cfg NullSpec BuildSpec StateSpec LalrSpec LalrMeaning CmpSpec Examples.
From Verif.Proofs Require Import OrdFacts BTreeFacts LoopFacts GrammarFacts BuildMore CfgFacts NullableFacts NullableMore FirstsMore
  StateFacts StateSets LalrFacts LalrMore LalrMain LalrActions LalrMeaningFacts CompareFacts.
From Verif.Properties Require Import LalrProps LalrMeaningProps.
Import ListNotations.

(** Same productions in the same order, with the same lookaheads; the positions do not count. *)
Definition same_prods {T NT AK AV} (a b : ProdState T NT AK AV * list T) : Prop :=
  (p_head (ps_prod (fst a)) = p_head (ps_prod (fst b)) /\ p_ix (ps_prod (fst a)) = p_ix (ps_prod (fst b))) /\ snd a = snd b.

(** C103.  The comparisons of parse states agree with each other and are a total order, in which states are equal exactly when
    they have the same productions with the same lookaheads. *)
Theorem C103_lawful {T NT AK AV : Type} (lay : layout NT) (RT : Cmp T) :
  (forall A i B j, lay A i = lay B j -> A = B /\ i = j) -> lawful RT ->
  lawful_upto (Forall2 same_prods) (C_ParseState lay RT : Cmp (list (ProdState T NT AK AV * list T))).
Proof.
  intros Lay LT. pose proof (lawful_ProdState (T := T) (AK := AK) (AV := AV) lay Lay) as LP. apply lawful_vec, lawful_of in LT. apply lawful_of in LP.
  pose proof (lo_vec _ _ _ (lo_pair _ _ _ _ _ _ LP LT)) as L.
  apply lawful_of. assert (X : forall x : list (ProdState T NT AK AV * list T), Forall (fun x => True /\ True) x) by (intro x; apply Forall_forall; auto).
  destruct L as [E Pa Q O Tr Co].
  constructor; cbn [C_ParseState c_eq c_partial c_cmp]; intros; [apply E|reflexivity|apply Q|apply O|eapply Tr; eauto|apply Co; auto]; auto.
Qed.

Section S.
  Context {T NT AK AV : Type} `{OrdEq T} `{OrdEq NT}.
  Local Notation PState := (list (ProdState T NT AK AV * list T)).

  Lemma iter_cmp_Eq {A} (f : A -> A -> comparison) (x y : list A) : iter_cmp f x y = Eq <-> Forall2 (fun a b => f a b = Eq) x y.
  Proof.
    revert y. induction x as [|a x IH]; intros [|b y]; simpl; (split; intro E).
    all: try discriminate; try (inversion E; fail); try (constructor; fail).
    - destruct (f a b) eqn:Q; [|discriminate|discriminate]. constructor; [exact Q|]. apply IH. exact E.
    - inversion E as [|? ? ? ? E1 E2]. subst. rewrite E1. apply IH. exact E2.
  Qed.

  #[local] Hint Extern 0 (Ord (ProdState _ _ _ _)) => match goal with lay : layout _ |- _ => exact (Ord_ProdState lay) end : typeclass_instances.

  (** Two entries compare equal when they have the same production and the same lookaheads. *)
  Lemma entry_eq (lay : layout NT) (g : Grammar T NT AK AV) (a b : ProdState T NT AK AV * list T) :
    built g -> lay_inj g lay -> item_of g a -> item_of g b ->
    (c_cmp (C_pair (C_ProdState lay) (C_vec C_of)) a b = Eq <-> ps_prod (fst a) = ps_prod (fst b) /\ snd a = snd b).
  Proof.
    intros B I (A1 & _) (A2 & _). destruct a as [s ts], b as [s' ts']. cbn [fst snd] in *.
    change (c_cmp (C_pair (C_ProdState lay) (C_vec C_of)) (s, ts) (s', ts')) with (then_cmp (Ord_ProdState lay s s') (iter_cmp cmp ts ts')).
    rewrite iter_cmp_list. pose proof (cmp_eq_prod lay g B I s s' A1 A2) as Q. unfold cmp in Q at 1. destruct (Ord_ProdState lay s s') eqn:E; simpl.
    - split; [intro X; split; [apply Q; reflexivity|apply cmp_eq; exact X]|intros [_ ->]; apply cmp_refl].
    - split; [discriminate|]. intros [X _]. apply Q in X. discriminate.
    - split; [discriminate|]. intros [X _]. apply Q in X. discriminate.
  Qed.

  (** C103.  Parse states compare equal exactly when they have the same productions with the same lookaheads: the positions
      within the productions do not matter. *)
  Theorem C103_equal_exact (lay : layout NT) (g : Grammar T NT AK AV) kl (m m' : ParseState T NT AK AV) :
    built g -> lay_inj g lay -> lalr_state lay g kl m -> lalr_state lay g kl m' ->
    (c_cmp (C_ParseState lay C_of) m m' = Eq <->
     forall p ts, (exists s, In (s, ts) m /\ ps_prod s = p) <-> (exists s, In (s, ts) m' /\ ps_prod s = p)).
  Proof.
    intros B I L L'. pose proof (lalr_state_ok lay g B I kl m L) as O. pose proof (lalr_state_ok lay g B I kl m' L') as O'. clear L L'.
    change (c_cmp (C_ParseState lay C_of) m m') with (iter_cmp (c_cmp (C_pair (C_ProdState (T := T) (AK := AK) (AV := AV) lay) (C_vec C_of))) m m').
    rewrite iter_cmp_Eq. split.
    - intros F p ts. assert (F' : Forall2 (fun a b : ProdState T NT AK AV * list T => ps_prod (fst a) = ps_prod (fst b) /\ snd a = snd b) m m').
      { destruct O as [_ O], O' as [_ O']. clear -F O O' B I H0 H2. induction F as [|a b x y E F IH]; constructor.
        - inversion O. inversion O'. subst. apply (entry_eq lay g); assumption.
        - inversion O. inversion O'. subst. apply IH; assumption. }
      clear -F'. induction F' as [|[s1 t1] [s2 t2] x y [E1 E2] F IH]; [split; intros (s & [] & _)|]. cbn [fst snd] in *. subst t2.
      split; intros (s & [[= <- <-]|J] & E).
      + exists s2. split; [left; reflexivity|congruence].
      + destruct (proj1 IH) as (s' & J' & E'); [eauto|]. exists s'. split; [right; exact J'|exact E'].
      + exists s1. split; [left; reflexivity|congruence].
      + destruct (proj2 IH) as (s' & J' & E'); [eauto|]. exists s'. split; [right; exact J'|exact E'].
    - revert m' O'. induction m as [|[s ts] m IH]; intros [|[s' ts'] m'] O' Q.
      + constructor.
      + destruct (proj2 (Q (ps_prod s') ts')) as (s0 & [] & _). exists s'. split; [left|]; reflexivity.
      + destruct (proj1 (Q (ps_prod s) ts)) as (s0 & [] & _). exists s. split; [left|]; reflexivity.
      + destruct O as [Ms F], O' as [Ms' F']. pose proof Ms as Ms0. pose proof Ms' as Ms0'. pose proof F as F0. pose proof F' as F0'.
        unfold msorted in Ms, Ms'. cbn [map bt_keys fst] in Ms, Ms'. apply sorted_inv in Ms, Ms'. destruct Ms as [Ms Hd], Ms' as [Ms' Hd'].
        inversion F as [|? ? G1 G2]. inversion F' as [|? ? G1' G2']. subst.
        rewrite Forall_forall in Hd, Hd', G2, G2'.
        assert (E : ps_prod s = ps_prod s').
        { destruct (proj1 (Q (ps_prod s) ts)) as (s1 & [[= <- <-]|J1] & E1); [exists s; split; [left|]; reflexivity|congruence|].
          destruct (proj2 (Q (ps_prod s') ts')) as (s2 & [[= <- <-]|J2] & E2); [exists s'; split; [left|]; reflexivity|congruence|].
          exfalso. specialize (Hd s2 (in_map fst _ _ J2)). specialize (Hd' s1 (in_map fst _ _ J1)).
          unfold cmp, Ord_ProdState, prod_cmp in Hd, Hd'. rewrite E2 in Hd. rewrite E1 in Hd'.
          rewrite N.compare_antisym, Hd' in Hd. discriminate. }
        assert (Et : ts = ts').
        { destruct (proj1 (Q (ps_prod s) ts)) as (s1 & J1 & E1); [exists s; split; [left|]; reflexivity|].
          refine (proj2 (state_ok_uniq lay g _ s1 ts s' ts' (conj Ms0' F0') J1 (or_introl eq_refl) _)). congruence. }
        constructor.
        * apply (entry_eq lay g _ _ B I); [exact G1|exact G1'|]. split; assumption.
        * apply IH; [split; [exact Ms|apply Forall_forall; exact G2]|split; [exact Ms'|apply Forall_forall; exact G2']|].
          assert (N1 : forall s2 t2, In (s2, t2) m -> ps_prod s2 <> ps_prod s).
          { intros s2 t2 J X. specialize (Hd s2 (in_map fst _ _ J)). pose proof (cmp_prod_refl lay s s2 (eq_sym X)) as C. unfold cmp in *. congruence. }
          assert (N2 : forall s2 t2, In (s2, t2) m' -> ps_prod s2 <> ps_prod s').
          { intros s2 t2 J X. specialize (Hd' s2 (in_map fst _ _ J)). pose proof (cmp_prod_refl lay s' s2 (eq_sym X)) as C. unfold cmp in *. congruence. }
          intros p t. split; intros (s2 & J & <-).
          -- destruct (proj1 (Q (ps_prod s2) t)) as (s3 & [[= <- <-]|J3] & E3); [exists s2; split; [right; exact J|reflexivity]| |eauto].
             exfalso. apply (N1 _ _ J). congruence.
          -- destruct (proj2 (Q (ps_prod s2) t)) as (s3 & [[= <- <-]|J3] & E3); [exists s2; split; [right; exact J|reflexivity]| |eauto].
             exfalso. apply (N2 _ _ J). congruence.
  Qed.

  Lemma single_closure (g : Grammar T NT AK AV) (item : ProdState T NT AK AV -> list T -> Prop) s0 la :
    (forall s ts, item s ts <-> s = s0 /\ ts = la) -> (forall A rest, todo s0 <> NonTerm A :: rest) ->
    (forall s, present g item s <-> s = s0) /\ (forall p t, carries g item p t <-> p = ps_prod s0 /\ In t la).
  Proof.
    intros It Nt.
    assert (X : (forall p t, carries g item p t -> p = ps_prod s0 /\ In t la) /\ (forall s, present g item s -> s = s0) /\ (forall s t, looks g item s t -> s <> s0)).
    { apply (closure_mut T NT AK AV g item (fun p t _ => p = ps_prod s0 /\ In t la) (fun s _ => s = s0) (fun s t _ => s <> s0)).
      - intros s ts t J Jt. apply It in J. destruct J as [-> ->]. auto.
      - intros s A rest p t _ E Td _ _ _ _. subst s. destruct (Nt _ _ Td).
      - intros s ts J. apply It in J. tauto.
      - intros p t _ [-> _] N. exfalso. apply (N s0 la); [apply It; auto|reflexivity].
      - intros s A t rest Td E. subst s. destruct (Nt _ _ Td).
      - intros s A C rest t Td _ E. subst s. destruct (Nt _ _ Td).
      - intros s A t Td _ _ E. subst s. destruct (Nt _ _ Td). }
    destruct X as (X1 & X2 & _). split.
    - intro s. split; [apply X2|]. intros ->. apply (present_item g item s0 la). apply It. auto.
    - intros p t. split; [apply X1|]. intros [-> J]. apply (carries_item g item s0 la t); [apply It; auto|exact J].
  Qed.

  Lemma single_state (lay : layout NT) (g : Grammar T NT AK AV) (m : ParseState T NT AK AV) s0 la :
    built g -> lay_inj g lay -> state_ok lay g m -> StronglySorted (fun a b => cmp a b = Lt) la ->
    (forall s, (exists ts, In (s, ts) m) <-> s = s0) -> (forall s ts, In (s, ts) m -> forall t, In t ts <-> In t la) -> m = [(s0, la)].
  Proof.
    intros B I O So P V. destruct (proj2 (P s0) eq_refl) as (ts & J).
    assert (X : forall x, In x m -> x = (s0, la)).
    { intros [s ts'] Jx. assert (s = s0) by (apply P; eauto). subst s. f_equal. apply sorted_ext; [|exact So|exact (V _ _ Jx)].
      destruct O as [_ F]. rewrite Forall_forall in F. apply (F _ Jx). }
    destruct m as [|x [|y m]]; [destruct J|rewrite (X x (or_introl eq_refl)); reflexivity|exfalso].
    rewrite (X x (or_introl eq_refl)) in O. pose proof (X y (or_intror (or_introl eq_refl))). subst y.
    destruct O as [Ms _]. unfold msorted in Ms. apply sorted_inv in Ms. destruct Ms as [_ Hd]. inversion Hd as [|? ? C _]. unfold cmp in C. cbn [fst] in C.
    pose proof (cmp_prod_refl lay s0 s0 eq_refl) as C'. unfold cmp in C'. congruence.
  Qed.

  (** C103.  REFUTED: that a parse state and the one after shifting a terminal compare different.  For every production that
      begins with a terminal not followed by a nonterminal, they compare equal, whatever the layout and the lookaheads. *)
  Theorem C103_different_refuted (lay : layout NT) (g : Grammar T NT AK AV) kl (p : Prod T NT AK AV) a rest (la : btset T) :
    built g -> lay_inj g lay -> ~ null_ambiguous g -> In p (prods g) -> elements p = Term a :: rest ->
    (forall A r, rest <> NonTerm A :: r) -> StronglySorted (fun a b => cmp a b = Lt) la ->
    exists m acts m',
      runs_to (fun n => from_prod_lookahead lay g kl [(from_start p, la)] n) (Ret (Ok m)) /\
      runs_to (fun n => shift_actions lay g kl m n) (Ret (Ok acts)) /\ In (a, m') acts /\
      m <> m' /\ c_cmp (C_ParseState lay C_of) m m' = Eq /\ c_eq (C_ParseState lay C_of) m m' = true.
  Proof.
    intros B I Na Ip El Nr So.
    assert (F : Forall (item_of g) [(from_start p, la)]).
    { constructor; [|constructor]. split; [exact Ip|]. split; [apply pos_start|exact So]. }
    assert (K : forall s ts, kept kl [(from_start p, la)] s ts <-> s = from_start p /\ ts = la).
    { intros s ts. rewrite (kept_all lay g B I kl [(from_start p, la)] s ts F).
      - simpl. split; [intros [E|[]]; injection E; auto|intros [-> ->]; auto].
      - intros s1 t1 s2 t2 [[= <- <-]|[]] [[= <- <-]|[]] _. auto. }
    destruct (single_closure g _ (from_start p) la K) as [P1 C1].
    { intros A r Td. unfold todo in Td. cbn [from_start ps_index ps_prod skipn] in Td. rewrite El in Td. discriminate. }
    destruct (C72_from_prod_lookahead lay g kl _ B I F) as (r & R & S). destruct r as [[m|e]|msg|]; [|destruct (Na (proj2 S))|exfalso|contradiction].
    2:{ destruct S as (_ & s & Ps & (A & C & r & Td & _)). apply P1 in Ps. subst s. unfold todo in Td. cbn [from_start ps_index ps_prod skipn] in Td. rewrite El in Td. discriminate. }
    assert (L : lalr_state lay g kl m) by (eapply ls_items; eauto).
    assert (Em : m = [(from_start p, la)]).
    { destruct S as (_ & _ & S1 & S2 & _). apply (single_state lay g); [exact B|exact I|exact (lalr_state_ok lay g B I kl m L)|exact So| |].
      - intro s. rewrite S1. apply P1.
      - intros s ts J t. rewrite (proj2 (S2 s ts J) t). rewrite C1. split; [tauto|]. intro It. split; [|exact It].
        assert (s = from_start p) by (apply P1, S1; eauto). subst s. reflexivity. }
    set (s1 := Build_ProdState p 1 : ProdState T NT AK AV).
    assert (K1 : forall s ts, moved m a s ts <-> s = s1 /\ ts = la).
    { intros s ts. subst m. split.
      - intros (s2 & r2 & [[= <- <-]|[]] & _ & ->). auto.
      - intros [-> ->]. exists (from_start p), rest. split; [left; reflexivity|]. split; [exact El|reflexivity]. }
    destruct (single_closure g _ s1 la K1) as [P2 C2].
    { intros A r Td. unfold todo in Td. cbn [s1 ps_index ps_prod] in Td. rewrite El in Td. simpl in Td. exact (Nr _ _ Td). }
    destruct (C73_shift_actions lay g kl m B I L) as (r & R' & S'). destruct r as [[acts|e]|msg|]; [|exfalso|exfalso|contradiction].
    2:{ exact (Na (proj1 (proj2 S'))). }
    2:{ destruct S' as (_ & t & s & Ps & (A & C & r & Td & _)). destruct (OrdEq_dec t a) as [->|Nt].
        - apply P2 in Ps. subst s. unfold todo in Td. cbn [s1 ps_index ps_prod] in Td. rewrite El in Td. simpl in Td. exact (Nr _ _ Td).
        - assert (X : (forall p' t', carries g (moved m t) p' t' -> False) /\ (forall s, present g (moved m t) s -> False) /\ (forall s t', looks g (moved m t) s t' -> True)).
          { apply (closure_mut T NT AK AV g (moved m t) (fun _ _ _ => False) (fun _ _ => False) (fun _ _ _ => True)); auto.
            - intros s2 ts2 t2 (s3 & r3 & J & Td3 & _) _. subst m. destruct J as [[= <- <-]|[]]. unfold todo in Td3. cbn [from_start ps_index ps_prod skipn] in Td3. congruence.
            - intros s2 ts2 (s3 & r3 & J & Td3 & _). subst m. destruct J as [[= <- <-]|[]]. unfold todo in Td3. cbn [from_start ps_index ps_prod skipn] in Td3. congruence. }
          exact (proj1 (proj2 X) _ Ps). }
    destruct S' as (_ & S1 & S2).
    destruct (proj2 (S1 a)) as (m' & J). { exists (from_start p), la, rest. split; [rewrite Em; left; reflexivity|exact El]. }
    assert (L' : lalr_state lay g kl m') by (eapply ls_shift; eauto).
    assert (Em' : m' = [(s1, la)]).
    { destruct (S2 a m' J) as (V1 & V2 & _). apply (single_state lay g); [exact B|exact I|exact (lalr_state_ok lay g B I kl m' L')|exact So| |].
      - intro s. rewrite V1. apply P2.
      - intros s ts Js t. rewrite (V2 s ts Js t). rewrite C2. split; [tauto|]. intro It. split; [|exact It].
        assert (s = s1) by (apply P2, V1; eauto). subst s. reflexivity. }
    assert (Q : c_cmp (C_ParseState lay C_of) m m' = Eq).
    { apply (C103_equal_exact lay g kl m m' B I L L'). intros q ts. subst m m'. split; intros (s & [[= <- <-]|[]] & <-); eexists; (split; [left; reflexivity|reflexivity]). }
    exists m, acts, m'. split; [exact R|]. split; [exact R'|]. split; [exact J|]. split; [subst m m'; unfold s1, from_start; congruence|]. split; [exact Q|].
    change (c_eq (C_ParseState lay C_of) m m') with (c_eq (C_vec (C_pair (C_ProdState lay) (C_vec (C_of (A := T))))) m m').
    assert (E1 : c_eq (C_vec (C_of (A := T))) la la = true).
    { cbn [c_eq C_vec C_of]. rewrite Nat.eqb_refl. clear -H0. induction la as [|x l IH]; [reflexivity|]. simpl. rewrite eqb_refl. exact IH. }
    assert (E2 : c_eq (C_ProdState (T := T) (AK := AK) (AV := AV) lay) (from_start p) s1 = true).
    { cbn [c_eq C_ProdState]. unfold ps_eqb, from_start, s1, prod_eqb, prod_cmp. cbn [ps_prod]. rewrite ?N.compare_refl, ?N.eqb_refl. reflexivity. }
    subst m m'. change (((c_eq (C_ProdState (T := T) (AK := AK) (AV := AV) lay) (from_start p) s1 && c_eq (C_vec (C_of (A := T))) la la) && true)%bool = true).
    rewrite E1, E2. reflexivity.
  Qed.
End S.

(** The production F -> id of the expression grammar meets the hypotheses: the states of F -> . id and F -> id . compare equal. *)
Definition ex_id : Prod nat nat nat nat := Build_Prod 1 0 (Build_ProdInner 12 0 [Build_ProdElement (Some "id"%string) (Term 0)]).
Example C103_example : built ex_expr_g /\ lay_inj ex_expr_g ex_lay /\ ~ null_ambiguous ex_expr_g /\ In ex_id (prods ex_expr_g) /\
  elements ex_id = [Term 0] /\
  exists acts m m', runs_to (fun n => from_prod_lookahead ex_lay ex_expr_g false [(from_start ex_id, [5])] n) (Ret (Ok m)) /\
    runs_to (fun n => shift_actions ex_lay ex_expr_g false m n) (Ret (Ok acts)) /\ In (0, m') acts /\ m <> m' /\
    c_cmp (C_ParseState ex_lay C_of) m m' = Eq.
Proof.
  assert (B := built_expr). assert (I : lay_inj ex_expr_g ex_lay) by (apply ex_lay_inj; vm_compute; reflexivity).
  assert (Na := nf_unamb ex_expr_g ex_expr_nullfree). assert (Ip : In ex_id (prods ex_expr_g)) by (vm_compute; auto).
  do 5 (split; [assumption || reflexivity|]).
  destruct (C103_different_refuted ex_lay ex_expr_g false ex_id 0 [] [5] B I Na Ip eq_refl) as (m & acts & m' & A1 & A2 & A3 & A4 & A5 & _).
  - discriminate.
  - repeat constructor.
  - exists acts, m, m'. auto.
Qed.

Print Assumptions C103_lawful.
Print Assumptions C103_equal_exact.
Print Assumptions C103_different_refuted.
