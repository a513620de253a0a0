(** C122: collecting LALR states by shifting (src/parsers/lalr.rs with src/utils.rs [breadth_first_search]). *)
From Coq Require Import String List Arith Lia NArith Sorted.
From Verif.Model Require Import Ord BTree Outcome Utils Grammar Nullable Firsts State Lalr Compare.
From Verif.Spec Require Import Reach Cfg NullSpec BuildSpec StateSpec LalrSpec LalrMeaning CmpSpec AmbigSpec LalrExploreSpec Examples.
From Verif.Proofs Require Import OrdFacts BTreeFacts LoopFacts GrammarFacts BuildMore CfgFacts NullableFacts NullableMore FirstsMore
  StateFacts StateSets LalrFacts LalrMore LalrMain LalrActions LalrMeaningFacts CompareFacts EarleyMore LalrExplore.
From Verif.Properties Require Import LalrProps LalrMeaningProps LalrCmpProps.
Import ListNotations.

Section S.
  Context {T NT AK AV : Type} `{OrdEq T} `{OrdEq NT}.
  Variable lay : layout NT.
  Variable g : Grammar T NT AK AV.
  Hypothesis Bg : built g.
  Hypothesis Inj : lay_inj g lay.
  Variable keep_last : bool.
  Local Notation edge := (shift_edge lay g keep_last).
  Local Notation compare := (@cmp (ParseState T NT AK AV) (Ord_ParseState lay)).

  (** C122.  Only finitely many states can be reached by shifting. *)
  Theorem C122_finitely_many m : lalr_state lay g keep_last m -> finitely_many (star edge m).
  Proof. intro L. apply (reachable_finite lay g Bg Inj keep_last m), (lalr_state_ok lay g Bg Inj keep_last m L). Qed.

  (** C122.  Collecting them with [breadth_first_search] always ends.  It panics only if a shift from a reachable state
      does.  Otherwise the states found are reachable by at least one shift, pairwise different, all of them could be shifted from, and
      every state after one of them, or after the first one, compares equal to a state found. *)
  Theorem C122_explore m : lalr_state lay g keep_last m ->
    exists r, runs_to (explore lay g keep_last m) r /\
    match r with
    | Ret found => StronglySorted (fun a b => compare a b = Lt) found /\
        (forall x, In x found -> plus edge m x) /\
        (forall x, x = m \/ In x found -> exists acts, runs_to (fun n => shift_actions lay g keep_last x n) (Ret (Ok acts))) /\
        (forall x y, x = m \/ In x found -> edge x y -> exists z, In z found /\ compare y z = Eq)
    | Panic e => exists x, star edge m x /\ runs_to (fun n => shift_actions lay g keep_last x n) (Panic e)
    | NoFuel => False
    end.
  Proof.
    intro L. destruct (explore_spec lay g Bg Inj keep_last m (lalr_state_ok lay g Bg Inj keep_last m L) (lalr_state_na lay g Bg Inj keep_last m L)) as (r & R & S).
    exists r. split; [exact R|]. destruct r as [found|e|]; [|exact S|exact S]. destruct S as (A1 & A2 & A3 & A4). auto.
  Qed.

  (** C122.  If no two different states reached compare equal, exactly the states reached are found. *)
  Theorem C122_explore_complete m found : lalr_state lay g keep_last m -> runs_to (explore lay g keep_last m) (Ret found) ->
    (forall x y, plus edge m x -> plus edge m y -> compare x y = Eq -> x = y) ->
    forall x, In x found <-> plus edge m x.
  Proof.
    intros L. exact (explore_all lay g Bg Inj keep_last m found (lalr_state_ok lay g Bg Inj keep_last m L) (lalr_state_na lay g Bg Inj keep_last m L)).
  Qed.

  #[local] Hint Extern 0 (Ord (ProdState _ _ _ _)) => exact (Ord_ProdState lay) : typeclass_instances.
  Lemma shift_single (s0 : ProdState T NT AK AV) (la : btset T) a rest : ~ null_ambiguous g -> item_of g (s0, la) -> todo s0 = Term a :: rest ->
    (forall A r, rest <> NonTerm A :: r) ->
    runs_to (fun n => shift_actions lay g keep_last [(s0, la)] n) (Ret (Ok [(a, [(Build_ProdState (ps_prod s0) (S (ps_index s0)), la)])])).
  Proof.
    intros Na It Td Nr. set (s1 := Build_ProdState (ps_prod s0) (S (ps_index s0))).
    assert (O : state_ok lay g [(s0, la)]).
    { split; [constructor; constructor|]. constructor; [exact It|constructor]. }
    assert (Td1 : todo s1 = rest).
    { unfold todo in *. cbn [s1 ps_prod ps_index]. revert Td. generalize (elements (ps_prod s0)). generalize (ps_index s0).
      induction n as [|n IH]; intros [|e l] E; try discriminate; cbn [skipn] in *; [injection E as _ E; exact E|apply IH, E]. }
    assert (K1 : forall s ts, moved [(s0, la)] a s ts <-> s = s1 /\ ts = la).
    { intros s ts. split.
      - intros (s2 & r2 & [[= <- <-]|[]] & _ & ->). auto.
      - intros [-> ->]. exists s0, rest. split; [left; reflexivity|]. split; [exact Td|reflexivity]. }
    destruct (single_closure g _ s1 la K1) as [P1 C1]; [intros A r; rewrite Td1; apply Nr|].
    destruct (shift_spec lay g Bg Inj keep_last _ O) as (r & R & Sp). destruct r as [[acts|e]|msg|].
    - destruct Sp as (Ms & Sr & Ks).
      assert (Ka : forall t st, In (t, st) acts -> t = a /\ st = [(s1, la)]).
      { intros t st I. assert (t = a).
        { destruct (proj1 (Ks t)) as (s & ts & r & [[= <- <-]|[]] & E); [exact (in_map fst _ _ I)|congruence]. }
        subst t. split; [reflexivity|]. destruct (Sr a st I) as (Os & _ & V1 & V2 & _). apply (single_state lay g); [exact Bg|exact Inj|exact Os|apply It| |].
        - intro s. rewrite V1. apply P1.
        - intros s ts Js t. rewrite (V2 s ts Js t), C1. split; [tauto|]. intro Jt. split; [|exact Jt]. assert (s = s1) by (apply P1, V1; eauto). subst s. reflexivity. }
      assert (E : acts = [(a, [(s1, la)])]); [|rewrite E in R; exact R].
      assert (Ia : In a (bt_keys acts)) by (apply Ks; exists s0, la, rest; split; [left; reflexivity|exact Td]).
      destruct acts as [|[t1 st1] [|[t2 st2] acts]]; [destruct Ia| |].
      + destruct (Ka t1 st1 (or_introl eq_refl)) as [-> ->]. reflexivity.
      + exfalso. destruct (Ka t1 st1 (or_introl eq_refl)) as [-> _]. destruct (Ka t2 st2 (or_intror (or_introl eq_refl))) as [-> _].
        unfold msorted, bt_keys in Ms. cbn [map fst] in Ms. apply sorted_inv in Ms. destruct Ms as [_ F]. inversion F as [|? ? C _]. rewrite cmp_refl in C. discriminate.
    - destruct (Na (proj1 (proj2 Sp))).
    - exfalso. destruct Sp as (_ & t & s & Ps & (A & C & r & Tds & _)). destruct (OrdEq_dec t a) as [->|Nt].
      + apply P1 in Ps. subst s. rewrite Td1 in Tds. exact (Nr _ _ Tds).
      + assert (X : (forall p' t', carries g (moved [(s0, la)] t) p' t' -> False) /\ (forall s, present g (moved [(s0, la)] t) s -> False) /\ (forall s t', looks g (moved [(s0, la)] t) s t' -> True)).
        { apply (closure_mut T NT AK AV g (moved [(s0, la)] t) (fun _ _ _ => False) (fun _ _ => False) (fun _ _ _ => True)); auto.
          - intros s2 ts2 t2 (s3 & r3 & [[= <- <-]|[]] & Td3 & _) _. congruence.
          - intros s2 ts2 (s3 & r3 & [[= <- <-]|[]] & Td3 & _). congruence. }
        exact (proj1 (proj2 X) _ Ps).
    - destruct Sp.
  Qed.

  (** C122.  REFUTED: that all states reached are found.  From the start of any production that begins with two terminals
      not followed by a nonterminal, only the state after the first terminal is found; the one after the second is lost. *)
  Theorem C122_all_found_refuted (p : Prod T NT AK AV) a b rest (la : btset T) : ~ null_ambiguous g -> In p (prods g) ->
    elements p = Term a :: Term b :: rest -> (forall A r, rest <> NonTerm A :: r) -> StronglySorted (fun a b => cmp a b = Lt) la ->
    exists m0 m1 m2, runs_to (fun n => from_prod_lookahead lay g keep_last [(from_start p, la)] n) (Ret (Ok m0)) /\
      edge m0 m1 /\ edge m1 m2 /\ runs_to (explore lay g keep_last m0) (Ret [m1]) /\ m2 <> m1.
  Proof.
    intros Na Ip El Nr So.
    set (s0 := from_start p). set (s1 := Build_ProdState p 1 : ProdState T NT AK AV). set (s2 := Build_ProdState p 2 : ProdState T NT AK AV).
    assert (Len : 2 <= List.length (prod_elements p)).
    { apply (f_equal (@List.length _)) in El. unfold elements, elements_iter in El. rewrite map_length in El. cbn [List.length] in El. unfold prod_elements. lia. }
    assert (I0 : item_of g (s0, la)) by (split; [exact Ip|split; [apply pos_start|exact So]]).
    assert (I1 : item_of g (s1, la)) by (split; [exact Ip|split; [apply position_all; lia|exact So]]).
    assert (R0 : runs_to (fun n => shift_actions lay g keep_last [(s0, la)] n) (Ret (Ok [(a, [(s1, la)])]))).
    { apply (shift_single s0 la a (Term b :: rest) Na I0); [exact El|discriminate]. }
    assert (R1 : runs_to (fun n => shift_actions lay g keep_last [(s1, la)] n) (Ret (Ok [(b, [(s2, la)])]))).
    { apply (shift_single s1 la b rest Na I1); [|exact Nr]. unfold todo. cbn [s1 ps_prod ps_index]. rewrite El. reflexivity. }
    assert (F : Forall (item_of g) [(s0, la)]) by (constructor; [exact I0|constructor]).
    assert (K : forall s ts, kept keep_last [(s0, la)] s ts <-> s = s0 /\ ts = la).
    { intros s ts. rewrite (kept_all lay g Bg Inj keep_last [(s0, la)] s ts F).
      - simpl. split; [intros [E|[]]; injection E; auto|intros [-> ->]; auto].
      - intros x1 t1 x2 t2 [[= <- <-]|[]] [[= <- <-]|[]] _. auto. }
    destruct (single_closure g _ s0 la K) as [P1 C1].
    { intros A r Td. unfold todo in Td. cbn [s0 from_start ps_index ps_prod skipn] in Td. rewrite El in Td. discriminate. }
    destruct (C72_from_prod_lookahead lay g keep_last _ Bg Inj F) as (r & R & Sp). destruct r as [[m|e]|msg|]; [|destruct (Na (proj2 Sp))|exfalso|contradiction].
    2:{ destruct Sp as (_ & s & Ps & (A & C & r & Td & _)). apply P1 in Ps. subst s. unfold todo in Td. cbn [s0 from_start ps_index ps_prod skipn] in Td. rewrite El in Td. discriminate. }
    assert (L : lalr_state lay g keep_last m) by (eapply ls_items; eauto).
    assert (Em : m = [(s0, la)]).
    { destruct Sp as (_ & _ & S1 & S2 & _). apply (single_state lay g); [exact Bg|exact Inj|exact (lalr_state_ok lay g Bg Inj keep_last m L)|exact So| |].
      - intro s. rewrite S1. apply P1.
      - intros s ts J t. rewrite (proj2 (S2 s ts J) t). rewrite C1. split; [tauto|]. intro Jt. split; [|exact Jt].
        assert (s = s0) by (apply P1, S1; eauto). subst s. reflexivity. }
    subst m. exists [(s0, la)], [(s1, la)], [(s2, la)]. split; [exact R|].
    split; [exists [(a, [(s1, la)])], a; split; [exact R0|left; reflexivity]|].
    split; [exists [(b, [(s2, la)])], b; split; [exact R1|left; reflexivity]|]. split; [|unfold s1, s2; congruence].
    destruct R0 as [_ (N0 & R0)], R1 as [_ (N1 & R1)]. split; [discriminate|]. exists (N0 + N1 + 3). intros [|[|[|n]]] Ln; try lia.
    assert (C : compare [(s2, la)] [(s1, la)] = Eq).
    { rewrite ord_list. change (then_cmp (then_cmp (Ord_ProdState lay s2 s1) (list_cmp la la)) Eq = Eq).
      pose proof (cmp_prod_refl lay s2 s1 eq_refl) as Q. unfold cmp in Q. rewrite Q.
      pose proof (cmp_refl la) as Q2. change (list_cmp la la = Eq) in Q2. rewrite Q2. reflexivity. }
    set (k := S (S (S n))) in *.
    assert (E0 : shift_states lay g keep_last k [(s0, la)] = Ret [[(s1, la)]]) by (unfold shift_states; rewrite R0 by (unfold k; lia); reflexivity).
    assert (E1 : shift_states lay g keep_last k [(s1, la)] = Ret [[(s2, la)]]) by (unfold shift_states; rewrite R1 by (unfold k; lia); reflexivity).
    unfold explore, breadth_first_search. unfold k at 2.
    change (bs_of_list [[(s0, la)]]) with [[(s0, la)]].
    cbn [bfs_loop bfs_round]. rewrite E0. cbn [obind bfs_round]. cbn [bfs_visit fold_left bs_insert bs_mem bs_add negb].
    cbn [bfs_round]. rewrite E1. cbn [obind bfs_round]. cbn [bfs_visit fold_left bs_insert bs_mem bs_add negb].
    rewrite C. reflexivity.
  Qed.
End S.

(** In the grammar 0 -> 1 2;  1 -> b | b b;  2 -> b c | c, shifting from the state of 0 -> . 1 2 leads to the state after b and the
    state after b b, which compare different: both are found, and nothing else is. *)
Definition ex_ps (A i n : nat) (es : list (Elem nat nat)) (key : nat) : ProdState nat nat nat nat :=
  Build_ProdState (Build_Prod A i (Build_ProdInner key 0 (map (Build_ProdElement None) es))) n.
Definition ex_m0 : ParseState nat nat nat nat :=
  [(ex_ps 0 0 0 [NonTerm 1; NonTerm 2] 10, [5]); (ex_ps 1 0 0 [Term 7] 11, [7; 8]); (ex_ps 1 1 0 [Term 7; Term 7] 12, [7; 8])].
Definition ex_m1 : ParseState nat nat nat nat :=
  [(ex_ps 1 0 1 [Term 7] 11, [7; 8]); (ex_ps 1 1 1 [Term 7; Term 7] 12, [7; 8])].
Definition ex_m2 : ParseState nat nat nat nat := [(ex_ps 1 1 2 [Term 7; Term 7] 12, [7; 8])].
Lemma ex_bbc_nullfree A : ~ derives_empty ex_bbc_g A.
Proof.
  revert A. apply no_empty_body_nullfree. intros A (p & (r & Ir & Ip) & E).
  destruct Ir as [[= <- <-]|[[= <- <-]|[[= <- <-]|[]]]]; simpl in Ip; repeat (destruct Ip as [<-|Ip]; [discriminate|]); destruct Ip.
Qed.
Example C122_example : built ex_bbc_g /\ lay_inj ex_bbc_g ex_lay /\ lalr_state ex_lay ex_bbc_g false ex_m0 /\
  (forall x y, plus (shift_edge ex_lay ex_bbc_g false) ex_m0 x -> plus (shift_edge ex_lay ex_bbc_g false) ex_m0 y ->
    @cmp _ (Ord_ParseState ex_lay) x y = Eq -> x = y) /\
  exists found, runs_to (explore ex_lay ex_bbc_g false ex_m0) (Ret found) /\ forall x, In x found <-> x = ex_m1 \/ x = ex_m2.
Proof.
  assert (B := built_bbc). assert (I : lay_inj ex_bbc_g ex_lay) by (apply ex_lay_inj; vm_compute; reflexivity).
  assert (L : lalr_state ex_lay ex_bbc_g false ex_m0).
  { eapply ls_items with (items := [(ex_ps 0 0 0 [NonTerm 1; NonTerm 2] 10, [5])]); [item_tac|from_vm 10]. }
  split; [exact B|]. split; [exact I|]. split; [exact L|].
  assert (E0 : runs_to (fun n => shift_actions ex_lay ex_bbc_g false ex_m0 n) (Ret (Ok [(7, ex_m1)]))).
  { apply (runs_to_mono _ 10); [apply shift_mono; auto|vm_compute; reflexivity|discriminate]. }
  assert (E1 : runs_to (fun n => shift_actions ex_lay ex_bbc_g false ex_m1 n) (Ret (Ok [(7, ex_m2)]))).
  { apply (runs_to_mono _ 10); [apply shift_mono; auto|vm_compute; reflexivity|discriminate]. }
  assert (E2 : runs_to (fun n => shift_actions ex_lay ex_bbc_g false ex_m2 n) (Ret (Ok []))).
  { apply (runs_to_mono _ 10); [apply shift_mono; auto|vm_compute; reflexivity|discriminate]. }
  assert (St : forall x, star (shift_edge ex_lay ex_bbc_g false) ex_m0 x -> x = ex_m0 \/ x = ex_m1 \/ x = ex_m2).
  { induction 1 as [|y z _ IH (acts & t & R & J)]; [auto|]. destruct IH as [->|[->| ->]].
    - pose proof (runs_to_fun _ _ _ R E0) as Q. injection Q as ->. destruct J as [[= <- <-]|[]]. auto.
    - pose proof (runs_to_fun _ _ _ R E1) as Q. injection Q as ->. destruct J as [[= <- <-]|[]]. auto.
    - pose proof (runs_to_fun _ _ _ R E2) as Q. injection Q as ->. destruct J. }
  assert (Pl : forall x, plus (shift_edge ex_lay ex_bbc_g false) ex_m0 x <-> x = ex_m1 \/ x = ex_m2).
  { intro x. split.
    - intros (y & Sy & (acts & t & R & J)). destruct (St y Sy) as [->|[->| ->]].
      + pose proof (runs_to_fun _ _ _ R E0) as Q. injection Q as ->. destruct J as [[= <- <-]|[]]. auto.
      + pose proof (runs_to_fun _ _ _ R E1) as Q. injection Q as ->. destruct J as [[= <- <-]|[]]. auto.
      + pose proof (runs_to_fun _ _ _ R E2) as Q. injection Q as ->. destruct J.
    - assert (G1 : shift_edge ex_lay ex_bbc_g false ex_m0 ex_m1) by (exists [(7, ex_m1)], 7; split; [exact E0|left; reflexivity]).
      assert (G2 : shift_edge ex_lay ex_bbc_g false ex_m1 ex_m2) by (exists [(7, ex_m2)], 7; split; [exact E1|left; reflexivity]).
      intros [->| ->]; [exists ex_m0; split; [constructor|exact G1]|exists ex_m1; split; [econstructor; [constructor|exact G1]|exact G2]]. }
  assert (Inc : forall x y, plus (shift_edge ex_lay ex_bbc_g false) ex_m0 x -> plus (shift_edge ex_lay ex_bbc_g false) ex_m0 y ->
    @cmp _ (Ord_ParseState ex_lay) x y = Eq -> x = y).
  { intros x y Px Py. apply Pl in Px, Py. destruct Px as [->| ->], Py as [->| ->]; auto; vm_compute; discriminate. }
  split; [exact Inc|].
  destruct (C122_explore ex_lay ex_bbc_g B I false ex_m0 L) as (r & R & S). destruct r as [found|e|].
  - exists found. split; [exact R|]. intro x. rewrite (C122_explore_complete ex_lay ex_bbc_g B I false ex_m0 found L R Inc x). apply Pl.
  - exfalso. destruct S as (x & Sx & Rx). destruct (St x Sx) as [->|[->| ->]];
      [pose proof (runs_to_fun _ _ _ Rx E0)|pose proof (runs_to_fun _ _ _ Rx E1)|pose proof (runs_to_fun _ _ _ Rx E2)]; discriminate.
  - destruct S.
Qed.

(** The production 1 -> b b of the same grammar meets the hypotheses of the refutation. *)
Definition ex_two : Prod nat nat nat nat := ps_prod (ex_ps 1 1 0 [Term 7; Term 7] 12).
Example C122_lost_example : ~ null_ambiguous ex_bbc_g /\ In ex_two (prods ex_bbc_g) /\ elements ex_two = [Term 7; Term 7] /\
  exists m0 m1 m2, runs_to (fun n => from_prod_lookahead ex_lay ex_bbc_g false [(from_start ex_two, [8])] n) (Ret (Ok m0)) /\
    shift_edge ex_lay ex_bbc_g false m0 m1 /\ shift_edge ex_lay ex_bbc_g false m1 m2 /\
    runs_to (explore ex_lay ex_bbc_g false m0) (Ret [m1]) /\ m2 <> m1.
Proof.
  assert (I : lay_inj ex_bbc_g ex_lay) by (apply ex_lay_inj; vm_compute; reflexivity).
  assert (Na := nf_unamb ex_bbc_g ex_bbc_nullfree). assert (Ip : In ex_two (prods ex_bbc_g)) by (vm_compute; auto).
  do 3 (split; [assumption || reflexivity|]).
  apply (C122_all_found_refuted ex_lay ex_bbc_g built_bbc I false ex_two 7 7 [] [8] Na Ip eq_refl); [discriminate|repeat constructor].
Qed.

Print Assumptions C122_finitely_many.
Print Assumptions C122_explore.
Print Assumptions C122_explore_complete.
Print Assumptions C122_all_found_refuted.
