(** C112: productions, their keys, and what a parse tree says about them. *)
From Coq Require Import String List Arith NArith Lia Bool FinFun.
From Verif.Model Require Import Ord BTree Outcome Utils Grammar StartGrammar Tokens Tree State Earley.
From Verif.Spec Require Import Reach Cfg BuildSpec NullSpec TreeSpec EarleySpec KeySpec Examples.
From Verif.Proofs Require Import OrdFacts BTreeFacts LoopFacts GrammarFacts StartFacts BuildMore EarleyMore KeyFacts.
From Verif.Properties Require Import BuildProps EarleyProps.
Import ListNotations.

Section S.
  Context {T NT AK AV : Type} `{OrdEq NT}.

  (** What [prods] lists and what a production says of itself, in terms of the builder calls.  [prods] lists each
      production once, rule by rule in the order of the heads and in the order of the calls within a rule. *)
  Theorem C112_prods (start : NT) (calls : list (gb_call T NT AK AV)) g : runs_to (build start calls) (Ret (Ok g)) ->
    (forall p, In p (prods g) <->
       exists rcs c, last_rule calls (p_head p) rcs /\ nth_error rcs (p_ix p) = Some c /\ p_inner p = spec_prod c) /\
    NoDup (prods g) /\
    (forall i j p q, nth_error (prods g) i = Some p -> nth_error (prods g) j = Some q -> i < j ->
       cmp (p_head p) (p_head q) = Lt \/ (p_head p = p_head q /\ p_ix p < p_ix q)).
  Proof.
    intro R. pose proof (C02_build_content start calls g R) as (_ & So & _ & Tn & Tr).
    assert (W : rs_wf g) by (apply built_rs_wf; exists start, calls; exact R).
    pose proof (rules_ordered (rules g) So) as O. fold (prods g) in O. split; [|split].
    - intro p. rewrite (prods_In g W). split.
      + intros (r & G & N). apply get_rules in G as [I E]; [|exact W]. destruct r as [A ps]. simpl in E. subst A.
        apply (C02_build_content start calls g R) in I as (rcs & L & ->). simpl in N. rewrite nth_error_map in N.
        destruct (nth_error rcs (p_ix p)) as [c|] eqn:En; [|discriminate]. injection N as N. exists rcs, c. auto.
      + intros (rcs & c & L & N & E). exists (Build_RuleInner (p_head p) (map spec_prod rcs)). split; [apply Tr; exact L|].
        simpl. rewrite nth_error_map, N, E. reflexivity.
    - apply ordered_nodup. exact O.
    - exact (ordered_nth _ O).
  Qed.

  (** The accessors of a production agree with each other; asking beyond the end gives [None], not a panic (the
      documentation says otherwise). *)
  Theorem C112_accessors (p : Prod T NT AK AV) :
    (forall i, prod_element_at p i = nth_error (prod_elements p) i) /\
    (forall i, element_at p i = nth_error (elements p) i) /\
    (forall i, element_at p i = None <-> num_elements p <= i) /\
    first_elem p = element_at p 0 /\ num_elements p = length (elements p) /\
    elements p = map pe_elem (prod_elements p) /\ prod_key p = Build_ProdKey (p_head p) (action_key p).
  Proof.
    unfold element_at, prod_element_at, pi_element_at, elements, elements_iter, prod_elements, num_elements, first_elem, prod_key.
    repeat apply conj.
    - reflexivity.
    - intro i. rewrite nth_error_map. reflexivity.
    - intro i. rewrite <- nth_error_None. destruct (nth_error (pi_elements (p_inner p)) i); simpl; split; congruence.
    - destruct (pi_elements (p_inner p)); reflexivity.
    - rewrite map_length. reflexivity.
    - reflexivity.
    - reflexivity.
  Qed.

  (** Head and key identify a production exactly if no rule gives a key twice. *)
  Theorem C112_key_identifies (g : Grammar T NT AK AV) : built g ->
    (keys_distinct g <-> forall p q, In p (prods g) -> In q (prods g) -> prod_key p = prod_key q -> p = q).
  Proof.
    intro Bg. pose proof (built_rs_wf g Bg) as W. split.
    - intros K p q Ip Iq E. apply (prods_In g W) in Ip as (r & G & N). apply (prods_In g W) in Iq as (r' & G' & N').
      unfold prod_key in E. injection E as Eh Ek. rewrite Eh in G. assert (r' = r) as -> by congruence.
      pose proof (key_ix g W K _ _ _ _ _ _ G N N' Ek) as Ei. destruct p as [h i p], q as [h' i' q]; simpl in *. subst.
      congruence.
    - intros U r I. apply NoDup_nth_error. intros i j Li Ej. rewrite map_length in Li.
      destruct (nth_error (r_prods r) i) as [p|] eqn:Ni; [|apply nth_error_None in Ni; lia].
      rewrite !nth_error_map, Ni in Ej. destruct (nth_error (r_prods r) j) as [q|] eqn:Nj; [|discriminate]. simpl in Ej.
      assert (try_get_rule g (r_head r) = Some r) as G by (apply get_rules; auto).
      assert (Build_Prod (r_head r) i p = Build_Prod (r_head r) j q) as E; [|injection E; auto].
      apply U; [apply (prods_In g W); exists r; auto|apply (prods_In g W); exists r; auto|].
      unfold prod_key. simpl. unfold action_key. simpl. congruence.
  Qed.

  (** [build] never looks at keys or values: with other labels its verdict is the same. *)
  Theorem C112_labels_unchecked {AK' AV'} (fk : AK -> AK') (fv : AV -> AV') (start : NT) (calls : list (gb_call T NT AK AV)) :
    let calls' := map (relabel_rule fk fv) calls in
    ((exists g, runs_to (build start calls) (Ret (Ok g))) <-> exists g', runs_to (build start calls') (Ret (Ok g'))) /\
    (forall e, runs_to (build start calls) (Ret (Err e)) <-> runs_to (build start calls') (Ret (Err e))) /\
    (forall m, runs_to (build start calls) (Panic m) <-> runs_to (build start calls') (Panic m)).
  Proof.
    intro calls'.
    assert (Me : forall A B, mentions calls' A B <-> mentions calls A B) by (intros A B; apply mentions_relabel).
    assert (De : forall A, defined calls' A <-> defined calls A) by (intro A; apply defined_relabel).
    assert (Nop : forall A, err_no_prods calls' A <-> err_no_prods calls A).
    { intro A. unfold err_no_prods. subst calls'. rewrite last_relabel. split.
      - intros (rcs & E & L). symmetry in E. apply map_eq_nil in E as ->. exact L.
      - intro L. exists []. auto. }
    assert (Im : forall B, is_mentioned calls' B <-> is_mentioned calls B).
    { intro B. split; intros [A M]; exists A; apply Me; exact M. }
    assert (Un : forall B, err_unreachable calls' start B <-> err_unreachable calls start B).
    { intro B. unfold err_unreachable. rewrite Im, (plus_ext _ _ _ _ Me). reflexivity. }
    assert (Ud : forall B, err_undefined calls' B <-> err_undefined calls B).
    { intro B. unfold err_undefined. rewrite Im, De. reflexivity. }
    destruct (C01_build_verdict start calls) as [[(A & Sa & Na) R]|[Al (U & D & N & [SU EU] & [SD ED] & [SN EN] & V)]];
    destruct (C01_build_verdict start calls') as [[(A' & Sa' & Na') R']|[Al' (U' & D' & N' & [SU' EU'] & [SD' ED'] & [SN' EN'] & V')]].
    - (split; [split|split; [intro e; split|intro msg; split]]).
      + intros [g Rg]. discriminate (runs_to_fun _ _ _ Rg R).
      + intros [g Rg]. discriminate (runs_to_fun _ _ _ Rg R').
      + intro Re. discriminate (runs_to_fun _ _ _ Re R).
      + intro Re. discriminate (runs_to_fun _ _ _ Re R').
      + intro Rm. pose proof (runs_to_fun _ _ _ Rm R) as E. injection E as ->. exact R'.
      + intro Rm. pose proof (runs_to_fun _ _ _ Rm R') as E. injection E as ->. exact R.
    - exfalso. apply Na, De, Al'. apply (star_ext _ _ _ _ Me). exact Sa.
    - exfalso. apply Na', De, Al. apply (star_ext _ _ _ _ Me). exact Sa'.
    - assert (U' = U) as -> by (apply sorted_ext; [assumption..|]; intro B; rewrite EU', EU; apply Un).
      assert (D' = D) as -> by (apply sorted_ext; [assumption..|]; intro B; rewrite ED', ED; apply Ud).
      assert (N' = N) as -> by (apply sorted_ext; [assumption..|]; intro B; rewrite EN', EN; apply Nop).
      destruct V as [(E1 & E2 & E3 & g & R)|[Ne R]]; destruct V' as [(E1' & E2' & E3' & g' & R')|[Ne' R']]; [|tauto|tauto|].
      + (split; [split|split; [intro e; split|intro msg; split]]).
        * eauto.
        * eauto.
        * intro Re. discriminate (runs_to_fun _ _ _ Re R).
        * intro Re. discriminate (runs_to_fun _ _ _ Re R').
        * intro Re. discriminate (runs_to_fun _ _ _ Re R).
        * intro Re. discriminate (runs_to_fun _ _ _ Re R').
      + (split; [split|split; [intro e; split|intro msg; split]]).
        * intros [g Rg]. discriminate (runs_to_fun _ _ _ Rg R).
        * intros [g Rg]. discriminate (runs_to_fun _ _ _ Rg R').
        * intro Re. pose proof (runs_to_fun _ _ _ Re R) as E. injection E as ->. exact R'.
        * intro Re. pose proof (runs_to_fun _ _ _ Re R') as E. injection E as ->. exact R.
        * intro Re. discriminate (runs_to_fun _ _ _ Re R).
        * intro Re. discriminate (runs_to_fun _ _ _ Re R').
  Qed.

  (** Wrapping keeps keys distinct. *)
  Theorem C112_wrap_keys (g : Grammar T NT AK AV) sg : built g -> runs_to (wrap_grammar_with_start g) (Ret (Ok sg)) ->
    (keys_distinct sg <-> keys_distinct g).
  Proof.
    intros Bg R. assert (Bs : built sg) by (eexists _, _; exact R).
    pose proof (built_rs_wf g Bg) as W. pose proof (built_rs_wf sg Bs) as Ws.
    pose proof (wrap_rules g sg Bg R) as Wr. split; intros K r I.
    - assert (G : try_get_rule g (r_head r) = Some r) by (apply get_rules; auto).
      specialize (Wr (r_head r)). rewrite G in Wr. simpl in Wr. apply get_rules in Wr as [J _]; [|exact Ws].
      specialize (K _ J). simpl in K. rewrite map_map in K. simpl in K. rewrite <- map_map in K. apply NoDup_map_inv in K. exact K.
    - destruct (r_head r) as [|A] eqn:Eh.
      + destruct (wrap_start_prod_spec g sg Bg R) as (r0 & p & Rs & Hs & _ & Ps & _).
        assert (r = r0) as ->.
        { assert (try_get_rule sg Start = Some r) as G by (apply get_rules; auto).
          unfold start_rule, get_rule in Rs. rewrite G in Rs. simpl in Rs. congruence. }
        assert (map p_inner (rule_prods r0) = r_prods r0) as <- by apply number_prods_inner. rewrite Ps. simpl.
        constructor; [intros [] | constructor].
      + assert (G : try_get_rule sg (NTerm A) = Some r) by (apply get_rules; auto). rewrite Wr in G.
        destruct (try_get_rule g A) as [r0|] eqn:G0; [|discriminate]. simpl in G. injection G as <-. simpl.
        apply get_rules in G0 as [J _]; [|exact W]. rewrite map_map. simpl. rewrite <- map_map.
        apply (FinFun.Injective_map_NoDup (f := @ActionKey AK)); [intros a b E; injection E; auto | exact (K _ J)].
  Qed.

  (** The trees of C42-C47 are exactly what derivations show. *)
  Theorem C112_tree_shows_derivation {V} (g : Grammar T NT AK AV) e (ts : list (Token T V)) t : built g ->
    (dtree g e ts t <-> exists d, der g e ts d t).
  Proof.
    intro Bg. split; [apply dtree_der | intros [d D]; revert D; apply der_dtree]; apply built_rs_wf; exact Bg.
  Qed.
  (** With distinct keys a tree determines its derivation, so also its tokens. *)
  Theorem C112_tree_determines_derivation {V} (g : Grammar T NT AK AV) e (ts ts' : list (Token T V)) d d' t :
    built g -> keys_distinct g -> der g e ts d t -> der g e ts' d' t -> d = d' /\ ts = ts'.
  Proof. intros Bg K D D'. exact (proj1 (der_unique g (built_rs_wf g Bg) K) _ _ _ _ D' _ _ D). Qed.
End S.

Section Parse.
  Context {T NT AK AV V : Type} `{OrdEq T} `{OrdEq NT} `{OrdEq AK} `{OrdEq V}.
  Variable g : Grammar T NT AK AV.
  Variable sg : StartGrammar T NT AK AV.
  Variable lay : layout (StartNonTerminal NT).
  Hypothesis Bg : built g.
  Hypothesis Wr : runs_to (wrap_grammar_with_start g) (Ret (Ok sg)).
  Hypothesis Lay : lay_inj sg lay.

  (** With distinct keys every tree of a parse result names one derivation. *)
  Theorem C112_parse_names_derivation (w : list (Token T V)) t0 m t : api_tree t0 -> keys_distinct g ->
    runs_to (fun fuel => parse lay sg w t0 fuel) (Ret (Some m, t)) ->
    forall tr, reads t m tr ->
    exists d ts, der g (NonTerm (start_nt g)) ts d tr /\
      forall d' ts', der g (NonTerm (start_nt g)) ts' d' tr -> d' = d /\ ts' = ts.
  Proof.
    intros A K R tr Rd. destruct (C66_forest_conforms g sg lay Bg Wr Lay w t0 m t A R tr Rd) as [ts D].
    apply (C112_tree_shows_derivation g _ _ _ Bg) in D as [d D]. exists d, ts. split; [exact D|].
    intros d' ts' D'. exact (C112_tree_determines_derivation g _ _ _ _ _ _ Bg K D' D).
  Qed.
End Parse.

(** 0 -> 1 | 2;  1 -> 7;  2 -> 7, with key 5 for every production. *)
Definition ex_same_key : list (gb_call nat nat nat nat) :=
  [AddRule 0 [AddProd 5 0 [AddNonterm 1]; AddProd 5 0 [AddNonterm 2]];
   AddRule 1 [AddProd 5 0 [AddTerm 7]]; AddRule 2 [AddProd 5 0 [AddTerm 7]]].
Definition ex_same_key_g : Grammar nat nat nat nat :=
  Build_Grammar 0
    [(0, Build_RuleInner 0 [Build_ProdInner 5 0 [Build_ProdElement None (NonTerm 1)]; Build_ProdInner 5 0 [Build_ProdElement None (NonTerm 2)]]);
     (1, Build_RuleInner 1 [Build_ProdInner 5 0 [Build_ProdElement None (Term 7)]]);
     (2, Build_RuleInner 2 [Build_ProdInner 5 0 [Build_ProdElement None (Term 7)]])].
Lemma same_key_runs : runs_to (build 0 ex_same_key) (Ret (Ok ex_same_key_g)).
Proof. apply (build_vm _ _ 10); [vm_compute; reflexivity | discriminate]. Qed.
Lemma built_same_key : built ex_same_key_g.
Proof. exists 0, ex_same_key. exact same_key_runs. Qed.
(** Head and key do not identify a production: [build] accepts a rule that uses a key twice. *)
Theorem C112_key_refuted : exists (start : nat) (calls : list (gb_call nat nat nat nat)) g p q,
  runs_to (build start calls) (Ret (Ok g)) /\ In p (prods g) /\ In q (prods g) /\
  prod_key p = prod_key q /\ elements p <> elements q.
Proof.
  exists 0, ex_same_key, ex_same_key_g. exists (nth 0 (prods ex_same_key_g) (Build_Prod 0 0 (Build_ProdInner 0 0 []))),
    (nth 1 (prods ex_same_key_g) (Build_Prod 0 0 (Build_ProdInner 0 0 []))).
  split; [exact same_key_runs|]. simpl. split; [auto|]. split; [auto|]. split; [reflexivity | discriminate].
Qed.
(** Nor does a parse tree then name its derivation: one word, parsed to one tree, with two derivations. *)
Theorem C112_tree_refuted : exists (g : Grammar nat nat nat nat) sg lay (w : list (Token nat nat)) t0 m t tr d d',
  built g /\ runs_to (wrap_grammar_with_start g) (Ret (Ok sg)) /\ in_memory sg lay /\ api_tree t0 /\
  runs_to (fun fuel => parse lay sg w t0 fuel) (Ret (Some m, t)) /\ (forall x, reads t m x <-> x = tr) /\
  der g (NonTerm (start_nt g)) w d tr /\ der g (NonTerm (start_nt g)) w d' tr /\ d <> d'.
Proof.
  assert (Pr : forall A p, prod_of ex_same_key_g A p -> pi_action_key p = 5 /\
     ((A = 0 /\ map pe_elem (pi_elements p) = [NonTerm 1]) \/ (A = 0 /\ map pe_elem (pi_elements p) = [NonTerm 2]) \/
      (A = 1 /\ map pe_elem (pi_elements p) = [Term 7]) \/ (A = 2 /\ map pe_elem (pi_elements p) = [Term 7]))).
  { intros A p (r & I & J). simpl in I. destruct I as [E|[E|[E|[]]]]; injection E as <- <-; simpl in J;
      [destruct J as [<-|[<-|[]]] | destruct J as [<-|[]] | destruct J as [<-|[]]]; simpl; auto 8. }
  assert (Uq : unique_cuts (rhs_of ex_same_key_g) 0 [7]).
  { intros i A pre post k cs cs' _ (p & Pp & E) C C'. assert (length pre <= 1) as L.
    { apply Pr in Pp as [_ Pp]. apply (f_equal (@length _)) in E. rewrite app_length in E.
      destruct Pp as [[_ Q]|[[_ Q]|[[_ Q]|[_ Q]]]]; rewrite Q in E; simpl in E; lia. }
    destruct pre as [|e [|e' pre]]; [| |simpl in L; lia].
    - inversion C; subst. inversion C'; subst. reflexivity.
    - inversion C as [|? ? ? ? ? ? _ _ _ C1]; subst. inversion C' as [|? ? ? ? ? ? _ _ _ C2]; subst. inversion C1; subst. inversion C2; subst. reflexivity. }
  assert (Dd : forall b, b = 1 \/ b = 2 -> exists i, der ex_same_key_g (NonTerm 0) [ex_tok 7] (DNode 0 i [DNode b 0 [DLeaf 7 0]])
     (PBranch 5 [PBranch 5 [PLeaf 7 0]]) /\ i = b - 1).
  { assert (Mk : forall A r i p k es ts ds cs, try_get_rule ex_same_key_g A = Some r -> nth_error (r_prods r) i = Some p ->
      pi_action_key p = k -> map pe_elem (pi_elements p) = es -> ders ex_same_key_g es ts ds cs ->
      der (V:=nat) ex_same_key_g (NonTerm A) ts (DNode A i ds) (PBranch k cs)).
    { intros A r i p k es ts ds cs Hr Hp <- <- Hd. exact (der_node ex_same_key_g A r i p ts ds cs Hr Hp Hd). }
    assert (Lf : ders (V:=nat) ex_same_key_g [Term 7] [ex_tok 7] [DLeaf 7 0] [PLeaf 7 0]).
    { apply (ders_cons _ (Term 7) [] [ex_tok 7] []); constructor. }
    intros b [-> | ->].
    - exists 0. split; [|reflexivity]. eapply (Mk 0 _ 0); [reflexivity | reflexivity | reflexivity | reflexivity |].
      apply (ders_cons _ (NonTerm 1) [] [ex_tok 7] []); [|constructor].
      eapply (Mk 1 _ 0); [reflexivity | reflexivity | reflexivity | reflexivity | exact Lf].
    - exists 1. split; [|reflexivity]. eapply (Mk 0 _ 1); [reflexivity | reflexivity | reflexivity | reflexivity |].
      apply (ders_cons _ (NonTerm 2) [] [ex_tok 7] []); [|constructor].
      eapply (Mk 2 _ 0); [reflexivity | reflexivity | reflexivity | reflexivity | exact Lf]. }
  destruct (Dd 1 (or_introl eq_refl)) as (i1 & D1 & _). destruct (Dd 2 (or_intror eq_refl)) as (i2 & D2 & _).
  assert (Wr : runs_to (wrap_grammar_with_start ex_same_key_g) (Ret (Ok (ex_wrap ex_same_key_g)))) by (apply wrap_vm; vm_compute; reflexivity).
  assert (Me : in_memory (ex_wrap ex_same_key_g) ex_slay) by (apply ex_slay_mem; vm_compute; reflexivity).
  exists ex_same_key_g, (ex_wrap ex_same_key_g), ex_slay, [ex_tok 7], in_new. eexists _, _, _, _, _.
  refine (conj built_same_key (conj Wr (conj Me (conj api_tree_new (conj _ (conj _ (conj D1 (conj D2 _)))))))).
  - apply (parse_vm _ _ _ _ 20); [vm_compute; reflexivity | discriminate].
  - intro x. rewrite (C67_forest_exact ex_same_key_g _ ex_slay built_same_key Wr (in_memory_inj _ _ Me) [ex_tok 7] in_new _ _ api_tree_new Uq
      ltac:(apply (parse_vm _ _ _ _ 20); [vm_compute; reflexivity | discriminate]) x).
    split.
    + intro D. change (start_nt ex_same_key_g) with 0 in D. inversion D as [|A p ts cs Pp Ds E1 E2 E3]. subst.
      apply Pr in Pp as [-> Pp].
      assert (exists b c, (b = 1 \/ b = 2) /\ cs = [c] /\ dtree ex_same_key_g (NonTerm b) [ex_tok 7] c) as (b & c & Eb & -> & Dc).
      { destruct Pp as [[_ Q]|[[_ Q]|[[Q _]|[Q _]]]]; try discriminate; rewrite Q in Ds;
          inversion Ds as [|? ? ts1 us1 c1 cs1 Dc Dn E4 E5 E6]; subst; inversion Dn; subst; rewrite app_nil_r in E5; subst ts1.
        - exists 1, c1. auto.
        - exists 2, c1. auto. }
      inversion Dc as [|A p' ts cs Pp' Ds' E1 E2 E3]. subst. apply Pr in Pp' as [-> Pp'].
      assert (map pe_elem (pi_elements p') = [Term 7]) as Q.
      { destruct Eb as [-> | ->]; destruct Pp' as [[Q _]|[[Q _]|[[_ Q]|[_ Q]]]]; try discriminate; exact Q. }
      rewrite Q in Ds'. inversion Ds' as [|? ? ts1 us1 c1 cs1 Dl Dn E4 E5 E6]. subst. inversion Dn. subst. rewrite app_nil_r in E5. subst ts1.
      inversion Dl. subst. reflexivity.
    + intros ->. apply (C112_tree_shows_derivation _ _ _ _ built_same_key). eauto.
  - discriminate.
Qed.

Print Assumptions C112_prods.
Print Assumptions C112_accessors.
Print Assumptions C112_key_identifies.
Print Assumptions C112_labels_unchecked.
Print Assumptions C112_wrap_keys.
Print Assumptions C112_tree_shows_derivation.
Print Assumptions C112_tree_determines_derivation.
Print Assumptions C112_parse_names_derivation.
Print Assumptions C112_key_refuted.
Print Assumptions C112_tree_refuted.

(** Distinct keys: the expression grammar. *)
Example ex_expr_keys : built ex_expr_g /\ keys_distinct ex_expr_g /\ length (prods ex_expr_g) = 4.
Proof.
  split; [exact built_expr|]. split; [|reflexivity]. intros r I. simpl in I.
  destruct I as [<-|[<-|[]]]; simpl; repeat constructor; simpl; intuition discriminate.
Qed.
