(** C118: what a forest shows about ambiguity (src/parsers/earley/state.rs:171-214, 263-313; src/parsers/tree.rs). *)
From Coq Require Import String List Arith NArith Lia.
From Verif.Model Require Import Ord BTree Outcome Utils Grammar StartGrammar Tokens Tree State Earley.
From Verif.Spec Require Import Reach Cfg BuildSpec NullSpec TreeSpec EarleySpec SizeSpec KeySpec AmbigSpec Examples.
From Verif.Proofs Require Import OrdFacts BTreeFacts LoopFacts GrammarFacts StartFacts BuildMore CfgFacts TreeFacts TreeHist
  EarleyItems EarleyRun EarleyParse EarleyMain TreeLink EarleyMore EarleySize EarleyExact AmbigFacts ExampleFacts.
From Verif.Properties Require Import EarleyProps.
Import ListNotations.

Section Props.
  Context {T NT AK AV V : Type} `{OrdEq T} `{OrdEq NT} `{OrdEq AK} `{OrdEq V}.
  Variable g : Grammar T NT AK AV.
  Variable sg : StartGrammar T NT AK AV.
  Variable lay : layout (StartNonTerminal NT).
  Hypothesis Bg : built g.
  Hypothesis Wr : runs_to (wrap_grammar_with_start g) (Ret (Ok sg)).
  Hypothesis Lay : in_memory sg lay.
  Local Notation P := (rhs_of g).
  Local Notation S0 := (start_nt g).
  Variable w : list (Token T V).
  Variables (t0 t : Inner T AK V) (m : nat).
  Hypothesis A : api_tree t0.
  Hypothesis R : runs_to (fun fuel => parse lay sg w t0 fuel) (Ret (Some m, t)).

  Lemma word : lang P S0 (map tk_kind w).
  Proof. exact (C42_parse_accepts_only_words g sg lay Bg Wr (in_memory_inj _ _ Lay) w t0 m t A R). Qed.
  Lemma some_tree : exists tr : ptree T AK V, dtree g (NonTerm S0) w tr.
  Proof.
    destruct (gen_dtrees g _ _ word w eq_refl) as (cs & D). inversion D as [|e es ts us c cs' D1 D2 E1 E2]. subst.
    inversion D2; subst. rewrite app_nil_r in *. eauto.
  Qed.
  Lemma with_run (Q : Prop) :
    (forall sets lab lab' (d : AK), XInv g w lay (length w) sets t lab -> PInv g lay w ulf ubr t0 (length w) sets t lab' ->
       owned sets m -> Q) -> Q.
  Proof.
    intro F. destruct some_tree as (tr & D). pose proof (in_memory_inj _ _ Lay) as Inj. pose proof (in_memory_up _ _ Lay) as Up.
    assert (R' := R). rewrite (wrapped_eq g sg (built_accepted g Bg) Wr) in R', Inj, Up.
    destruct (parse_both g (built_accepted g Bg) w lay Inj Up t0 m t (api_tree_inv _ A) R') as (sets & lab & lab' & XI & PI & O).
    inversion D; subst. apply (F sets lab lab' (pi_action_key p) XI PI). eexists _, _, _, _. exact O.
  Qed.
  Lemma parse_live : live t m.
  Proof.
    apply with_run. intros sets lab lab' d XI PI O. pose proof (in_memory_inj _ _ Lay) as Inj.
    rewrite (wrapped_eq g sg (built_accepted g Bg) Wr) in Inj.
    exact (owned_live g (built_accepted g Bg) w lay Inj t0 t sets lab lab' XI PI d m O).
  Qed.

  (** C118.  There are no dead ends: every node below the result has an alternative, and each alternative of each
      of them occurs in a complete tree. *)
  Theorem C118_no_dead_ends n : forest_node t m n ->
    exists s, get_node t n = Ret s /\ s <> [] /\ forall a, In a s -> exists tr, reads_via t n a m tr.
  Proof.
    intro F. destruct (parse_live n F) as (s & G & Ne & _). exists s. split; [exact G|]. split; [exact Ne|]. intros a I.
    exact (no_dead_ends t m n s a parse_live F G I).
  Qed.

  (** C118.  Whatever the grammar: a forest without choices holds exactly one tree, which is the only derivation
      tree of the input. *)
  Theorem C118_no_choice : no_choice t m ->
    exists tr, (forall tr', reads t m tr' <-> tr' = tr) /\ forall tr', dtree g (NonTerm S0) w tr' <-> tr' = tr.
  Proof.
    intro N. destruct some_tree as (tr & D).
    pose proof (C45_forest_complete g sg lay Bg Wr (in_memory_inj _ _ Lay) w t0 m t A R) as Cp. exists tr.
    assert (U : forall tr', reads t m tr' -> tr' = tr) by (intros tr' R'; exact (proj1 (one_tree t) _ _ R' _ N (Cp _ D))).
    split; intro tr'; split; intro X; try (subst; auto).
  Qed.

  (** C118.  The forest holds infinitely many trees exactly if some node occurs below itself; without such a node
      the input has finitely many derivation trees. *)
  Theorem C118_cycles : finitely_many (reads t m) <-> ~ cyclic t m.
  Proof.
    split; [|apply acyclic_finite]. intros F C. exact (cycle_infinite t m parse_live C F).
  Qed.
  Theorem C118_finite_input : ~ cyclic t m -> finitely_many (dtree g (NonTerm S0) w).
  Proof.
    intro C. apply C118_cycles in C. destruct C as (l & F). exists l. intros tr D.
    apply F. exact (C45_forest_complete g sg lay Bg Wr (in_memory_inj _ _ Lay) w t0 m t A R tr D).
  Qed.

  (** C118.  For inputs whose pieces are cut in one way the forest shows exactly the input's ambiguity: infinitely
      many derivation trees exactly if a node occurs below itself, and, if no rule repeats a key, a single one
      exactly if no node has a choice. *)
  Theorem C118_infinite_input : unique_cuts P S0 (map tk_kind w) ->
    (finitely_many (dtree g (NonTerm S0) w) <-> ~ cyclic t m).
  Proof.
    intro U. rewrite <- C118_cycles. pose proof (C67_forest_exact g sg lay Bg Wr (in_memory_inj _ _ Lay) w t0 m t A U R) as E.
    split; intros (l & F); exists l; intros tr X; apply F, E; exact X.
  Qed.
  Theorem C118_unambiguous_input : unique_cuts P S0 (map tk_kind w) -> keys_distinct g ->
    ((exists! tr, dtree g (NonTerm S0) w tr) <-> no_choice t m).
  Proof.
    intros U K. pose proof (C67_forest_exact g sg lay Bg Wr (in_memory_inj _ _ Lay) w t0 m t A U R) as E. split.
    - intros (tr & D & Un). apply with_run. intros sets lab lab' d XI PI O n s F G.
      pose proof (in_memory_inj _ _ Lay) as Inj. rewrite (wrapped_eq g sg (built_accepted g Bg) Wr) in Inj.
      assert (On : owned sets n) by (clear G; induction F as [|y z F IH Cz]; [exact O|exact (owned_child g w lay t sets lab XI _ _ IH Cz)]).
      destruct s as [|a [|a' s]]; simpl; try lia. exfalso.
      pose proof (get_node_nalts t n _ G) as En.
      pose proof (tinv g w lay t sets lab XI) as Ti.
      assert (Na : a <> a').
      { pose proof (ti_sorted _ Ti n) as So. rewrite En in So. intros <-. inversion So as [|x l S' Hd]; subst. inversion Hd as [|y l' Lt Lt']; subst.
        pose proof (cmp_refl a) as Q. congruence. }
      destruct (parse_live n F) as (s' & G' & _ & Al). rewrite G in G'. injection G' as <-.
      destruct (Al a (or_introl eq_refl)) as (x & Ra). destruct (Al a' (or_intror (or_introl eq_refl))) as (x' & Ra').
      assert (Ia : In a (nalts t n)) by (rewrite En; left; reflexivity). assert (Ia' : In a' (nalts t n)) by (rewrite En; right; left; reflexivity).
      destruct (ti_alts _ Ti _ _ Ia) as (c & Ec). destruct (ti_alts _ Ti _ _ Ia') as (c' & Ec').
      destruct (alts_differ g (built_accepted g Bg) w lay Inj t sets lab XI U K n a a' c c' On Ia Ia' Ec Ec' Na) as (y & y' & ns & ns' & -> & -> & Ny).
      apply get_alt_acont in Ec, Ec'.
      assert (Nx : x <> x').
      { destruct Ra as [k v E1|y1 n1 cs1 E1 _]; rewrite Ec in E1; [discriminate|]. injection E1 as <- <-.
        destruct Ra' as [k v E1|y1 n1 cs2 E1 _]; rewrite Ec' in E1; [discriminate|]. injection E1 as <- <-. congruence. }
      destruct (place_below t m n parse_live F) as (f & Pf).
      assert (X : forall b z, In b (a :: a' :: s) -> reads_alt t b z -> f z = tr).
      { intros b z Ib Rb. symmetry. apply Un. apply E. apply (pl_reads _ _ _ _ Pf). exact (reads_alt_reads t n _ b z G Ib Rb). }
      apply Nx. apply (pl_inj _ _ _ _ Pf). rewrite (X a x (or_introl eq_refl) Ra), (X a' x' (or_intror (or_introl eq_refl)) Ra'). reflexivity.
    - intro N. destruct (C118_no_choice N) as (tr & _ & Un). exists tr. split; [apply Un; reflexivity|]. intros tr' D. symmetry. apply Un. exact D.
  Qed.
End Props.

(** ** A choice that the input does not have *)
Definition split_calls : list (gb_call nat nat nat nat) :=
  [AddRule 0 [AddProd 10 0 [AddNonterm 1; AddNonterm 2]];
   AddRule 1 [AddProd 11 0 [AddTerm 1]; AddProd 12 0 [AddTerm 1; AddTerm 2]];
   AddRule 2 [AddProd 13 0 [AddTerm 2; AddTerm 3]; AddProd 14 0 [AddTerm 3]; AddProd 15 0 [AddTerm 2; AddTerm 3; AddTerm 4]]].
Definition split_g : Grammar nat nat nat nat := Eval vm_compute in
  match build 0 split_calls 20 with Ret (Ok g) => g | _ => Build_Grammar 0 [] end.
Lemma split_built : built split_g.
Proof. exists 0, split_calls. apply (build_vm _ _ 20); [vm_compute; reflexivity|discriminate]. Qed.

(** Without the condition on cuts the last claim fails, even with distinct keys: of this input there is one
    derivation tree, but a node of the forest has two alternatives, and two trees can be read. *)
Theorem C118_choice_refuted : exists (g : Grammar nat nat nat nat) sg lay (w : list (Token nat nat)) t0 m t,
  built g /\ runs_to (wrap_grammar_with_start g) (Ret (Ok sg)) /\ in_memory sg lay /\ api_tree t0 /\ keys_distinct g /\
  runs_to (fun fuel => parse lay sg w t0 fuel) (Ret (Some m, t)) /\
  (exists! tr, dtree g (NonTerm (start_nt g)) w tr) /\ ~ no_choice t m /\ exists tr tr', reads t m tr /\ reads t m tr' /\ tr <> tr'.
Proof.
  exists split_g, (ex_wrap split_g), ex_slay, (map ex_tok [1; 2; 3; 4]), in_new.
  let r := eval vm_compute in (parse ex_slay (ex_wrap split_g) (map ex_tok [1; 2; 3; 4]) in_new 20) in
  match r with Ret (Some ?m, ?t) => exists m, t end.
  split; [exact split_built|]. split; [apply wrap_vm; vm_compute; reflexivity|]. split; [apply ex_slay_mem; vm_compute; reflexivity|].
  split; [exact api_tree_new|]. split.
  { intros r I. repeat (destruct I as [<-|I]; [cbn; repeat (constructor; [cbn; lia|]); constructor|]). destruct I. }
  split; [apply (parse_vm _ _ _ _ 20); [vm_compute; reflexivity|discriminate]|].
  assert (D1 : dtree split_g (NonTerm 0) (map ex_tok [1; 2; 3; 4]) (PBranch 10 [PBranch 11 [PLeaf 1 0]; PBranch 15 [PLeaf 2 0; PLeaf 3 0; PLeaf 4 0]])).
  { apply (dtree_intro split_g 0 10 [NonTerm 1; NonTerm 2]); [is_tprod|].
    apply (dtrees_cons _ _ _ [ex_tok 1]); [apply (dtree_intro split_g 1 11 [Term 1]); [is_tprod|repeat apply dtrees_term; constructor]|].
    apply (dtrees_cons _ _ _ (map ex_tok [2; 3; 4]) []); [|constructor]. apply (dtree_intro split_g 2 15 [Term 2; Term 3; Term 4]); [is_tprod|repeat apply dtrees_term; constructor]. }
  split.
  - exists (PBranch 10 [PBranch 11 [PLeaf 1 0]; PBranch 15 [PLeaf 2 0; PLeaf 3 0; PLeaf 4 0]]). split; [exact D1|].
    intros tr D. clear D1. assert (Ets : map (fun x => (tk_kind x, tk_value x)) (map ex_tok [1; 2; 3; 4]) = [(1, 0); (2, 0); (3, 0); (4, 0)]) by reflexivity.
    revert D Ets. generalize (map ex_tok [1; 2; 3; 4]). intros ts D Ets.
    apply dtree_inv in D as (k & rhs & cs & I & D & ->). tprods I; inv_d.
    apply dtree_inv in H as (k & rhs & cs & I & D & ->).
    apply dtree_inv in H0 as (k' & rhs' & cs' & I' & D' & ->).
    tprods I; inv_d; tprods I'; inv_d; cbn in Ets; try discriminate. injection Ets; intros; subst; reflexivity.
  - split.
    + intro N. specialize (N 2 [1; 3]). cbn in N. assert (X : 2 <= 1); [apply N; [|reflexivity]|lia].
      apply (star_step _ _ 24); [constructor|]. exists [10], 10, 10, [2; 23]. vm_compute. auto.
    + exists (PBranch 10 [PBranch 11 [PLeaf 1 0]; PBranch 15 [PLeaf 2 0; PLeaf 3 0; PLeaf 4 0]]),
        (PBranch 10 [PBranch 12 [PLeaf 1 0; PLeaf 2 0]; PBranch 15 [PLeaf 2 0; PLeaf 3 0; PLeaf 4 0]]).
      split; [|split; [|discriminate]].
      * apply (reads_branch _ 24 [10] 10 10 [2; 23]); [reflexivity|left; reflexivity|reflexivity|].
        constructor; [|constructor; [|constructor]].
        -- apply (reads_branch _ 2 [1; 3] 1 11 [0]); [reflexivity|left; reflexivity|reflexivity|].
           constructor; [|constructor]. apply (reads_leaf _ 0 [0] 0); [reflexivity|left; reflexivity|reflexivity].
        -- apply (reads_branch _ 23 [9] 9 15 [7; 13; 22]); [reflexivity|left; reflexivity|reflexivity|].
           constructor; [apply (reads_leaf _ 7 [2] 2); try reflexivity; left; reflexivity|].
           constructor; [apply (reads_leaf _ 13 [4] 4); try reflexivity; left; reflexivity|].
           constructor; [apply (reads_leaf _ 22 [8] 8); try reflexivity; left; reflexivity|constructor].
      * apply (reads_branch _ 24 [10] 10 10 [2; 23]); [reflexivity|left; reflexivity|reflexivity|].
        constructor; [|constructor; [|constructor]].
        -- apply (reads_branch _ 2 [1; 3] 3 12 [1; 5]); [reflexivity|right; left; reflexivity|reflexivity|].
           constructor; [apply (reads_leaf _ 1 [0] 0); try reflexivity; left; reflexivity|].
           constructor; [apply (reads_leaf _ 5 [2] 2); try reflexivity; left; reflexivity|constructor].
        -- apply (reads_branch _ 23 [9] 9 15 [7; 13; 22]); [reflexivity|left; reflexivity|reflexivity|].
           constructor; [apply (reads_leaf _ 7 [2] 2); try reflexivity; left; reflexivity|].
           constructor; [apply (reads_leaf _ 13 [4] 4); try reflexivity; left; reflexivity|].
           constructor; [apply (reads_leaf _ 22 [8] 8); try reflexivity; left; reflexivity|constructor].
Qed.

Print Assumptions C118_no_dead_ends.
Print Assumptions C118_no_choice.
Print Assumptions C118_cycles.
Print Assumptions C118_finite_input.
Print Assumptions C118_infinite_input.
Print Assumptions C118_unambiguous_input.
Print Assumptions C118_choice_refuted.

(** ** The hypotheses are met *)
Lemma unit_gen {T NT} (P : NT -> list (Elem T NT) -> Prop) : (forall B rhs, P B rhs -> length rhs = 1) ->
  forall es u, gen P es u -> length u = length es.
Proof.
  intros L es u G. induction G as [|k es u G IH|B rhs es u v Pr G1 IH1 G2 IH2]; simpl; [reflexivity|congruence|].
  rewrite app_length, IH1, IH2, (L _ _ Pr). reflexivity.
Qed.
Lemma unit_prefix_free {T NT} (P : NT -> list (Elem T NT) -> Prop) : (forall B rhs, P B rhs -> length rhs = 1) -> prefix_free P.
Proof.
  intros L B u v G. pose proof (unit_gen P L _ _ G) as E. cbn in E. split; [intros ->; discriminate|].
  intro G'. apply (unit_gen P L) in G'. rewrite app_length in G'. cbn in G'. destruct v; [reflexivity|simpl in G'; lia].
Qed.
(** Infinitely many trees, in a grammar with a cycle ... *)
Example C118_cyclic : built ex_cyc_g /\ runs_to (wrap_grammar_with_start ex_cyc_g) (Ret (Ok (ex_wrap ex_cyc_g))) /\
  in_memory (ex_wrap ex_cyc_g) ex_slay /\ unique_cuts (rhs_of ex_cyc_g) 0 [7] /\ keys_distinct ex_cyc_g /\
  exists m t, runs_to (fun fuel => parse ex_slay (ex_wrap ex_cyc_g) (map ex_tok [7]) in_new fuel) (Ret (Some m, t)) /\ cyclic t m.
Proof.
  refine (conj built_cyc (conj wrap_cyc _)). split; [apply ex_slay_mem; vm_compute; reflexivity|].
  split; [apply pf_unique_cuts, unit_prefix_free; intros B rhs Pr; apply prod_list_rhs in Pr; destruct Pr as (k & Pr); tprods Pr; reflexivity|].
  split; [intros r I; repeat (destruct I as [<-|I]; [cbn; repeat (constructor; [cbn; lia|]); constructor|]); destruct I|].
  eexists _, _. split; [apply (parse_vm _ _ _ _ 20); [vm_compute; reflexivity|discriminate]|].
  exists 2. split.
  - first [apply star_refl | apply (star_step _ _ 1); [constructor|]; exists [1; 2], 2, 10, [2]; vm_compute; auto 8].
  - exists 2. split; [constructor|]. exists [1; 2], 2, 10, [2]. vm_compute. auto 8.
Qed.
(** ... and a forest without any choice. *)
Example C118_one : built ex_br_g /\ runs_to (wrap_grammar_with_start ex_br_g) (Ret (Ok (ex_wrap ex_br_g))) /\
  in_memory (ex_wrap ex_br_g) ex_slay /\ unique_cuts (rhs_of ex_br_g) 0 [1; 0; 1; 0; 0; 2; 2] /\ keys_distinct ex_br_g /\
  exists m t, runs_to (fun fuel => parse ex_slay (ex_wrap ex_br_g) (map ex_tok [1; 0; 1; 0; 0; 2; 2]) in_new fuel) (Ret (Some m, t)) /\ no_choice t m.
Proof.
  refine (conj built_br (conj wrap_br _)). split; [apply ex_slay_mem; vm_compute; reflexivity|].
  split; [apply pf_unique_cuts, br_prefix_free|].
  split; [intros r I; repeat (destruct I as [<-|I]; [cbn; repeat (constructor; [cbn; lia|]); constructor|]); destruct I|].
  eexists _, _. split; [apply (parse_vm _ _ _ _ 40); [vm_compute; reflexivity|discriminate]|].
  intros n s _ E. unfold get_node in E. vm_compute in E.
  repeat (destruct n as [|n]; [injection E as <-; cbn; lia|]). destruct n; discriminate E.
Qed.
