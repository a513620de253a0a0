(** C127: programs that read trees out of the result of a parse (src/parsers/tree.rs:387-399, 450-461;
    src/parsers/earley/state.rs:171-214, 263-313). *)
From Coq Require Import String List Arith NArith Lia.
From Verif.Model Require Import Ord BTree Outcome Utils Grammar StartGrammar Tokens Tree State Earley.
From Verif.Spec Require Import Reach Cfg BuildSpec NullSpec TreeSpec EarleySpec SizeSpec KeySpec AmbigSpec LL1Spec WalkSpec Examples.
From Verif.Proofs Require Import OrdFacts BTreeFacts LoopFacts GrammarFacts StartFacts BuildMore CfgFacts TreeFacts TreeHist
  EarleyItems EarleyRun EarleyParse EarleyMain TreeLink EarleyMore EarleySize EarleyExact AmbigFacts ExampleFacts LL1Facts WalkFacts.
From Verif.Properties Require Import EarleyProps SizeProps AmbigProps LL1Props.
Import ListNotations.

Section Props.
  Context {T NT AK AV V : Type} `{OrdEq T} `{OrdEq NT} `{OrdEq AK} `{OrdEq V}.
  Variable g : Grammar T NT AK AV.
  Variable sg : StartGrammar T NT AK AV.
  Variable lay : layout (StartNonTerminal NT).
  Hypothesis Bg : built g.
  Hypothesis Wr : runs_to (wrap_grammar_with_start g) (Ret (Ok sg)).
  Hypothesis Lay : in_memory sg lay.
  Local Notation P := (rhs_of g).
  Local Notation S0 := (start_nt g).
  Variable w : list (Token T V).
  Variables (t0 t : Inner T AK V) (m : nat).
  Hypothesis A : api_tree t0.
  Hypothesis R : runs_to (fun fuel => parse lay sg w t0 fuel) (Ret (Some m, t)).
  (** [root] is the node the parser returned, in the trees [W] of the program. *)
  Variable W : world T AK V.
  Variable h : TreeHandle.
  Hypothesis At : nth_error W h = Some t.
  Local Notation root := {| nd_index := m; nd_inner := h |}.

  Lemma tree_sorted : forall n, sorted (nalts t n).
  Proof.
    intro n. apply (with_run g sg lay Bg Wr Lay w t0 t m A R). intros sets lab lab' d XI _ _. apply (ti_sorted _ (tinv g w lay t sets lab XI)).
  Qed.
  Lemma tree_ranked : (exists a, In a (nalts t m)) /\ ranked t m.
  Proof.
    assert (R' := R). pose proof (in_memory_inj _ _ Lay) as Inj. rewrite (wrapped_eq g sg (built_accepted g Bg) Wr) in R', Inj.
    destruct R' as [_ (n & R')]. specialize (R' n (le_n n)).
    exact (parse_rank g (built_accepted g Bg) lay w t0 (api_tree_inv _ A) n m t R').
  Qed.
  Lemma alts_apart : unique_cuts P S0 (map tk_kind w) -> keys_distinct g -> forall n s a a' tr, forest_node t m n -> get_node t n = Ret s ->
    In a s -> In a' s -> reads_alt t a tr -> reads_alt t a' tr -> a = a'.
  Proof.
    intros U K n s a a' tr F G I I' Ra Ra'. destruct (Nat.eq_dec a a') as [E|Na]; [exact E|]. exfalso.
    apply (with_run g sg lay Bg Wr Lay w t0 t m A R). intros sets lab lab' d XI PI O.
    pose proof (in_memory_inj _ _ Lay) as Inj. rewrite (wrapped_eq g sg (built_accepted g Bg) Wr) in Inj.
    assert (On : owned sets n) by (clear G; induction F as [|y z F IH Cz]; [exact O|exact (owned_child g w lay t sets lab XI _ _ IH Cz)]).
    pose proof (get_node_nalts t n _ G) as En. pose proof (tinv g w lay t sets lab XI) as Ti.
    assert (Ia : In a (nalts t n)) by (rewrite En; exact I). assert (Ia' : In a' (nalts t n)) by (rewrite En; exact I').
    destruct (ti_alts _ Ti _ _ Ia) as (c & Ec). destruct (ti_alts _ Ti _ _ Ia') as (c' & Ec').
    destruct (alts_differ g (built_accepted g Bg) w lay Inj t sets lab XI U K n a a' c c' On Ia Ia' Ec Ec' Na) as (y & y' & ns & ns' & -> & -> & Ny).
    apply get_alt_acont in Ec, Ec'.
    destruct Ra as [k v E1|y1 n1 cs1 E1 _]; rewrite Ec in E1; [discriminate|]. injection E1 as <- <-.
    inversion Ra' as [k v E1|y1 n1 cs2 E1 _]; subst; rewrite Ec' in E1; congruence.
  Qed.

  (** C127.  Always taking the first alternative gives a tree of the forest, even if the forest has cycles: the program ends
      and does not panic. *)
  Theorem C127_first_tree : exists tr, runs_to (fun fuel => first_tree W fuel root) (Ret tr) /\ reads t m tr.
  Proof.
    destruct tree_ranked as [(a & Ia) Rk]. pose proof (parse_live g sg lay Bg Wr Lay w t0 t m A R) as L.
    destruct (nalts t m) as [|a0 s] eqn:E; [destruct Ia|].
    apply (first_runs W h t At m L Rk tree_sorted a0 m (star_refl _ _)). rewrite E. reflexivity.
  Qed.
  (** C127.  If the input's pieces are cut in one way, it is a derivation tree of the input. *)
  Theorem C127_first_parse : unique_cuts P S0 (map tk_kind w) ->
    exists tr, runs_to (fun fuel => first_tree W fuel root) (Ret tr) /\ dtree g (NonTerm S0) w tr.
  Proof.
    intro U. destruct C127_first_tree as (tr & Rt & Rd). exists tr. split; [exact Rt|].
    apply (C67_forest_exact g sg lay Bg Wr (in_memory_inj _ _ Lay) w t0 m t A U R). exact Rd.
  Qed.

  (** C127.  Collecting all trees: without a cycle the program ends with exactly the trees of the forest, with one it runs
      forever. *)
  Theorem C127_all_trees : ~ cyclic t m ->
    exists l, runs_to (fun fuel => all_trees W fuel root) (Ret l) /\ forall tr, In tr l <-> reads t m tr.
  Proof.
    intro C. destruct (all_acyclic W h t At m (parse_live g sg lay Bg Wr Lay w t0 t m A R) C) as (l & Rl). exists l. split; [exact Rl|].
    destruct Rl as [_ (n & Rl)]. exact (all_lists W h t At n m l (Rl n (le_n n))).
  Qed.
  Theorem C127_all_trees_forever : cyclic t m -> diverges (fun fuel => all_trees W fuel root).
  Proof. exact (all_cyclic W h t At m (parse_live g sg lay Bg Wr Lay w t0 t m A R)). Qed.
  (** C127.  If the pieces are cut in one way and no rule repeats a key, it ends exactly if the input has finitely many
      derivation trees, and lists each of them once. *)
  Theorem C127_all_parses : unique_cuts P S0 (map tk_kind w) -> keys_distinct g -> finitely_many (dtree g (NonTerm S0) w) ->
    exists l, runs_to (fun fuel => all_trees W fuel root) (Ret l) /\ NoDup l /\ forall tr, In tr l <-> dtree g (NonTerm S0) w tr.
  Proof.
    intros U K F. apply (C118_infinite_input g sg lay Bg Wr Lay w t0 t m A R U) in F.
    destruct (C127_all_trees F) as (l & Rl & E). exists l. split; [exact Rl|]. split.
    - destruct Rl as [_ (n & Rl)].
      exact (all_nodup W h t At m (alts_apart U K) tree_sorted n m l (star_refl _ _) (Rl n (le_n n))).
    - intro tr. rewrite E. apply (C67_forest_exact g sg lay Bg Wr (in_memory_inj _ _ Lay) w t0 m t A U R).
  Qed.
  Theorem C127_all_parses_forever : unique_cuts P S0 (map tk_kind w) -> ~ finitely_many (dtree g (NonTerm S0) w) ->
    diverges (fun fuel => all_trees W fuel root).
  Proof.
    intros U N fuel. destruct (all_trees W fuel root) as [l|e|] eqn:E; [|exfalso|reflexivity].
    - exfalso. apply N. exists l. intros tr D. apply (all_lists W h t At fuel m l E).
      apply (C67_forest_exact g sg lay Bg Wr (in_memory_inj _ _ Lay) w t0 m t A U R). exact D.
    - exact (all_calm W h t At fuel m (parse_live g sg lay Bg Wr Lay w t0 t m A R) e E).
  Qed.

  (** C127.  Reading the tree only as long as there is nothing to choose always ends; it finds a tree exactly if the forest
      has no choice, and that tree is the only derivation tree of the input. *)
  Theorem C127_only_tree :
    (no_choice t m /\ exists tr, runs_to (fun fuel => only_tree W fuel root) (Ret (Some tr)) /\ forall tr', dtree g (NonTerm S0) w tr' <-> tr' = tr) \/
    (~ no_choice t m /\ runs_to (fun fuel => only_tree W fuel root) (Ret None)).
  Proof.
    destruct (live_reads t m (parse_live g sg lay Bg Wr Lay w t0 t m A R)) as (tr & Rd).
    destruct (proj1 (only_runs W h t At) m tr Rd) as [[N Rn]|[N Rn]]; [left|right; auto]. split; [exact N|]. exists tr. split; [exact Rn|].
    destruct (C118_no_choice g sg lay Bg Wr Lay w t0 t m A R N) as (tr2 & E & D). apply E in Rd. subst tr2. exact D.
  Qed.
  (** C127.  If the pieces are cut in one way and no rule repeats a key, it finds a tree exactly for unambiguous inputs. *)
  Theorem C127_only_parse : unique_cuts P S0 (map tk_kind w) -> keys_distinct g ->
    ((exists! tr, dtree g (NonTerm S0) w tr) <-> exists tr, runs_to (fun fuel => only_tree W fuel root) (Ret (Some tr))).
  Proof.
    intros U K. rewrite (C118_unambiguous_input g sg lay Bg Wr Lay w t0 t m A R U K).
    destruct C127_only_tree as [[N (tr & Rn & _)]|[N Rn]]; split; intro X; eauto; [contradiction|].
    destruct X as (tr & Rs). pose proof (runs_to_fun _ _ _ Rn Rs). discriminate.
  Qed.

  (** C127.  If one token decides, reading as long as there is nothing to choose finds the one derivation tree. *)
  Theorem C127_only_ll1 : ll1 g -> keys_distinct g ->
    exists tr, runs_to (fun fuel => only_tree W fuel root) (Ret (Some tr)) /\ forall tr', dtree g (NonTerm S0) w tr' <-> tr' = tr.
  Proof.
    intros L K. destruct (some_tree g sg lay Bg Wr Lay w t0 t m A R) as (tr & D).
    assert (E : exists! tr, dtree g (NonTerm S0) w tr).
    { exists tr. split; [exact D|]. intros tr' D'. exact (C108_one_tree g Bg L _ _ _ _ D D'). }
    pose proof (pf_unique_cuts P (ll1_prefix_free g Bg L) S0 (map tk_kind w)) as U.
    apply (C127_only_parse U K) in E as (tr2 & Rn). exists tr2. split; [exact Rn|].
    destruct C127_only_tree as [[_ (tr3 & Rn3 & D3)]|[_ Rn3]]; pose proof (runs_to_fun _ _ _ Rn Rn3) as X; [|discriminate].
    injection X as <-. exact D3.
  Qed.

  (** C127.  The recursion is never deeper than the number of alternatives a forest can have (C85): polynomial in the length
      of the input.  For the list of all trees: than the number of its nodes. *)
  Theorem C127_first_depth : exists tr, reads t m tr /\ forall fuel, alts_bound g (length w) <= fuel -> first_tree W fuel root = Ret tr.
  Proof.
    destruct C127_first_tree as (tr & Rt & Rd). exists tr. split; [exact Rd|]. intros fuel Lf.
    destruct tree_ranked as [(a & Ia) Rk]. pose proof (parse_live g sg lay Bg Wr Lay w t0 t m A R) as L.
    destruct (nalts t m) as [|a0 s] eqn:E; [destruct Ia|].
    destruct (first_deep W h t At m (alts_bound g (length w)) L Rk tree_sorted
      (proj2 (C85_forest_size g sg lay Bg Wr w t0 m t A R)) (alts_bound g (length w)) [] a0 m (star_refl _ _)
      ltac:(rewrite E; reflexivity) (NoDup_nil _) ltac:(intros u []) eq_refl fuel Lf) as (tr' & E').
    rewrite E'. f_equal. destruct Rt as [_ (n & Rt)].
    pose proof (first_mono W fuel (n + fuel) root ltac:(lia)) as X. rewrite E' in X. specialize (X ltac:(discriminate)).
    rewrite (Rt (n + fuel) ltac:(lia)) in X. congruence.
  Qed.
  Theorem C127_only_depth : exists o, forall fuel, alts_bound g (length w) <= fuel -> only_tree W fuel root = Ret o.
  Proof.
    destruct C127_first_depth as (tr & Rd & Ft). pose proof (first_height W h t At _ m tr (Ft _ (le_n _))) as Ht.
    assert (Y : forall fuel, alts_bound g (length w) <= fuel -> exists o, only_tree W fuel root = Ret o).
    { intros fuel Lf. apply (proj1 (only_deep W h t At) m tr Rd). lia. }
    assert (Z : exists o, runs_to (fun fuel => only_tree W fuel root) (Ret o)) by (destruct C127_only_tree as [[_ (tr1 & Rn & _)]|[_ Rn]]; eauto).
    destruct Z as (o & _ & n & Rn). exists o. intros fuel Lf. destruct (Y fuel Lf) as (o' & E'). rewrite E'. f_equal.
    pose proof (only_mono W fuel (n + fuel) root ltac:(lia)) as X. rewrite E' in X. specialize (X ltac:(discriminate)).
    rewrite (Rn (n + fuel) ltac:(lia)) in X. congruence.
  Qed.
  Theorem C127_all_depth : ~ cyclic t m ->
    exists l, (forall tr, In tr l <-> reads t m tr) /\ forall fuel, nodes_bound g (length w) <= fuel -> all_trees W fuel root = Ret l.
  Proof.
    intro C. destruct (C127_all_trees C) as (l & Rl & E). exists l. split; [exact E|]. intros fuel Lf.
    pose proof (parse_live g sg lay Bg Wr Lay w t0 t m A R) as L.
    assert (Pl : forall l, path t m l -> length l <= nodes_bound g (length w)).
    { intros p Pp. apply (proj1 (C85_forest_size g sg lay Bg Wr w t0 m t A R)); [exact (path_nodup t _ _ Pp C)|exact (path_star t _ _ Pp)]. }
    destruct (all_deep W h t At _ m L Pl fuel Lf) as (l' & E'). rewrite E'. f_equal. destruct Rl as [_ (n & Rl)].
    pose proof (all_mono W fuel (n + fuel) root ltac:(lia)) as X. rewrite E' in X. specialize (X ltac:(discriminate)).
    rewrite (Rl (n + fuel) ltac:(lia)) in X. congruence.
  Qed.
End Props.

Print Assumptions C127_only_ll1.
Print Assumptions C127_first_depth.
Print Assumptions C127_only_depth.
Print Assumptions C127_all_depth.
Print Assumptions C127_first_tree.
Print Assumptions C127_first_parse.
Print Assumptions C127_all_trees.
Print Assumptions C127_all_trees_forever.
Print Assumptions C127_all_parses.
Print Assumptions C127_all_parses_forever.
Print Assumptions C127_only_tree.
Print Assumptions C127_only_parse.

(** ** Without the condition on cuts *)
Definition mix_calls : list (gb_call nat nat nat nat) :=
  [AddRule 0 [AddProd 10 0 [AddNonterm 1; AddNonterm 2]];
   AddRule 1 [AddProd 11 0 [AddTerm 1]; AddProd 12 0 [AddTerm 1; AddTerm 2]];
   AddRule 2 [AddProd 13 0 [AddTerm 3; AddTerm 4]; AddProd 14 0 [AddTerm 2; AddTerm 3; AddTerm 4]]].
Definition mix_g : Grammar nat nat nat nat := Eval vm_compute in
  match build 0 mix_calls 20 with Ret (Ok g) => g | _ => Build_Grammar 0 [] end.
Lemma mix_built : built mix_g.
Proof. exists 0, mix_calls. apply (build_vm _ _ 20); [vm_compute; reflexivity|discriminate]. Qed.

(** The first tree need not be a derivation tree of the input: here it drops the second token. *)
Theorem C127_first_parse_refuted : exists (g : Grammar nat nat nat nat) sg lay (w : list (Token nat nat)) t0 m t,
  built g /\ runs_to (wrap_grammar_with_start g) (Ret (Ok sg)) /\ in_memory sg lay /\ api_tree t0 /\ keys_distinct g /\
  runs_to (fun fuel => parse lay sg w t0 fuel) (Ret (Some m, t)) /\
  exists tr, runs_to (fun fuel => first_tree [t] fuel {| nd_index := m; nd_inner := 0 |}) (Ret tr) /\ ~ dtree g (NonTerm (start_nt g)) w tr.
Proof.
  exists mix_g, (ex_wrap mix_g), ex_slay, (map ex_tok [1; 2; 3; 4]), in_new.
  let r := eval vm_compute in (parse ex_slay (ex_wrap mix_g) (map ex_tok [1; 2; 3; 4]) in_new 20) in
  match r with Ret (Some ?m, ?t) => exists m, t end.
  split; [exact mix_built|]. split; [apply wrap_vm; vm_compute; reflexivity|]. split; [apply ex_slay_mem; vm_compute; reflexivity|].
  split; [exact api_tree_new|]. split.
  { intros r I. repeat (destruct I as [<-|I]; [cbn; repeat (constructor; [cbn; lia|]); constructor|]). destruct I. }
  match goal with |- runs_to _ (Ret (Some ?m, ?t)) /\ _ =>
    assert (Rp : runs_to (fun fuel => parse ex_slay (ex_wrap mix_g) (map ex_tok [1; 2; 3; 4]) in_new fuel) (Ret (Some m, t)))
      by (apply (parse_vm _ _ _ _ 20); [vm_compute; reflexivity|discriminate]);
    split; [exact Rp|];
    destruct (C127_first_tree (V := nat) mix_g (ex_wrap mix_g) ex_slay mix_built ltac:(apply wrap_vm; vm_compute; reflexivity)
      ltac:(apply ex_slay_mem; vm_compute; reflexivity) (map ex_tok [1; 2; 3; 4]) in_new t m api_tree_new Rp [t] 0 eq_refl) as (tr & Rt & _)
  end.
  exists tr. split; [exact Rt|]. destruct Rt as [_ (n & Rt)]. specialize (Rt (n + 10) ltac:(lia)).
  rewrite Nat.add_comm in Rt. cbn in Rt. injection Rt as <-.
  intro D. apply (proj1 (dtree_yield _)) in D. vm_compute in D. discriminate D.
Qed.
Print Assumptions C127_first_parse_refuted.

(** ** The hypotheses are met *)
(** Three parses of one token. *)
Definition three_calls : list (gb_call nat nat nat nat) :=
  [AddRule 0 [AddProd 10 0 [AddNonterm 1]; AddProd 11 0 [AddNonterm 2]; AddProd 12 0 [AddTerm 7]];
   AddRule 1 [AddProd 13 0 [AddTerm 7]]; AddRule 2 [AddProd 14 0 [AddTerm 7]]].
Definition three_g : Grammar nat nat nat nat := Eval vm_compute in
  match build 0 three_calls 20 with Ret (Ok g) => g | _ => Build_Grammar 0 [] end.
Example C127_three : built three_g /\ runs_to (wrap_grammar_with_start three_g) (Ret (Ok (ex_wrap three_g))) /\
  in_memory (ex_wrap three_g) ex_slay /\ unique_cuts (rhs_of three_g) 0 [7] /\ keys_distinct three_g /\
  exists m t, runs_to (fun fuel => parse ex_slay (ex_wrap three_g) (map ex_tok [7]) in_new fuel) (Ret (Some m, t)) /\
    finitely_many (dtree three_g (NonTerm 0) (map ex_tok [7])) /\
    first_tree [t] 10 {| nd_index := m; nd_inner := 0 |} = Ret (PBranch 12 [PLeaf 7 0]) /\
    all_trees [t] 10 {| nd_index := m; nd_inner := 0 |} =
      Ret [PBranch 12 [PLeaf 7 0]; PBranch 10 [PBranch 13 [PLeaf 7 0]]; PBranch 11 [PBranch 14 [PLeaf 7 0]]] /\
    only_tree [t] 10 {| nd_index := m; nd_inner := 0 |} = Ret None.
Proof.
  split; [exists 0, three_calls; apply (build_vm _ _ 20); [vm_compute; reflexivity|discriminate]|].
  split; [apply wrap_vm; vm_compute; reflexivity|]. split; [apply ex_slay_mem; vm_compute; reflexivity|].
  split; [apply pf_unique_cuts, unit_prefix_free; intros B rhs Pr; apply prod_list_rhs in Pr; destruct Pr as (k & Pr); tprods Pr; reflexivity|].
  split; [intros r I; repeat (destruct I as [<-|I]; [cbn; repeat (constructor; [cbn; lia|]); constructor|]); destruct I|].
  eexists _, _. split; [apply (parse_vm _ _ _ _ 20); [vm_compute; reflexivity|discriminate]|].
  split.
  - exists [PBranch 12 [PLeaf 7 0]; PBranch 10 [PBranch 13 [PLeaf 7 0]]; PBranch 11 [PBranch 14 [PLeaf 7 0]]].
    intros tr D. assert (Ets : map (fun x => (tk_kind x, tk_value x)) (map ex_tok [7]) = [(7, 0)]) by reflexivity.
    revert D Ets. generalize (map ex_tok [7]). intros ts D Ets.
    apply dtree_inv in D as (k & rhs & cs & I & D & ->). tprods I; inv_d; cbn in Ets;
      try (apply dtree_inv in H as (k & rhs & cs & I & D & ->); tprods I; inv_d; cbn in Ets);
      injection Ets; intros; subst; simpl; auto.
  - vm_compute. auto.
Qed.
(** A forest with a cycle (C118_cyclic): the first tree is there, the list of all is never finished. *)
Example C127_cycle : exists m t, runs_to (fun fuel => parse ex_slay (ex_wrap ex_cyc_g) (map ex_tok [7]) in_new fuel) (Ret (Some m, t)) /\
  (exists tr, runs_to (fun fuel => first_tree [t] fuel {| nd_index := m; nd_inner := 0 |}) (Ret tr)) /\
  diverges (fun fuel => all_trees [t] fuel {| nd_index := m; nd_inner := 0 |}) /\
  runs_to (fun fuel => only_tree [t] fuel {| nd_index := m; nd_inner := 0 |}) (Ret None).
Proof.
  destruct C118_cyclic as (B & Wr & Lay & _ & _ & m & t & R & C). exists m, t. split; [exact R|].
  assert (E : nth_error [t] 0 = Some t) by reflexivity. split; [|split].
  - destruct (C127_first_tree _ _ _ B Wr Lay _ _ _ _ api_tree_new R [t] 0 E) as (tr & Rt & _). exists tr. exact Rt.
  - exact (C127_all_trees_forever _ _ _ B Wr Lay _ _ _ _ api_tree_new R [t] 0 E C).
  - destruct (C127_only_tree _ _ _ B Wr Lay _ _ _ _ api_tree_new R [t] 0 E) as [[_ (tr & _ & D)]|[_ X]]; [|exact X]. exfalso.
    apply (cycle_infinite t m (parse_live _ _ _ B Wr Lay _ _ _ _ api_tree_new R) C).
    destruct (C118_cyclic) as (_ & _ & _ & U & _). exists [tr]. intros tr' Rd. left. symmetry. apply D.
    apply (C67_forest_exact _ _ _ B Wr (in_memory_inj _ _ Lay) (map ex_tok [7]) _ _ _ api_tree_new U R). exact Rd.
Qed.
(** A forest without choices (C118_one): the only tree is found. *)
Example C127_one : exists m t, runs_to (fun fuel => parse ex_slay (ex_wrap ex_br_g) (map ex_tok [1; 0; 1; 0; 0; 2; 2]) in_new fuel) (Ret (Some m, t)) /\
  exists tr, runs_to (fun fuel => only_tree [t] fuel {| nd_index := m; nd_inner := 0 |}) (Ret (Some tr)).
Proof.
  destruct C118_one as (B & Wr & Lay & _ & _ & m & t & R & N). exists m, t. split; [exact R|].
  destruct (C127_only_tree _ _ _ B Wr Lay _ _ _ _ api_tree_new R [t] 0 eq_refl) as [[_ (tr & Rt & _)]|[X _]]; [exists tr; exact Rt|contradiction].
Qed.
