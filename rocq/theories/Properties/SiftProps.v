(** C128: programs that get exactly the derivation trees of the input out of the result of a parse, for every grammar
    (src/parsers/tree.rs:387-399, 450-461; src/parsers/earley/state.rs:171-214, 263-313). *)
From Coq Require Import String List Arith NArith Lia Bool.
From Verif.Model Require Import Ord BTree Outcome Utils Grammar StartGrammar Nullable NonNull Tokens Tree State Earley.
From Verif.Spec Require Import Reach Cfg BuildSpec NullSpec NonNullSpec TreeSpec EarleySpec SizeSpec KeySpec AmbigSpec WalkSpec SiftSpec TrimSpec Examples.
From Verif.Proofs Require Import OrdFacts BTreeFacts LoopFacts GrammarFacts StartFacts BuildMore CfgFacts TreeFacts TreeHist
  EarleyItems EarleyRun EarleyParse EarleyMain TreeLink EarleyMore EarleySize EarleyExact NullableFacts NullableMore NonNullFacts NonNullMore TrimFacts AmbigFacts ExampleFacts WalkFacts SiftFacts.
From Verif.Properties Require Import EarleyProps SizeProps AmbigProps WalkProps PipelineProps OptionalProps.
Import ListNotations.

Section Props.
  Context {T NT AK AV V : Type} `{OrdEq T} `{OrdEq NT} `{OrdEq AK} `{OrdEq V}.
  Variable g : Grammar T NT AK AV.
  Variable sg : StartGrammar T NT AK AV.
  Variable lay : layout (StartNonTerminal NT).
  Hypothesis Bg : built g.
  Hypothesis Wr : runs_to (wrap_grammar_with_start g) (Ret (Ok sg)).
  Hypothesis Lay : in_memory sg lay.
  Local Notation S0 := (start_nt g).
  Variable w : list (Token T V).
  Variables (t0 t : Inner T AK V) (m : nat).
  Hypothesis A : api_tree t0.
  Hypothesis R : runs_to (fun fuel => parse lay sg w t0 fuel) (Ret (Some m, t)).
  (** [root] is the node the parser returned, in the trees [W] of the program. *)
  Variable W : world T AK V.
  Variable h : TreeHandle.
  Hypothesis At : nth_error W h = Some t.
  Local Notation root := {| nd_index := m; nd_inner := h |}.

  Lemma parse_of tr : (reads t m tr /\ yield tr = w) <-> dtree g (NonTerm S0) w tr.
  Proof.
    split.
    - intros [Rd Y]. destruct (C66_forest_conforms g sg lay Bg Wr (in_memory_inj _ _ Lay) w t0 m t A R tr Rd) as (ts & D).
      pose proof (proj1 (dtree_yield g) _ _ _ D) as Y'. congruence.
    - intro D. split; [exact (C45_forest_complete g sg lay Bg Wr (in_memory_inj _ _ Lay) w t0 m t A R tr D)|exact (proj1 (dtree_yield g) _ _ _ D)].
  Qed.

  (** C128.  The trees up to a height: the program always ends, even if the forest has cycles. *)
  Theorem C128_upto k : exists l, trees_upto W k root = Ret l /\ forall tr, In tr l <-> reads t m tr /\ height tr <= k.
  Proof. exact (upto_lists W h t At k m (parse_live g sg lay Bg Wr Lay w t0 t m A R)). Qed.
  (** C128.  Those of them whose leaves are the input are exactly the derivation trees of the input up to that height, whatever
      the grammar. *)
  Theorem C128_sift k : exists l, trees_upto W k root = Ret l /\ forall tr, In tr (sift w l) <-> dtree g (NonTerm S0) w tr /\ height tr <= k.
  Proof.
    destruct (C128_upto k) as (l & E & I). exists l. split; [exact E|]. intro tr. rewrite sift_In, I, <- parse_of. tauto.
  Qed.
  (** C128.  The same for the list of all trees, if the forest has no cycle. *)
  Theorem C128_sift_all : ~ cyclic t m ->
    exists l, runs_to (fun fuel => all_trees W fuel root) (Ret l) /\ forall tr, In tr (sift w l) <-> dtree g (NonTerm S0) w tr.
  Proof.
    intro C. destruct (C127_all_trees g sg lay Bg Wr Lay w t0 t m A R W h At C) as (l & E & I). exists l. split; [exact E|].
    intro tr. rewrite sift_In, I. apply parse_of.
  Qed.

  (** C128.  Trying one height after the other finds a derivation tree of the input after every successful parse, and a lowest one. *)
  Theorem C128_find : exists tr, runs_to (fun fuel => find_tree W fuel 0 w root) (Ret tr) /\ dtree g (NonTerm S0) w tr /\
    forall tr', dtree g (NonTerm S0) w tr' -> height tr <= height tr'.
  Proof.
    destruct (some_tree g sg lay Bg Wr Lay w t0 t m A R) as (tr & D).
    destruct (find_some W root w _ C128_sift (height tr) 0 tr D ltac:(lia) ltac:(intros; lia)) as (tr' & F & D' & Mn).
    exists tr'. split; [|auto]. split; [discriminate|]. exists (S (height tr)). intros fuel Lf. apply F. lia.
  Qed.
  (** C128.  It need not try more heights than the number of rules times the number of pieces of the input, and one. *)
  Theorem C128_find_depth : exists tr, dtree g (NonTerm S0) w tr /\ height tr <= height_bound g (length w) /\
    forall fuel, height_bound g (length w) < fuel -> find_tree W fuel 0 w root = Ret tr.
  Proof.
    destruct (some_tree g sg lay Bg Wr Lay w t0 t m A R) as (tr0 & D0).
    destruct (low_tree g w _ [] w [] tr0 ltac:(rewrite app_nil_r; reflexivity) D0) as (tr & D & L).
    destruct (find_some W root w _ C128_sift (height_bound g (length w)) 0 tr D ltac:(lia) ltac:(intros; lia)) as (tr' & F & D' & Mn).
    exists tr'. split; [exact D'|]. split; [specialize (Mn tr D); lia|]. exact F.
  Qed.

  (** C128.  If no rule repeats a key, the trees up to twice that height tell whether the input is ambiguous. *)
  Theorem C128_two_trees : KeySpec.keys_distinct g ->
    exists b, two_trees W (2 * height_bound g (length w)) w root = Ret b /\
      (b = true <-> exists tr tr', dtree g (NonTerm S0) w tr /\ dtree g (NonTerm S0) w tr' /\ tr <> tr').
  Proof.
    intro K. destruct (C128_sift (2 * height_bound g (length w))) as (l & E & I). unfold two_trees. rewrite E. cbn [obind].
    assert (Kp : forall B p q, prod_of g B p -> prod_of g B q -> pi_action_key p = pi_action_key q -> p = q).
    { intros B p q (r & Ir & J) (r' & Ir' & J') Ek. pose proof (acc_wf g (built_accepted g Bg)) as [Sd _].
      assert (r = r') as <- by (apply bt_get_iff in Ir, Ir'; try exact Sd; congruence).
      exact (nn_map_inj _ _ _ _ (K r (in_map snd _ _ Ir)) J J' Ek). }
    assert (Tw : forall tr tr', dtree g (NonTerm S0) w tr -> dtree g (NonTerm S0) w tr' -> tr <> tr' ->
      exists a b, In a (sift w l) /\ In b (sift w l) /\ a <> b).
    { intros tr tr' D D' Ne.
      destruct (two_low g Kp w (fun x y => match eqb_spec x y with ReflectT _ e => left e | ReflectF _ e => right e end) tree_dec S0 w tr tr') as (a & b & Da & Db & Nab & La & Lb); auto.
      { exists [], []. rewrite app_nil_r. reflexivity. }
      exists a, b. cbn [fst snd] in *. split; [|split; [|exact Nab]]; apply I; auto. }
    destruct (sift w l) as [|tr s].
    - exists false. split; [reflexivity|]. split; [discriminate|]. intros (a & b & Da & Db & Ne). destruct (Tw a b Da Db Ne) as (? & ? & [] & _).
    - eexists. split; [reflexivity|]. rewrite existsb_exists. split.
      + intros (tr' & J & X). apply negb_true_iff in X. exists tr, tr'. split; [apply I; left; reflexivity|]. split; [apply I; right; exact J|].
        intro Y. apply same_tree_iff in Y. congruence.
      + intros (a & b & Da & Db & Ne). destruct (Tw a b Da Db Ne) as (c & d & Ic & Id & Ncd).
        assert (X : exists u, In u (tr :: s) /\ u <> tr).
        { destruct (tree_dec c tr) as [->|Nc]; [exists d; split; [exact Id|congruence]|exists c; auto]. }
        destruct X as (u & [->|J] & Nu); [contradiction|]. exists u. split; [exact J|]. apply negb_true_iff.
        destruct (same_tree tr u) eqn:Y; [apply same_tree_iff in Y; congruence|reflexivity].
  Qed.
End Props.

Print Assumptions C128_upto.
Print Assumptions C128_sift.
Print Assumptions C128_sift_all.
Print Assumptions C128_find.
Print Assumptions C128_find_depth.
Print Assumptions C128_two_trees.

(** ** Grammars with optional parts *)
Section Optional.
  Context {T NT AK AV V : Type} `{OrdEq T} `{OrdEq NT} `{OrdEq AK} `{OrdEq V}.
  (** A grammar, transformed, then wrapped with a start rule. *)
  Variable lay0 : layout NT.
  Variable g : Grammar T NT AK AV.
  Variable g' : NonNullGrammar T NT AK AV.
  Variable sg : StartGrammar T NT (NNActionKey AK) (NNActionValue NT AK AV).
  Variable lay : layout (StartNonTerminal NT).
  Hypothesis Inj : lay_inj g lay0.
  Hypothesis Bg : built g.
  Hypothesis Tr : runs_to (transform_to_nonnull lay0 g) (Ret (Ok g')).
  Hypothesis Wr : runs_to (wrap_grammar_with_start g') (Ret (Ok sg)).
  Hypothesis Lay : in_memory sg lay.
  Variable w : list (Token T V).
  Variables (t0 t : Inner T (NNActionKey AK) V) (m : nat).
  Hypothesis A : api_tree t0.
  Hypothesis R : runs_to (fun fuel => parse lay sg w t0 fuel) (Ret (Some m, t)).
  Variable W : world T (NNActionKey AK) V.
  Variable h : TreeHandle.
  Hypothesis At : nth_error W h = Some t.
  Local Notation root := {| nd_index := m; nd_inner := h |}.

  Let B' : built g' := proj1 (transform_nonempty lay0 g Inj Bg g' Tr).
  Let St : start_nt g' = start_nt g := proj1 (transform_shape lay0 g Inj Bg g' Tr).
  Lemma optional_trees tr' : dtree g' (NonTerm (start_nt g')) w tr' <-> exists tr, stree g (NonTerm (start_nt g)) w tr /\ trim tr = tr'.
  Proof.
    rewrite St. rewrite (C88_trees_trimmed lay0 g g' Inj Bg Tr). split; [intros [_ X]; exact X|]. intro X. split; [|exact X].
    destruct (some_tree g' sg lay B' Wr Lay w t0 t m A R) as (d & D). rewrite St in D. apply (C88_trees_trimmed lay0 g g' Inj Bg Tr) in D. apply D.
  Qed.

  (** C128.  With the null-free grammar the filter gives exactly the trimmed trees (C88) of the original grammar for the input. *)
  Theorem C128_optional_sift k : exists l, trees_upto W k root = Ret l /\
    forall tr', In tr' (sift w l) <-> (exists tr, stree g (NonTerm (start_nt g)) w tr /\ trim tr = tr') /\ height tr' <= k.
  Proof.
    destruct (C128_sift g' sg lay B' Wr Lay w t0 t m A R W h At k) as (l & E & I). exists l. split; [exact E|].
    intro tr'. rewrite I, optional_trees. reflexivity.
  Qed.
  Theorem C128_optional_find : exists tr, stree g (NonTerm (start_nt g)) w tr /\ runs_to (fun fuel => find_tree W fuel 0 w root) (Ret (trim tr)).
  Proof.
    destruct (C128_find g' sg lay B' Wr Lay w t0 t m A R W h At) as (tr' & F & D & _). apply optional_trees in D as (tr & Sr & <-). exists tr. auto.
  Qed.
  (** C128.  If no rule of the original grammar repeats a key, ambiguity of the input in it is found out as well. *)
  Theorem C128_optional_two_trees : KeySpec.keys_distinct g ->
    exists b, two_trees W (2 * height_bound g' (length w)) w root = Ret b /\
      (b = true <-> exists tr tr', stree g (NonTerm (start_nt g)) w tr /\ stree g (NonTerm (start_nt g)) w tr' /\ tr <> tr').
  Proof.
    intro K.
    assert (K' : KeySpec.keys_distinct g').
    { intros r' I'. apply in_map_iff in I' as ((X, r1) & <- & I'). cbn [snd].
      pose proof (proj2 (transform_shape lay0 g Inj Bg g' Tr)) as F. destruct (Forall2_In_r _ _ _ _ F I') as ([Y r] & Ir & E & _). cbn [fst] in E. subst Y.
      exact (transform_keys lay0 g Inj Bg g' Tr X r r1 Ir I' (K r (in_map snd _ _ Ir))). }
    assert (K2 : TrimSpec.keys_distinct g) by (intros X r Ir; exact (K r (in_map snd _ _ Ir))).
    destruct (C128_two_trees g' sg lay B' Wr Lay w t0 t m A R W h At K') as (b & E & I). exists b. split; [exact E|]. rewrite I. split.
    - intros (x & y & Dx & Dy & N). apply optional_trees in Dx as (tr & Sr & <-). apply optional_trees in Dy as (tr' & Sr' & <-).
      exists tr, tr'. split; [exact Sr|]. split; [exact Sr'|]. congruence.
    - intros (tr & tr' & Sr & Sr' & N). exists (trim tr), (trim tr'). split; [apply optional_trees; eauto|]. split; [apply optional_trees; eauto|].
      intro X. apply N. exact (C88_trees_recoverable lay0 g g' Inj Bg Tr _ _ _ _ _ K2 Sr Sr' X).
  Qed.
End Optional.
Print Assumptions C128_optional_sift.
Print Assumptions C128_optional_find.
Print Assumptions C128_optional_two_trees.

(** ** The hypotheses are met *)
(** The input has one derivation tree; the forest holds another tree, which drops a token and is the first one. *)
Definition turn_calls : list (gb_call nat nat nat nat) :=
  [AddRule 0 [AddProd 10 0 [AddNonterm 1; AddNonterm 2]];
   AddRule 1 [AddProd 11 0 [AddTerm 1]; AddProd 12 0 [AddTerm 1; AddTerm 2]];
   AddRule 2 [AddProd 13 0 [AddTerm 3]; AddProd 14 0 [AddTerm 2; AddTerm 3]; AddProd 15 0 [AddTerm 3; AddTerm 4]]].
Definition turn_g : Grammar nat nat nat nat := Eval vm_compute in
  match build 0 turn_calls 20 with Ret (Ok g) => g | _ => Build_Grammar 0 [] end.
Example C128_turn : built turn_g /\ runs_to (wrap_grammar_with_start turn_g) (Ret (Ok (ex_wrap turn_g))) /\
  in_memory (ex_wrap turn_g) ex_slay /\ KeySpec.keys_distinct turn_g /\
  exists m t, runs_to (fun fuel => parse ex_slay (ex_wrap turn_g) (map ex_tok [1; 2; 3; 4]) in_new fuel) (Ret (Some m, t)) /\
    let root := {| nd_index := m; nd_inner := 0 |} in let w := map ex_tok [1; 2; 3; 4] in
    let right := PBranch 10 [PBranch 12 [PLeaf 1 0; PLeaf 2 0]; PBranch 15 [PLeaf 3 0; PLeaf 4 0]] in
    let wrong := PBranch 10 [PBranch 11 [PLeaf 1 0]; PBranch 15 [PLeaf 3 0; PLeaf 4 0]] in
    first_tree [t] 20 root = Ret wrong /\ all_trees [t] 20 root = Ret [wrong; right] /\ only_tree [t] 20 root = Ret None /\
    find_tree [t] 20 0 w root = Ret right /\ two_trees [t] (2 * height_bound turn_g 4) w root = Ret false.
Proof.
  split; [exists 0, turn_calls; apply (build_vm _ _ 20); [vm_compute; reflexivity|discriminate]|].
  split; [apply wrap_vm; vm_compute; reflexivity|]. split; [apply ex_slay_mem; vm_compute; reflexivity|].
  split; [intros r I; repeat (destruct I as [<-|I]; [cbn; repeat (constructor; [cbn; lia|]); constructor|]); destruct I|].
  eexists _, _. split; [apply (parse_vm _ _ _ _ 20); [vm_compute; reflexivity|discriminate]|].
  vm_compute. auto 6.
Qed.
(** A forest with a cycle (C118_cyclic): a tree is found, and the input is seen to be ambiguous. *)
Example C128_cycle : exists m t, runs_to (fun fuel => parse ex_slay (ex_wrap ex_cyc_g) (map ex_tok [7]) in_new fuel) (Ret (Some m, t)) /\
  cyclic t m /\
  let root := {| nd_index := m; nd_inner := 0 |} in
  find_tree [t] 20 0 (map ex_tok [7]) root = Ret (PBranch 11 [PLeaf 7 0]) /\
  two_trees [t] (2 * height_bound ex_cyc_g 1) (map ex_tok [7]) root = Ret true.
Proof.
  eexists _, _. split; [apply (parse_vm _ _ _ _ 20); [vm_compute; reflexivity|discriminate]|]. split.
  - exists 2. split.
    + first [apply star_refl | apply (star_step _ _ 1); [constructor|]; exists [1; 2], 2, 10, [2]; vm_compute; auto 8].
    + exists 2. split; [constructor|]. exists [1; 2], 2, 10, [2]. vm_compute. auto 8.
  - vm_compute. auto.
Qed.
(** The grammar with an optional part of C114 and the input without that part: the tree of the transformed grammar. *)
Example C128_optional : in_memory ex_opt_sg ex_slay /\ KeySpec.keys_distinct ex_opt_g /\
  exists m t, runs_to (fun fuel => parse ex_slay ex_opt_sg (map ex_tok [7; 9]) in_new fuel) (Ret (Some m, t)) /\
    let root := {| nd_index := m; nd_inner := 0 |} in
    find_tree [t] 20 0 (map ex_tok [7; 9]) root = Ret (PBranch (Build_NNActionKey 10 [true]) [PLeaf 7 0; PLeaf 9 0]) /\
    two_trees [t] (2 * height_bound ex_opt_nn 2) (map ex_tok [7; 9]) root = Ret false.
Proof.
  split; [apply ex_slay_mem; vm_compute; reflexivity|].
  split; [intros r I; repeat (destruct I as [<-|I]; [cbn; repeat (constructor; [cbn; lia|]); constructor|]); destruct I|].
  eexists _, _. split; [apply (parse_vm _ _ _ _ 20); [vm_compute; reflexivity|discriminate]|].
  vm_compute. auto.
Qed.
