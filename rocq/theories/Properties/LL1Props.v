(** C108: the parser is right for all grammars in which one token decides and nothing is empty.
    C109: productions it can never get past.
    C110: exactly the grammars all of whose words can be parsed. *)
From Coq Require Import String List Arith NArith Lia.
From Verif.Model Require Import Ord BTree Outcome Utils Grammar StartGrammar Tokens Tree State Nullable Firsts Earley.
From Verif.Spec Require Import Reach Cfg BuildSpec NullSpec TreeSpec EarleySpec LL1Spec Examples.
From Verif.Proofs Require Import OrdFacts BTreeFacts LoopFacts GrammarFacts StartFacts BuildMore CfgFacts NullableFacts NullableMore FirstsFacts FirstsMore TreeFacts TreeHist
  EarleyItems EarleyRun EarleyParse EarleyMain TreeLink EarleyMore ExampleFacts LL1Facts StuckProds Overlaps.
From Verif.Properties Require Import NullableProps FirstsProps EarleyProps ExampleProps.
Import ListNotations.
Local Open Scope list_scope.

Section Passes.
  Context {T NT AK AV : Type} `{OrdEq T} `{OrdEq NT}.
  (** C108.  The condition can be tested with the library's own passes. *)
  Theorem C108_test_by_passes (lay : layout NT) (g : Grammar T NT AK AV) info m : lay_inj g lay -> built g ->
    runs_to (calculate_nullables lay g) (Ret (Ok info)) -> runs_to (calculate_firsts lay g) (Ret (Ok m)) ->
    (ll1 g <-> get_nullable_set info = [] /\ starts_differ g m).
  Proof.
    intros Li Bg Rn Rf.
    destruct (C07_nullable_decides lay g Li Bg) as (r & Rr & Ni). pose proof (runs_to_fun _ _ _ Rn Rr) as E0; injection E0 as <-. specialize (Ni info eq_refl).
    destruct Ni as (_ & Ns & _).
    destruct (C14_firsts lay g Li Bg) as (r & Rr' & Fi). pose proof (runs_to_fun _ _ _ Rf Rr') as E0; injection E0 as <-. destruct Fi as [_ Fi].
    assert (E : get_nullable_set info = [] <-> forall A, ~ derives_empty g A).
    { split; [intros E A D; apply Ns in D; rewrite E in D; exact D|]. intro N.
      destruct (get_nullable_set info) as [|A l] eqn:El; [reflexivity|]. destruct (N A). apply Ns. left. reflexivity. }
    rewrite E. unfold ll1, starts_differ. split.
    - intros [N D]. split; [exact N|]. intros A i j p q t Np Nq Ne Ip Iq.
      apply Ne. apply (D A i j p q t Np Nq); apply (starts_iff g m _ _ N Fi); assumption.
    - intros [N D]. split; [exact N|]. intros A i j p q t Np Nq Bp Bq.
      destruct (Nat.eq_dec i j) as [->|Ne]; [reflexivity|]. exfalso.
      apply (starts_iff g m _ _ N Fi) in Bp, Bq. exact (D A i j p q t Np Nq Ne Bp Bq).
  Qed.
  (** C108.  Such a grammar is unambiguous. *)
  Theorem C108_one_tree {V} (g : Grammar T NT AK AV) : built g -> ll1 g ->
    forall A (ts : list (Token T V)) t t', dtree g (NonTerm A) ts t -> dtree g (NonTerm A) ts t' -> t = t'.
  Proof. intros Bg L A ts t t' D D'. exact (proj1 (ll1_trees g Bg L) _ _ _ D _ D'). Qed.
End Passes.

Section Parse.
  Context {T NT AK AV V : Type} `{OrdEq T} `{OrdEq NT} `{OrdEq AK} `{OrdEq V}.
  Variable g : Grammar T NT AK AV.
  Variable sg : StartGrammar T NT AK AV.
  Variable lay : layout (StartNonTerminal NT).
  Hypothesis Bg : built g.
  Hypothesis Wr : runs_to (wrap_grammar_with_start g) (Ret (Ok sg)).
  Hypothesis Lay : lay_inj sg lay.
  Local Notation P := (rhs_of g).
  Local Notation S0 := (start_nt g).

  (** C108.  Every input: a word gives a node with exactly its one tree, a proper beginning of a word gives [None],
      anything else is the panic of a syntax error. *)
  Theorem C108_ll1_parse (w : list (Token T V)) t0 : ll1 g -> productive P S0 -> api_tree t0 ->
    (lang P S0 (map tk_kind w) ->
      exists tr m t, dtree g (NonTerm S0) w tr /\ runs_to (fun fuel => parse lay sg w t0 fuel) (Ret (Some m, t)) /\
        forall tr', reads t m tr' <-> tr' = tr) /\
    (forall v, lang P S0 (map tk_kind w ++ v) -> v <> [] ->
      exists t, runs_to (fun fuel => parse lay sg w t0 fuel) (Ret (None, t))) /\
    ((forall v, ~ lang P S0 (map tk_kind w ++ v)) ->
      runs_to (fun fuel => parse lay sg w t0 fuel) (Panic "assertion failed: !new_state.is_empty()")).
  Proof.
    intros L Pd A. pose proof (ll1_prefix_free g Bg L) as PF.
    destruct (C47_prefix_free_verdict g sg lay Bg Wr Lay w t0 PF Pd A) as (Y & No & Er). split; [|split; [exact No|]].
    - intro Lw. destruct (Y Lw) as (m & t & R & Tr). destruct (gen_dtrees (V := V) g _ _ Lw w eq_refl) as (cs & D).
      assert (X : exists c, dtree g (NonTerm S0) w c).
      { inversion D as [|e es ts us c cs0 D1 D2 E1 E2 E3]; subst. inversion D2; subst. rewrite app_nil_r. eauto. }
      destruct X as (c & D1). exists c, m, t. split; [exact D1|]. split; [exact R|].
      intro tr'. rewrite Tr. split; [intro D'; exact (C108_one_tree g Bg L _ _ _ _ D' D1)|intros ->; exact D1].
    - intro N. destruct (Er N) as (msg & R). pose proof R as R0.
      apply (C99_panic_message g sg lay Bg Wr Lay w t0 msg A) in R0. destruct R0 as (j & Lj & _ & [[_ ->]|(_ & [C|[_ C]] & _)]); [exact R| |].
      + destruct (pf_two_places P PF _ _ _ C).
      + destruct (pf_no_empty P PF _ C).
  Qed.

  (** C109.  A production that begins with its own head: no input with a piece derived through it can be parsed. *)
  Theorem C109_left_recursion_panics (w : list (Token T V)) t0 A rest pre post u y v : api_tree t0 ->
    P A (NonTerm A :: rest) -> rest <> [] ->
    derives_form P [NonTerm S0] (pre ++ NonTerm A :: post) -> gen P pre u -> gen P (NonTerm A :: rest) y ->
    map tk_kind w = u ++ y ++ v ->
    exists msg, runs_to (fun fuel => parse lay sg w t0 fuel) (Panic msg).
  Proof.
    intros At Pr N D G Gy Ew. apply (C65_parse_panics_iff g sg lay Bg Wr Lay w t0 At). exists (length u + length y).
    split; [rewrite <- (map_length tk_kind w), Ew, !app_length; lia|]. right; left. exact (left_rec_two P S0 _ _ _ _ _ _ _ _ D Pr N G Gy Ew).
  Qed.
  (** C109.  A production with a symbol that may be empty: the parse ends where that symbol is expected. *)
  Theorem C109_maybe_empty_panics (w : list (Token T V)) t0 A before B after pre post u y v : api_tree t0 ->
    P A (before ++ NonTerm B :: after) -> lang P B [] ->
    derives_form P [NonTerm S0] (pre ++ NonTerm A :: post) -> gen P pre u -> gen P before y ->
    map tk_kind w = u ++ y ++ v ->
    exists msg, runs_to (fun fuel => parse lay sg w t0 fuel) (Panic msg).
  Proof.
    intros At Pr N D G Gy Ew. apply (C65_parse_panics_iff g sg lay Bg Wr Lay w t0 At). exists (length u + length y).
    split; [rewrite <- (map_length tk_kind w), Ew, !app_length; lia|]. right; left. exact (maybe_empty_two P S0 _ _ _ _ _ _ _ _ _ _ D Pr N G Gy Ew).
  Qed.
  (** C109.  For words the text is always that of the failed comparison: it is no syntax error. *)
  Theorem C109_word_message (w : list (Token T V)) t0 msg : api_tree t0 -> lang P S0 (map tk_kind w) ->
    runs_to (fun fuel => parse lay sg w t0 fuel) (Panic msg) -> msg = "assertion failed: `(left == right)`"%string.
  Proof.
    intros A L R. apply (C99_panic_message g sg lay Bg Wr Lay w t0 msg A) in R. destruct R as (j & Lj & _ & [[Sy _]|(_ & _ & ->)]); [|reflexivity].
    destruct Sy. apply (word_viable P S0 _ (skipn j (map tk_kind w))). rewrite firstn_skipn. exact L.
  Qed.
  (** C110.  Exactly the grammars all of whose words are parsed. *)
  Theorem C110_all_words (v0 : V) : productive P S0 ->
    ((forall (w : list (Token T V)) t0, api_tree t0 -> lang P S0 (map tk_kind w) ->
        exists m t, runs_to (fun fuel => parse lay sg w t0 fuel) (Ret (Some m, t))) <->
     ~ lang P S0 [] /\ no_overlap P S0).
  Proof.
    intro Pd. split.
    - intro Y.
      assert (N : forall u, lang P S0 u -> ~ exists j, j <= length u /\ (two_places P S0 u j \/ lang P S0 [])).
      { intros u L (j & Lj & X). set (w := map (fun k => Build_Token k v0) u).
        assert (E : map tk_kind w = u) by (unfold w; rewrite map_map; cbn; apply map_id).
        destruct (Y w in_new api_tree_new) as (m & t & R); [rewrite E; exact L|].
        destruct (proj2 (C65_parse_panics_iff g sg lay Bg Wr Lay w in_new api_tree_new)) as (msg & R').
        - exists j. split; [rewrite <- (map_length tk_kind w), E; exact Lj|]. rewrite E. tauto.
        - pose proof (runs_to_fun _ _ _ R R'). discriminate. }
      split.
      + intro L. apply (N [] L). exists 0. auto.
      + intros A pre mid post x Re Pr Ne G1 G2. destruct (overlap_word P S0 A pre mid post x Pd Re Pr Ne G1 G2) as (u & k & L & Lk & Tw).
        apply (N u L). eauto.
    - intros [N O] w t0 A L.
      destruct (C44_parse_returns_partial g sg lay Bg Wr Lay w t0 A) as (o & t & R).
      + intros j _. apply (word_viable P S0 _ (skipn j (map tk_kind w))). rewrite firstn_skipn. exact L.
      + intro j. apply no_overlap_two. exact O.
      + exact N.
      + destruct o as [m|]; [eauto|]. destruct (C43_parse_rejects_only_nonwords g sg lay Bg Wr Lay w t0 t A R L).
  Qed.
  (** C110.  On these grammars every input gets the right answer, and if moreover no beginning of a body can be cut
      in two ways, exactly the derivation trees. *)
  Theorem C110_verdict (w : list (Token T V)) t0 : ~ lang P S0 [] -> no_overlap P S0 -> productive P S0 -> api_tree t0 ->
    (lang P S0 (map tk_kind w) -> exists m t, runs_to (fun fuel => parse lay sg w t0 fuel) (Ret (Some m, t)) /\
       (one_cut P S0 -> forall tr, reads t m tr <-> dtree g (NonTerm S0) w tr)) /\
    (forall v, lang P S0 (map tk_kind w ++ v) -> ~ lang P S0 (map tk_kind w) ->
       exists t, runs_to (fun fuel => parse lay sg w t0 fuel) (Ret (None, t))) /\
    ((forall v, ~ lang P S0 (map tk_kind w ++ v)) ->
       runs_to (fun fuel => parse lay sg w t0 fuel) (Panic "assertion failed: !new_state.is_empty()")).
  Proof.
    intros N O Pd A.
    assert (Rt : forall v, lang P S0 (map tk_kind w ++ v) -> exists o t, runs_to (fun fuel => parse lay sg w t0 fuel) (Ret (o, t))).
    { intros v L. apply (C44_parse_returns_partial g sg lay Bg Wr Lay w t0 A); [|intro j; apply no_overlap_two; exact O|exact N].
      intros j _. apply (word_viable P S0 _ (skipn j (map tk_kind w) ++ v)). rewrite app_assoc, firstn_skipn. exact L. }
    split; [|split].
    - intro L. destruct (Rt []) as (o & t & R); [rewrite app_nil_r; exact L|]. destruct o as [m|].
      + exists m, t. split; [exact R|]. intro C. exact (C67_forest_exact g sg lay Bg Wr Lay w t0 m t A (one_cut_unique P S0 _ C) R).
      + destruct (C43_parse_rejects_only_nonwords g sg lay Bg Wr Lay w t0 t A R L).
    - intros v L Nw. destruct (Rt v L) as (o & t & R). destruct o as [m|]; [|eauto].
      destruct (Nw (C42_parse_accepts_only_words g sg lay Bg Wr Lay w t0 m t A R)).
    - intro Nv. destruct (proj2 (C65_parse_panics_iff g sg lay Bg Wr Lay w t0 A)) as (msg & R).
      + exists (length w). split; [lia|]. left. rewrite <- (map_length tk_kind w), firstn_all. intro Vi.
        destruct (viable_word _ _ _ Pd Vi) as [v L]. exact (Nv v L).
      + pose proof R as R0. apply (C99_panic_message g sg lay Bg Wr Lay w t0 msg A) in R0.
        destruct R0 as (j & _ & _ & [[_ ->]|(_ & [C|[_ C]] & _)]); [exact R| |destruct (N C)].
        destruct (no_overlap_two P S0 _ _ O C).
  Qed.
End Parse.

(** A grammar in Polish notation: S(0) -> set E | seq S S | E;  E(1) -> num | plus E E | neg E.
    set=0, seq=1, num=5, plus=6, neg=7. *)
Definition ex_pol : list (gb_call nat nat nat nat) :=
  [AddRule 0 [AddProd 10 0 [AddTerm 0; AddNonterm 1]; AddProd 11 0 [AddTerm 1; AddNonterm 0; AddNonterm 0]; AddProd 12 0 [AddNonterm 1]];
   AddRule 1 [AddProd 13 0 [AddTerm 5]; AddProd 14 0 [AddTerm 6; AddNonterm 1; AddNonterm 1]; AddProd 15 0 [AddTerm 7; AddNonterm 1]]].
Definition ex_pol_g : Grammar nat nat nat nat :=
  match build 0 ex_pol 20 with Ret (Ok g) => g | _ => Build_Grammar 0 [] end.
Lemma built_pol : built ex_pol_g.
Proof. exists 0, ex_pol. apply (build_vm _ _ 20); [vm_compute; reflexivity | discriminate]. Qed.
Example ex_pol_ll1 : ll1 ex_pol_g.
Proof.
  eapply (C108_test_by_passes ex_lay ex_pol_g [] [(0, [0; 1; 5; 6; 7]); (1, [5; 6; 7])]).
  - apply ex_lay_inj. vm_compute. reflexivity.
  - exact built_pol.
  - apply (runs_to_mono _ 20); [apply calculate_nullables_mono|vm_compute; reflexivity|discriminate].
  - apply (runs_to_mono _ 20); [apply calculate_firsts_mono|vm_compute; reflexivity|discriminate].
  - split; [reflexivity|]. intros A i j p q t (r & I & J) (r' & I' & J') N Ip Iq. revert I I'. vm_compute. intros I I'.
    destruct I as [[= <- <-]|[[= <- <-]|[]]], I' as [[= <-]|[[= <-]|[]]]; cbn in J, J';
      destruct i as [|[|[|i]]]; cbn in J; try (destruct i; discriminate); injection J as <-;
      destruct j as [|[|[|j]]]; cbn in J'; try (destruct j; discriminate); injection J' as <-; try congruence;
      vm_compute in Ip, Iq; intuition congruence.
Qed.
Lemma pol_num : lang (rhs_of ex_pol_g) 1 [5].
Proof.
  apply lang_iff. exists [Term 5]. split; [|repeat constructor]. apply prod_list_rhs. exists 13. vm_compute. auto 10.
Qed.
Lemma pol_productive : productive (rhs_of ex_pol_g) 0.
Proof.
  intros A R. assert (A = 0 \/ A = 1) as C.
  { revert A R. apply (reach_in _ _ (fun A => A = 0 \/ A = 1)); [auto|]. intros A B rhs Pr I. apply prod_list_rhs in Pr. destruct Pr as (k & Pr).
    vm_compute in Pr. repeat match type of Pr with _ \/ _ => destruct Pr as [Pr|Pr] | False => destruct Pr end; injection Pr as <- _ <-; in_cases; auto. }
  destruct C as [-> | ->]; [|exists [5]; exact pol_num]. exists [5]. apply lang_iff. exists [NonTerm 1]. split; [|exact pol_num].
  apply prod_list_rhs. exists 12. vm_compute. auto 10.
Qed.
(** seq (set (plus num num)) (neg num) *)
Example ex_pol_parse : let w := map ex_tok [1; 0; 6; 5; 5; 7; 5] in
  exists m t, parse ex_slay (ex_wrap ex_pol_g) w (@in_new nat nat nat) 40 = Ret (Some m, t) /\
    reads t m (PBranch 11 [PLeaf 1 0; PBranch 10 [PLeaf 0 0; PBranch 14 [PLeaf 6 0; PBranch 13 [PLeaf 5 0]; PBranch 13 [PLeaf 5 0]]];
                           PBranch 12 [PBranch 15 [PLeaf 7 0; PBranch 13 [PLeaf 5 0]]]]).
Proof.
  cbv zeta. assert (Wr : runs_to (wrap_grammar_with_start ex_pol_g) (Ret (Ok (ex_wrap ex_pol_g)))) by (apply wrap_vm; vm_compute; reflexivity).
  assert (Lay : lay_inj (ex_wrap ex_pol_g) ex_slay) by (apply ex_slay_inj; vm_compute; reflexivity).
  destruct (parse ex_slay (ex_wrap ex_pol_g) (map ex_tok [1; 0; 6; 5; 5; 7; 5]) (@in_new nat nat nat) 40) as [[[m|] t]|msg|] eqn:E;
    try (exfalso; vm_compute in E; discriminate).
  exists m, t. split; [reflexivity|]. apply (C45_forest_complete ex_pol_g _ _ built_pol Wr Lay _ _ m t api_tree_new (parse_vm _ _ _ _ 40 _ E ltac:(discriminate))).
  assert (PR : forall A k rhs (ts : list (Token nat nat)) cs, In (A, k, rhs) (prod_list ex_pol_g) -> dtrees ex_pol_g rhs ts cs -> dtree ex_pol_g (NonTerm A) ts (PBranch k cs)).
  { intros A k rhs ts cs I D. apply prod_list_inv in I. destruct I as (p & Pp & <- & <-). constructor; assumption. }
  change (start_nt ex_pol_g) with 0. change (map ex_tok [1; 0; 6; 5; 5; 7; 5]) with ([ex_tok 1] ++ ([ex_tok 0] ++ ([ex_tok 6] ++ ([ex_tok 5] ++ []) ++ ([ex_tok 5] ++ []) ++ []) ++ []) ++ (([ex_tok 7] ++ ([ex_tok 5] ++ []) ++ []) ++ []) ++ []).
  eapply PR with (rhs := [Term 1; NonTerm 0; NonTerm 0]); [vm_compute; auto 10|].
  apply (dtrees_cons _ (Term 1)); [constructor|]. apply dtrees_cons.
  { eapply PR with (rhs := [Term 0; NonTerm 1]); [vm_compute; auto 10|]. apply (dtrees_cons _ (Term 0)); [constructor|]. apply dtrees_cons; [|constructor].
    eapply PR with (rhs := [Term 6; NonTerm 1; NonTerm 1]); [vm_compute; auto 10|]. apply (dtrees_cons _ (Term 6)); [constructor|].
    repeat (apply dtrees_cons; [eapply PR with (rhs := [Term 5]); [vm_compute; auto 10|]; apply (dtrees_cons _ (Term 5)); constructor|]). constructor. }
  apply dtrees_cons; [|constructor].
  eapply PR with (rhs := [NonTerm 1]); [vm_compute; auto 10|]. apply dtrees_cons; [|constructor].
  eapply PR with (rhs := [Term 7; NonTerm 1]); [vm_compute; auto 10|]. apply (dtrees_cons _ (Term 7)); [constructor|]. apply dtrees_cons; [|constructor].
  eapply PR with (rhs := [Term 5]); [vm_compute; auto 10|]. apply (dtrees_cons _ (Term 5)); constructor.
Qed.

(** C109: id + id with E -> E + F | F, and 8 7 with 0 -> 1 2 7; 1 -> 8; 2 -> (empty) | 9. *)
Example ex_left_recursion : rhs_of ex_expr_g 0 (NonTerm 0 :: [Term 1; NonTerm 1]) /\
  derives_form (rhs_of ex_expr_g) [NonTerm (start_nt ex_expr_g)] ([] ++ NonTerm 0 :: []) /\ gen (rhs_of ex_expr_g) [] [] /\
  gen (rhs_of ex_expr_g) (NonTerm 0 :: [Term 1; NonTerm 1]) [0; 1; 0].
Proof.
  assert (F : lang (rhs_of ex_expr_g) 1 [0]).
  { apply lang_iff. exists [Term 0]. split; [|repeat constructor]. apply prod_list_rhs. exists 12. vm_compute. auto 10. }
  split; [apply prod_list_rhs; exists 10; vm_compute; auto 10|]. split; [apply df_refl|]. split; [constructor|].
  apply (gen_nonterm _ 0 [NonTerm 1] _ [0] [1; 0]); [apply prod_list_rhs; exists 11; vm_compute; auto 10|exact F|].
  constructor. exact F.
Qed.
Example ex_maybe_empty : rhs_of ex_follow_g 0 ([NonTerm 1] ++ NonTerm 2 :: [Term 7]) /\ lang (rhs_of ex_follow_g) 2 [] /\
  derives_form (rhs_of ex_follow_g) [NonTerm (start_nt ex_follow_g)] ([] ++ NonTerm 0 :: []) /\ gen (rhs_of ex_follow_g) [NonTerm 1] [8] /\
  lang (rhs_of ex_follow_g) 0 [8; 7].
Proof.
  assert (A : lang (rhs_of ex_follow_g) 1 [8]).
  { apply lang_iff. exists [Term 8]. split; [|repeat constructor]. apply prod_list_rhs. exists 11. vm_compute. auto 10. }
  assert (B : lang (rhs_of ex_follow_g) 2 []).
  { apply lang_iff. exists []. split; [|constructor]. apply prod_list_rhs. exists 12. vm_compute. auto 10. }
  assert (R : rhs_of ex_follow_g 0 [NonTerm 1; NonTerm 2; Term 7]) by (apply prod_list_rhs; exists 10; vm_compute; auto 10).
  split; [exact R|]. split; [exact B|]. split; [apply df_refl|]. split; [exact A|].
  apply lang_iff. exists [NonTerm 1; NonTerm 2; Term 7]. split; [exact R|].
  apply (gen_app _ [NonTerm 1] _ [8] [7] A). apply (gen_app _ [NonTerm 2] _ [] [7] B). repeat constructor.
Qed.

(** C110: right-recursive lists, 0 -> 7 0 | 7, which C108 does not cover. *)
Definition ex_list : list (gb_call nat nat nat nat) := [AddRule 0 [AddProd 10 0 [AddTerm 7; AddNonterm 0]; AddProd 11 0 [AddTerm 7]]].
Definition ex_list_g : Grammar nat nat nat nat := match build 0 ex_list 20 with Ret (Ok g) => g | _ => Build_Grammar 0 [] end.
Lemma built_list : built ex_list_g.
Proof. exists 0, ex_list. apply (build_vm _ _ 20); [vm_compute; reflexivity | discriminate]. Qed.
Lemma list_prods A rhs : rhs_of ex_list_g A rhs -> A = 0 /\ (rhs = [Term 7; NonTerm 0] \/ rhs = [Term 7]).
Proof.
  intro Pr. apply prod_list_rhs in Pr. destruct Pr as (k & Pr). vm_compute in Pr.
  destruct Pr as [[= <- _ <-]|[[= <- _ <-]|[]]]; auto.
Qed.
Lemma list_nonnull A : ~ lang (rhs_of ex_list_g) A [].
Proof.
  intro L. apply lang_iff in L. destruct L as (rhs & Pr & G). apply list_prods in Pr. destruct Pr as [_ [-> | ->]]; inversion G.
Qed.
Example ex_list_hyps : ~ lang (rhs_of ex_list_g) 0 [] /\ no_overlap (rhs_of ex_list_g) 0 /\ one_cut (rhs_of ex_list_g) 0 /\
  productive (rhs_of ex_list_g) 0 /\ ~ ll1 ex_list_g /\ lang (rhs_of ex_list_g) 0 [7; 7; 7].
Proof.
  assert (R1 : rhs_of ex_list_g 0 [Term 7]) by (apply prod_list_rhs; exists 11; vm_compute; auto 10).
  assert (R2 : rhs_of ex_list_g 0 [Term 7; NonTerm 0]) by (apply prod_list_rhs; exists 10; vm_compute; auto 10).
  assert (W1 : lang (rhs_of ex_list_g) 0 [7]) by (apply lang_iff; exists [Term 7]; split; [exact R1|repeat constructor]).
  assert (WS : forall u, lang (rhs_of ex_list_g) 0 u -> lang (rhs_of ex_list_g) 0 (7 :: u)).
  { intros u L. apply lang_iff. exists [Term 7; NonTerm 0]. split; [exact R2|]. constructor. exact L. }
  split; [apply list_nonnull|]. split; [|split; [|split; [|split]]].
  - intros A pre mid post x _ Pr Ne G1 G2. destruct (gen_app_inv _ _ _ _ G2) as (x1 & x2 & -> & Ga & Gb).
    apply list_prods in Pr. destruct Pr as [_ E].
    assert (Es : pre = [] \/ (pre = [Term 7] /\ mid = [NonTerm 0])).
    { destruct pre as [|p0 pre]; [auto|]. right. destruct mid as [|m mid]; [congruence|].
      destruct E as [E|E]; cbn in E; injection E as -> E; destruct pre as [|p1 pre]; cbn in E; try discriminate.
      - injection E as -> E. destruct mid; [auto|discriminate].
      - injection E as -> E. destruct pre; discriminate. }
    destruct Es as [-> | [-> ->]].
    + inversion Ga; subst. cbn in G1. inversion G1; subst. destruct mid as [|[a|B] mid]; [congruence|inversion Gb|].
      destruct E as [E|E]; discriminate.
    + inversion Ga as [|t es w0 G|]; subst. inversion G; subst. inversion G1 as [|t es w1 G'|]; subst. inversion G'; subst. exact (list_nonnull 0 Gb).
  - intros A pre e post x y x' y' _ Pr G1 G2 G1' G2' E. apply list_prods in Pr. destruct Pr as [_ Er].
    assert (Es : pre = [] \/ pre = [Term 7]).
    { destruct pre as [|p0 pre]; [auto|]. right. destruct Er as [Er|Er]; cbn in Er; injection Er as -> Er; destruct pre as [|p1 pre]; try discriminate; auto.
      cbn in Er. injection Er as -> Er. destruct pre; discriminate. }
    destruct Es as [-> | ->].
    + inversion G1; inversion G1'; reflexivity.
    + inversion G1 as [|t es w0 G|]; subst. inversion G; subst. inversion G1' as [|t es w1 G'|]; subst. inversion G'; subst. reflexivity.
  - intros A R. assert (A = 0) as ->; [|eauto].
    revert A R. apply (reach_in _ _ (fun A => A = 0)); [reflexivity|]. intros A B rhs Pr I. apply list_prods in Pr.
    destruct Pr as [_ [-> | ->]]; in_cases; auto.
  - intros [_ D]. assert (X : 0 = 1); [|discriminate].
    apply (D 0 0 1 (Build_ProdInner 10 0 [Build_ProdElement None (Term 7); Build_ProdElement None (NonTerm 0)]) (Build_ProdInner 11 0 [Build_ProdElement None (Term 7)]) 7).
    + eexists. split; [left; reflexivity|reflexivity].
    + eexists. split; [left; reflexivity|reflexivity].
    + exists [NonTerm 0]. apply df_refl.
    + exists []. apply df_refl.
  - apply WS, WS, W1.
Qed.

Print Assumptions C110_all_words.
Print Assumptions C110_verdict.
Print Assumptions C108_test_by_passes.
Print Assumptions C108_one_tree.
Print Assumptions C108_ll1_parse.
Print Assumptions C109_left_recursion_panics.
Print Assumptions C109_maybe_empty_panics.
Print Assumptions C109_word_message.
