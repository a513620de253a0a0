(** C98: renaming symbols, actions and token values renames the parse forest and changes nothing else
    (src/parsers/earley.rs, src/parsers/earley/state.rs, src/parsers/tree.rs). *)
From Coq Require Import List Arith Lia NArith.
From Verif.Model Require Import Ord BTree Outcome Utils Grammar StartGrammar Tokens Tree State Earley.
From Verif.Spec Require Import Reach Cfg BuildSpec NullSpec EarleySpec TreeSpec RenameSpec RenameForestSpec Examples.
From Verif.Proofs Require Import OrdFacts BTreeFacts LoopFacts GrammarFacts StartFacts BuildMore EarleyMore RenameFacts RenameForest.
From Verif.Properties Require Import EarleyProps ForestProps RenameProps.
Import ListNotations.

Section Forest.
  Context {T NT AK AV V T' NT' AK' AV' V' : Type} `{OrdEq T} `{OrdEq NT} `{OrdEq AK} `{OrdEq V} `{OrdEq T'} `{OrdEq NT'} `{OrdEq AK'} `{OrdEq V'}.
  Variables (fT : T -> T') (fN : NT -> NT') (fK : AK -> AK') (fV : AV -> AV') (fX : V -> V').
  Hypothesis JT : forall a b, fT a = fT b -> a = b.
  Hypothesis JN : forall a b, fN a = fN b -> a = b.
  Hypothesis JK : forall a b, fK a = fK b -> a = b.
  Hypothesis JX : forall a b, fX a = fX b -> a = b.

  (** C98. The renamed tokens are parsed with the renamed grammar, whose productions lie in the same order in
      memory, into a tree that is so far the renaming of the other: the same panic, or the same root (or none)
      and again a tree that is the renaming of the other. *)
  Theorem C98_forest (g : Grammar T NT AK AV) sg sg' lay lay' (w : list (Token T V)) t0 t0' :
    built g -> runs_to (wrap_grammar_with_start g) (Ret (Ok sg)) -> runs_to (wrap_grammar_with_start (ren_grammar fT fN fK fV g)) (Ret (Ok sg')) ->
    lay_inj sg lay -> same_order fN lay lay' -> api_tree t0 -> api_tree t0' -> same_forest fT fK fX t0 t0' ->
    exists r r', runs_to (fun fuel => parse lay sg w t0 fuel) r /\
      runs_to (fun fuel => parse lay' sg' (map (ren_token fT fX) w) t0' fuel) r' /\
      match r, r' with
      | Ret (n, t), Ret (n', t') => n' = n /\ same_forest fT fK fX t t'
      | Panic m, Panic m' => m' = m
      | _, _ => False
      end.
  Proof.
    intros B W W' L HL A A' F0. destruct (wraps_correspond fT fN fK fV JN g B sg sg' W W') as [HS HG].
    pose proof (tren_intro fT fK fX JT JK JX _ _ (api_tree_inv _ A) (api_tree_inv _ A') F0) as R0.
    destruct (C41_parse_terminates g sg lay B W L w t0 A) as (r & Nr & n & Rr).
    pose proof (fun m => parse_r fT fN fK fV fX JT JN JK JX sg sg' HS HG lay lay' HL w t0 t0' m R0) as X.
    exists r, (parse lay' sg' (map (ren_token fT fX) w) t0' n). split; [split; [exact Nr|eauto]|].
    pose proof (X n) as Xn. rewrite (Rr n (le_n n)) in Xn. split.
    - apply (parse_vm _ _ _ _ n); [reflexivity|]. destruct r, (parse lay' sg' _ t0' n); cbn in Xn; congruence.
    - destruct r as [[o t]|m|], (parse lay' sg' _ t0' n) as [[o' t']|m'|]; cbn in Xn; try contradiction; [|congruence].
      destruct Xn as [E Q]. split; [congruence|]. apply tren_same. exact Q.
  Qed.

  (** C98. What can be read off a tree and off its renaming: at every node the same trees, renamed. *)
  Theorem C98_reads (t : Inner T AK V) (t' : Inner T' AK' V') n : same_forest fT fK fX t t' ->
    (forall x, reads t n x -> reads t' n (ren_ptree fT fK fX x)) /\
    (forall y, reads t' n y -> exists x, reads t n x /\ y = ren_ptree fT fK fX x).
  Proof.
    intros [FN FA]. split.
    - intros x R. revert n x R.
      refine (fix go n x (R : reads t n x) {struct R} : reads t' n (ren_ptree fT fK fX x) := _
              with goa ns xs (R : reads_all t ns xs) {struct R} : reads_all t' ns (map (ren_ptree fT fK fX) xs) := _ for go).
      + destruct R as [n s a k v Gn I Ga|n s a k ns cs Gn I Ga Rs]; cbn [ren_ptree].
        * apply (reads_leaf _ n s a); [now rewrite FN|exact I|]. now rewrite FA, Ga.
        * apply (reads_branch _ n s a (fK k) ns); [now rewrite FN|exact I|now rewrite FA, Ga|]. exact (goa _ _ Rs).
      + destruct R as [|n ns c cs R Rs]; [constructor|]. cbn. constructor; [exact (go _ _ R)|exact (goa _ _ Rs)].
    - intros y R. revert n y R.
      refine (fix go n y (R : reads t' n y) {struct R} : exists x, reads t n x /\ y = ren_ptree fT fK fX x := _
              with goa ns ys (R : reads_all t' ns ys) {struct R} : exists xs, reads_all t ns xs /\ ys = map (ren_ptree fT fK fX) xs := _ for go).
      + destruct R as [n s a k v Gn I Ga|n s a k ns cs Gn I Ga Rs]; rewrite FN in Gn; rewrite FA in Ga;
          destruct (get_alt t a) as [[k0 v0|k0 ns0]|m|] eqn:G; try discriminate; cbn in Ga.
        * injection Ga as <- <-. exists (PLeaf k0 v0). split; [|reflexivity]. exact (reads_leaf _ n s a k0 v0 Gn I G).
        * injection Ga as <- <-. destruct (goa _ _ Rs) as (xs & Rx & ->). exists (PBranch k0 xs). split; [|reflexivity]. exact (reads_branch _ n s a k0 ns0 xs Gn I G Rx).
      + destruct R as [|n ns c cs R Rs]; [exists []; split; [constructor|reflexivity]|].
        destruct (go _ _ R) as (x & Rx & ->), (goa _ _ Rs) as (xs & Rxs & ->). exists (x :: xs). split; [constructor; assumption|reflexivity].
  Qed.

  (** C98. Parsing into new trees: node by node and word by word the renamed parse trees. *)
  Theorem C98_parse_trees (g : Grammar T NT AK AV) sg sg' lay lay' (w : list (Token T V)) m t :
    built g -> runs_to (wrap_grammar_with_start g) (Ret (Ok sg)) -> runs_to (wrap_grammar_with_start (ren_grammar fT fN fK fV g)) (Ret (Ok sg')) ->
    lay_inj sg lay -> same_order fN lay lay' ->
    runs_to (fun fuel => parse lay sg w in_new fuel) (Ret (Some m, t)) ->
    exists t', runs_to (fun fuel => parse lay' sg' (map (ren_token fT fX) w) in_new fuel) (Ret (Some m, t')) /\
      (forall x, reads t m x -> reads t' m (ren_ptree fT fK fX x)) /\
      (forall y, reads t' m y -> exists x, reads t m x /\ y = ren_ptree fT fK fX x).
  Proof.
    intros B W W' L HL R. destruct (C98_forest g sg sg' lay lay' w in_new in_new B W W' L HL api_tree_new api_tree_new) as (r & r' & R1 & R2 & M).
    { split; intros [|n]; reflexivity. }
    rewrite (runs_to_fun _ _ _ R1 R) in M. destruct r' as [[n' t']|m'|]; try contradiction. destruct M as [-> F].
    exists t'. split; [exact R2|]. exact (C98_reads t t' m F).
  Qed.

  Lemma in_memory_back (g : Grammar T NT AK AV) sg sg' lay' : built g ->
    runs_to (wrap_grammar_with_start g) (Ret (Ok sg)) -> runs_to (wrap_grammar_with_start (ren_grammar fT fN fK fV g)) (Ret (Ok sg')) ->
    in_memory sg' lay' -> in_memory sg (fun A i => lay' (ren_snt fN A) i).
  Proof.
    intros B W W' (size & base & P & L & D). destruct (wraps_correspond fT fN fK fV JN g B sg sg' W W') as [HS HG].
    pose proof (wrapped_eq _ _ (built_accepted _ B) W) as E. pose proof (wrapped_eq _ _ (built_accepted _ (ren_built fT fN fK fV JN g B)) W') as E'.
    assert (Rn : forall A r, In (A, r) (rule_set sg) -> exists r', In (ren_snt fN A, r') (rule_set sg') /\ length (r_prods r') = length (r_prods r) /\
      forall i p, nth_error (r_prods r) i = Some p -> exists p', nth_error (r_prods r') i = Some p').
    { intros A r I. specialize (HG A). unfold try_get_rule in HG.
      assert (G : bt_get A (rule_set sg) = Some r) by (apply bt_get_iff; [rewrite E; apply calls_rs_wf|exact I]). rewrite G in HG. cbn in HG.
      apply bt_get_iff in HG; [|rewrite E'; apply calls_rs_wf]. eexists. split; [exact HG|]. cbn. split; [apply map_length|].
      intros i p Ep. eexists. rewrite nth_error_map, Ep. reflexivity. }
    exists size, (fun A => base (ren_snt fN A)). split; [exact P|]. split.
    - intros A i p (r & I & Ep). destruct (Rn A r I) as (r' & I' & _ & X). destruct (X i p Ep) as (p' & Ep'). apply (L _ _ p'). exists r'. auto.
    - intros A r B0 r' I I' N. destruct (Rn A r I) as (r1 & J & Er & _). destruct (Rn B0 r' I') as (r1' & J' & Er' & _). rewrite <- Er, <- Er'.
      apply D; [exact J|exact J'|]. intro Q. apply N. destruct A, B0; cbn in Q; try discriminate; [reflexivity|]. injection Q as Q. f_equal. apply JN, Q.
  Qed.
  (** C98. Not even the order in memory matters for what can be read: wherever the two grammars lie, and whatever the
      two trees held before, the trees that can be read off one root are the renamed trees that can be read off the
      other. *)
  Theorem C98_any_memory (g : Grammar T NT AK AV) sg sg' lay lay' (w : list (Token T V)) t0 t0' m t :
    built g -> runs_to (wrap_grammar_with_start g) (Ret (Ok sg)) -> runs_to (wrap_grammar_with_start (ren_grammar fT fN fK fV g)) (Ret (Ok sg')) ->
    in_memory sg lay -> in_memory sg' lay' -> api_tree t0 -> api_tree t0' ->
    runs_to (fun fuel => parse lay sg w t0 fuel) (Ret (Some m, t)) ->
    exists m' t', runs_to (fun fuel => parse lay' sg' (map (ren_token fT fX) w) t0' fuel) (Ret (Some m', t')) /\
      (forall x, reads t m x -> reads t' m' (ren_ptree fT fK fX x)) /\
      (forall y, reads t' m' y -> exists x, reads t m x /\ y = ren_ptree fT fK fX x).
  Proof.
    intros B W W' M M' A A' R. pose proof (in_memory_back g sg sg' lay' B W W' M') as M1. set (lay1 := fun X i => lay' (ren_snt fN X) i) in M1.
    pose proof (ren_built fT fN fK fV JN g B) as B'.
    destruct (C48_layout_independent g sg lay lay1 w t0 in_new B W (in_memory_inj _ _ M) (in_memory_inj _ _ M1) A api_tree_new) as (r & r1 & Q & Q1 & X).
    rewrite (runs_to_fun _ _ _ Q R) in X. destruct r1 as [[[m1|] t1]|?|]; try contradiction.
    destruct (C98_parse_trees g sg sg' lay1 lay' w m1 t1 B W W' (in_memory_inj _ _ M1) (fun _ _ _ _ => eq_refl) Q1) as (t1' & R1' & F1 & F2).
    destruct (C48_layout_independent _ sg' lay' lay' (map (ren_token fT fX) w) in_new t0' B' W' (in_memory_inj _ _ M') (in_memory_inj _ _ M') api_tree_new A') as (r' & r2 & Q' & Q2 & X').
    rewrite (runs_to_fun _ _ _ Q' R1') in X'. destruct r2 as [[[m2|] t2]|?|]; try contradiction.
    exists m2, t2. split; [exact Q2|].
    pose proof (C82_forest_layout g sg B W lay lay1 w t0 in_new m t m1 t1 M M1 A api_tree_new R Q1) as Y.
    pose proof (C82_forest_layout _ sg' B' W' lay' lay' _ in_new t0' m1 t1' m2 t2 M' M' api_tree_new A' R1' Q2) as Y'.
    split.
    - intros x Rx. apply Y', F1, Y, Rx.
    - intros y Ry. destruct (F2 y (proj2 (Y' y) Ry)) as (x & Rx & ->). exists x. split; [apply Y, Rx|reflexivity].
  Qed.
End Forest.

Print Assumptions C98_forest.
Print Assumptions C98_reads.
Print Assumptions C98_parse_trees.
Print Assumptions C98_any_memory.

(** The word 0 1 2 3 of [ex_lo_g]; the order of its nonterminals is reversed and terminals, actions and values move on by one. *)
Definition rf_lay : layout (StartNonTerminal nat) := fun A i => ex_slay (ren_snt rn_nt A) i.
Example C98_example : let g := ex_lo_g in let g' := ren_grammar S rn_nt S (fun v => v) g in let sg := ex_wrap g in let sg' := ex_wrap g' in
  built g /\ map r_head (rules g) = [0; 1; 2] /\ start_nt g' = 2 /\
  runs_to (wrap_grammar_with_start g) (Ret (Ok sg)) /\ runs_to (wrap_grammar_with_start g') (Ret (Ok sg')) /\
  lay_inj sg ex_slay /\ same_order rn_nt ex_slay rf_lay /\
  exists t t', runs_to (fun fuel => parse ex_slay sg (map ex_tok [0; 1; 2; 3]) in_new fuel) (Ret (Some 24, t)) /\
    runs_to (fun fuel => parse rf_lay sg' (map (ren_token S S) (map ex_tok [0; 1; 2; 3])) in_new fuel) (Ret (Some 24, t')) /\ t <> t'.
Proof.
  cbv zeta. split; [|split; [reflexivity|split; [reflexivity|]]].
  - eexists. eexists. apply (build_vm _ _ 10); [|discriminate]. instantiate (1 := ex_lo). instantiate (1 := 0). vm_compute. reflexivity.
  - split; [apply wrap_vm; vm_compute; reflexivity|]. split; [apply wrap_vm; vm_compute; reflexivity|]. split; [apply ex_slay_inj; vm_compute; reflexivity|].
    split.
    { assert (X : forall n, rn_nt (rn_nt n) = n) by (intros [|[|[|n]]]; reflexivity). assert (Y : forall A, ren_snt rn_nt (ren_snt rn_nt A) = A) by (intros [|A]; cbn; [reflexivity|now rewrite X]).
      intros A i B j. unfold rf_lay. now rewrite !Y. }
    eexists. eexists. split; [apply (parse_vm _ _ _ _ 20); [vm_compute; reflexivity|discriminate]|].
    split; [apply (parse_vm _ _ _ _ 20); [vm_compute; reflexivity|discriminate]|]. discriminate.
Qed.
