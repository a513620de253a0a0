(** C134: a program that tests a grammar with optional parts, and what its yes is worth
    (src/grammar/passes/nullable.rs, src/grammar/transform/nonnull.rs, src/utils.rs:234-252). *)
From Coq Require Import String List Arith NArith Lia Bool.
From Verif.Model Require Import Ord BTree Outcome Utils Grammar StartGrammar Nullable NonNull Firsts Tokens Tree State Earley.
From Verif.Spec Require Import Reach Cfg BuildSpec NullSpec NonNullSpec TreeSpec EarleySpec LL1Spec TrimSpec GrammarTestSpec OptionalTestSpec WalkSpec BlameSpec RepairSpec Examples.
From Verif.Proofs Require Import OrdFacts BTreeFacts LoopFacts GrammarFacts StartFacts BuildMore CfgFacts NullableFacts NullableMore FirstsMore
  NonNullFacts NonNullMore TreeFacts TreeHist EarleyMore TrimFacts ExampleFacts LL1Facts Overlaps GrammarTestFacts OptionalTestFacts.
From Verif.Properties Require Import NullableProps FirstsProps NonNullProps EarleyProps LL1Props PipelineProps OptionalProps BlameProps OptionalOracleProps RepairProps GrammarTestProps.
Import ListNotations.
Local Open Scope list_scope.

Section Test.
  Context {T NT AK AV : Type} `{OrdEq T} `{OrdEq NT} `{OrdEq AK}.
  Variables lay lay' : layout NT.
  Variable g : Grammar T NT AK AV.
  Hypothesis Li : lay_inj g lay.
  Hypothesis Bg : built g.

  (** C134.  The nonterminals that derive a nonempty word are found, for every grammar. *)
  Theorem C134_lasting : exists s, runs_to (lasting g) (Ret s) /\ forall A, In A s <-> exists u, u <> [] /\ lang (rhs_of g) A u.
  Proof. destruct (lasting_spec g Bg) as (s & R & L & _). exists s. auto. Qed.

  (** C134.  The test ends with the right answer, for every grammar. *)
  Hypothesis Li' : forall g', runs_to (transform_to_nonnull lay g) (Ret (Ok g')) -> lay_inj g' lay'.
  Theorem C134_test : exists b, runs_to (test_optional g lay lay') (Ret b) /\
    (b = true <-> null_prods_pure g /\ exists g', runs_to (transform_to_nonnull lay g) (Ret (Ok g')) /\
       ll1 g' /\ productive (rhs_of g') (start_nt g')).
  Proof.
    destruct (C07_nullable_decides lay g Li Bg) as (r & Rn & Ni).
    destruct (lasting_spec g Bg) as (s & Rs & Ls & K).
    pose (rest := fun (fuel : nat) (info : GrammarNullableInfo NT AK) (t : result (NonNullGrammar T NT AK AV) NNError) => match t with
      | Err _ => Ret false
      | Ok g' => s <- lasting g fuel ;; b <- test_grammar (g' : NonNullGrammar T NT AK AV) lay' fuel ;; Ret (pure g info s && b) end : outcome bool).
    pose (all := fun (fuel : nat) (r : result (GrammarNullableInfo NT AK) NullableError) => match r with
      | Err _ => Ret false
      | Ok info => t <- transform_to_nonnull lay g fuel ;; rest fuel info t end : outcome bool).
    assert (Go : forall info e, r = Ok info -> runs_to (transform_to_nonnull lay g) (Ret (Err e)) ->
      exists b, runs_to (test_optional g lay lay') (Ret b) /\
      (b = true <-> null_prods_pure g /\ exists g', runs_to (transform_to_nonnull lay g) (Ret (Ok g')) /\ ll1 g' /\ productive (rhs_of g') (start_nt g'))).
    { intros info e -> Rt. exists false. split.
      - apply (runs_to_bind _ all _ _ Rn). exact (runs_to_bind _ (fun fuel t => rest fuel info t) _ _ Rt (runs_to_ret _)).
      - split; [discriminate|]. intros (_ & g' & R' & _). pose proof (runs_to_fun _ _ _ Rt R') as X. discriminate. }
    destruct (C12_nonnull_verdict lay g Li Bg) as [[Na Rt]|[(Na & Rj & Rt)|(Na & Rj & g' & Rt)]].
    - destruct r as [info|e]; [exact (Go info _ eq_refl Rt)|]. exists false. split; [exact (runs_to_bind _ all _ _ Rn (runs_to_ret _))|].
      split; [discriminate|]. intros (_ & g' & R' & _). pose proof (runs_to_fun _ _ _ Rt R') as X. discriminate.
    - destruct r as [info|e]; [exact (Go info _ eq_refl Rt)|]. destruct Na. destruct e. apply (C08_nullable_verdict lay g Li Bg). exact Rn.
    - destruct r as [info|e]; [clear Go|destruct Na; destruct e; apply (C08_nullable_verdict lay g Li Bg); exact Rn].
      destruct (C133_test lay' g' (Li' g' Rt) (proj1 (transform_nonempty lay g Li Bg g' Rt))) as (b & Rb & Eb).
      exists (pure g info s && b). split.
      + apply (runs_to_bind _ all _ _ Rn). apply (runs_to_bind _ (fun fuel t => rest fuel info t) _ _ Rt).
        apply (runs_to_bind _ (fun fuel s => b <- test_grammar g' lay' fuel ;; Ret (pure g info s && b)) _ _ Rs).
        exact (runs_to_bind _ (fun _ b => Ret (pure g info s && b)) _ _ Rb (runs_to_ret _)).
      + rewrite andb_true_iff, Eb, (pure_spec g Bg info s (proj2 (proj2 (Ni info eq_refl))) Ls K). split.
        * intros [Pu [L Pd]]. split; [exact Pu|]. exists g'. auto.
        * intros (Pu & g2 & R2 & L & Pd). pose proof (runs_to_fun _ _ _ Rt R2) as X. injection X as <-. auto.
  Qed.
End Test.

(** C134.  A yes is worth all this, for every input: after the transformation the parser is right about the nonempty words
    of the grammar as the user wrote it. *)
Section Yes.
  Context {T NT AK AV V : Type} `{OrdEq T} `{OrdEq NT} `{OrdEq AK} `{OrdEq V}.
  Variables lay0 lay' : layout NT.
  Variable g : Grammar T NT AK AV.
  Variable g' : NonNullGrammar T NT AK AV.
  Variable sg : StartGrammar T NT (NNActionKey AK) (NNActionValue NT AK AV).
  Variable lay : layout (StartNonTerminal NT).
  Hypothesis Inj : lay_inj g lay0.
  Hypothesis B : built g.
  Hypothesis Yes : runs_to (test_optional g lay0 lay') (Ret true).
  Hypothesis R : runs_to (transform_to_nonnull lay0 g) (Ret (Ok g')).
  Hypothesis Li' : lay_inj g' lay'.
  Hypothesis Wr : runs_to (wrap_grammar_with_start g') (Ret (Ok sg)).
  Hypothesis Lay : lay_inj sg lay.
  Local Notation L := (lang (rhs_of g) (start_nt g)).
  Variable w : list (Token T V).

  Theorem C134_conditions : null_prods_pure g /\ ll1 g' /\ productive (rhs_of g') (start_nt g') /\
    no_overlap (rhs_of g') (start_nt g') /\ one_cut (rhs_of g') (start_nt g').
  Proof.
    destruct (C134_test lay0 lay' g Inj B) as (b & Rb & E).
    { intros g2 R2. pose proof (runs_to_fun _ _ _ R R2) as X. injection X as <-. exact Li'. }
    pose proof (runs_to_fun _ _ _ Yes Rb) as X. injection X as <-. destruct (proj1 E eq_refl) as (Pu & g2 & R2 & Ll & Pd).
    pose proof (runs_to_fun _ _ _ R R2) as X. injection X as <-.
    pose proof (ll1_prefix_free g' (proj1 (transform_nonempty lay0 g Inj B g' R)) Ll) as Pf.
    split; [exact Pu|]. split; [exact Ll|]. split; [exact Pd|]. split; [apply pf_no_overlap; exact Pf|apply pf_one_cut; exact Pf].
  Qed.

  (** Nonempty words give exactly the one trimmed tree (C88) of the input in the original grammar. *)
  Theorem C134_parse t0 : api_tree t0 ->
    (w <> [] -> L (map tk_kind w) -> exists tr' m t, runs_to (fun fuel => parse lay sg w t0 fuel) (Ret (Some m, t)) /\
       (forall x, reads t m x <-> x = tr') /\
       (forall x, x = tr' <-> exists tr, dtree g (NonTerm (start_nt g)) w tr /\ trim tr = x)) /\
    (forall v, L (map tk_kind w ++ v) -> map tk_kind w ++ v <> [] -> w = [] \/ ~ L (map tk_kind w) ->
       exists t, runs_to (fun fuel => parse lay sg w t0 fuel) (Ret (None, t))) /\
    ((forall v, map tk_kind w ++ v <> [] -> ~ L (map tk_kind w ++ v)) ->
       runs_to (fun fuel => parse lay sg w t0 fuel) (Panic "assertion failed: !new_state.is_empty()")).
  Proof.
    intro A. destruct C134_conditions as (Pu & Ll & Pd & O & C).
    destruct (C114_verdict lay0 g g' sg lay Inj B R Wr Lay Pu Pd w t0 O A) as (Y & N & Er). split; [|split; [exact N|exact Er]].
    intros Ne Lw. destruct (Y Ne Lw) as (m & t & Rp & X). destruct (X C) as [Q _].
    assert (B' : built g') by exact (proj1 (transform_nonempty lay0 g Inj B g' R)).
    assert (Lw' : lang (rhs_of g') (start_nt g') (map tk_kind w)).
    { apply (lang' lay0 g g' Inj B R Pu). split; [destruct w; [congruence|discriminate]|exact Lw]. }
    destruct (proj1 (C108_ll1_parse g' sg lay B' Wr Lay w t0 Ll Pd A) Lw') as (tr' & m1 & t1 & _ & R1 & Rd).
    pose proof (runs_to_fun _ _ _ Rp R1) as E. injection E as <- <-.
    exists tr', m, t. split; [exact Rp|]. split; [exact Rd|]. intro x. rewrite <- Rd. apply Q.
  Qed.
  (** The programs of C131 and C132 answer about the original grammar. *)
  Theorem C134_blame : let kw := map tk_kind w in
    exists r, runs_to (fun fuel => blame lay sg fuel [] w) (Ret r) /\
      (r = Fine <-> begins g kw) /\
      (forall i, r = Bad i <-> i < length w /\ begins g (firstn i kw) /\ ~ begins g (firstn (S i) kw)) /\
      forall i, r <> Unsure i.
  Proof. destruct C134_conditions as (Pu & _ & Pd & O & _). exact (C131_blame lay0 g g' sg lay Inj B R Wr Lay Pu Pd O w). Qed.
  Theorem C134_expected (value : T -> V) : exists ks, runs_to (fun fuel => expected lay sg g' value fuel w) (Ret ks) /\
    forall k, In k ks <-> exists v, L (map tk_kind w ++ k :: v).
  Proof. destruct C134_conditions as (Pu & _ & Pd & O & _). exact (C131_expected lay0 g g' sg lay Inj B R Wr Lay Pu Pd O value w). Qed.
  Theorem C134_nearest (value : T -> V) : exists u n, runs_to (fun fuel => correct lay sg g' value fuel fuel [w]) (Ret u) /\
    u <> [] /\ L (map tk_kind u) /\ near n w u /\ forall m v, near m (map tk_kind w) v -> v <> [] -> L v -> n <= m.
  Proof. destruct C134_conditions as (Pu & _ & Pd & O & _). exact (C132_optional_nearest lay0 g g' sg lay Inj B R Wr Lay Pu Pd O value w). Qed.
End Yes.

(** A grammar of labelled statements passes the test: 0 -> 5 1 2, 1 -> | 6, 2 -> 8 | 9 2.  "7 9" with an optional "8"
    between does not (both variants begin with 7), nor does a grammar with an impure part: 0 -> 7 1, 1 -> 2, 2 -> | 8. *)
Definition ex_lab : list (gb_call nat nat nat nat) :=
  [AddRule 0 [AddProd 10 0 [AddNonterm 1; AddNonterm 2]]; AddRule 1 [AddProd 11 0 []; AddProd 12 0 [AddTerm 6]];
   AddRule 2 [AddProd 13 0 [AddTerm 8]; AddProd 14 0 [AddTerm 9; AddNonterm 2]]].
Definition ex_lab_g : Grammar nat nat nat nat := match build 0 ex_lab 20 with Ret (Ok g) => g | _ => Build_Grammar 0 [] end.
Lemma built_lab : built ex_lab_g.
Proof. exists 0, ex_lab. apply (build_vm _ _ 20); [vm_compute; reflexivity | discriminate]. Qed.
Definition ex_lab_nn : NonNullGrammar nat nat nat nat :=
  match transform_to_nonnull ex_lay ex_lab_g 20 with Ret (Ok g) => g | _ => Build_Grammar 0 [] end.
Definition ex_impure : list (gb_call nat nat nat nat) :=
  [AddRule 0 [AddProd 10 0 [AddTerm 7; AddNonterm 1]]; AddRule 1 [AddProd 11 0 [AddNonterm 2]];
   AddRule 2 [AddProd 12 0 []; AddProd 13 0 [AddTerm 8]]].
Definition ex_impure_g : Grammar nat nat nat nat := match build 0 ex_impure 20 with Ret (Ok g) => g | _ => Build_Grammar 0 [] end.
Lemma built_impure : built ex_impure_g.
Proof. exists 0, ex_impure. apply (build_vm _ _ 20); [vm_compute; reflexivity | discriminate]. Qed.
Example C134_examples :
  (lay_inj ex_lab_g ex_lay /\ transform_to_nonnull ex_lay ex_lab_g 20 = Ret (Ok ex_lab_nn) /\ lay_inj ex_lab_nn ex_lay /\
   test_optional ex_lab_g ex_lay ex_lay 20 = Ret true /\ lasting ex_lab_g 20 = Ret [0; 1; 2]) /\
  (test_optional ex_opt_g ex_lay ex_lay 20 = Ret false) /\ test_optional ex_impure_g ex_lay ex_lay 20 = Ret false.
Proof.
  split; [split; [apply ex_lay_inj; vm_compute; reflexivity|split; [vm_compute; reflexivity|split; [apply ex_lay_inj; vm_compute; reflexivity|split; vm_compute; reflexivity]]]|].
  split; vm_compute; reflexivity.
Qed.

Print Assumptions C134_lasting.
Print Assumptions C134_test.
Print Assumptions C134_conditions.
Print Assumptions C134_parse.
Print Assumptions C134_blame.
Print Assumptions C134_expected.
Print Assumptions C134_nearest.
