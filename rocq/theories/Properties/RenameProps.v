(** C96, C97: the analyses depend on the grammar alone - not on where it lives in memory, and not on how its
    symbols are called or ordered. *)
From Coq Require Import List Arith Lia.
From Verif.Model Require Import Ord BTree Outcome Utils Grammar Nullable Firsts NonNull StartGrammar Tokens Tree State Earley.
From Verif.Spec Require Import Reach Cfg BuildSpec NullSpec EarleySpec TreeSpec RenameSpec Examples.
From Verif.Proofs Require Import OrdFacts BTreeFacts LoopFacts GrammarFacts BuildMore NullableMore FirstsMore NonNullMore EarleyMore MemFacts RenameFacts RenameParse.
From Verif.Properties Require Import EarleyProps.
Import ListNotations.

Section Mem.
  Context {T NT AK AV : Type} `{OrdEq T} `{OrdEq NT}.

  (** C96. With the productions at any other different addresses every pass and the transformation have the
      same outcome: the same result, the same error, or the same panic. *)
  Theorem C96_memory (g : Grammar T NT AK AV) (lay lay' : layout NT) : built g -> lay_inj g lay -> lay_inj g lay' ->
    (forall r, runs_to (calculate_nullables lay g) r -> runs_to (calculate_nullables lay' g) r) /\
    (forall r, runs_to (calculate_firsts lay g) r -> runs_to (calculate_firsts lay' g) r) /\
    (forall r, runs_to (calculate_follows lay g) r -> runs_to (calculate_follows lay' g) r) /\
    (forall r, runs_to (transform_to_nonnull lay g) r -> runs_to (transform_to_nonnull lay' g) r).
  Proof.
    intros B I I'. split; [|split; [exact (mem_firsts g B lay lay' I I')|split; [exact (mem_follows g B lay lay' I I')|exact (mem_transform g B lay lay' I I')]]].
    intros r R. destruct (mem_nullables g B lay lay' I I') as (x & R1 & R2). now rewrite (runs_to_fun _ _ _ R R1).
  Qed.
End Mem.

Section Rename.
  Context {T NT AK AV T' NT' AK' AV' : Type} `{OrdEq T} `{OrdEq NT} `{OrdEq T'} `{OrdEq NT'}.
  Variables (fT : T -> T') (fN : NT -> NT') (fK : AK -> AK') (fV : AV -> AV').
  (** Different nonterminals get different names; nothing is assumed about their order. *)
  Hypothesis JN : forall A B, fN A = fN B -> A = B.

  (** C97. Building from the renamed calls has the renamed outcome. *)
  Theorem C97_build start (calls : list (gb_call T NT AK AV)) r : runs_to (build start calls) r ->
    let build' := build (fN start) (map (ren_gb fT fN fK fV) calls) in
    match r with
    | Ret (Ok g) => runs_to build' (Ret (Ok (ren_grammar fT fN fK fV g)))
    | Ret (Err e) => runs_to build' (Ret (Err (ren_errors fN e)))
    | Panic m => runs_to build' (Panic m)
    | NoFuel => False
    end.
  Proof.
    intro R. pose proof (ren_build fT fN fK fV JN start calls r R) as X. destruct r as [[g|e]|m|]; [exact X|exact X| |exact X].
    destruct X as (m' & R'). cbv zeta. rewrite (build_panic_text _ _ _ R), <- (build_panic_text _ _ _ R'). exact R'.
  Qed.

  Variable g : Grammar T NT AK AV.
  Hypothesis B : built g.
  Notation g' := (ren_grammar fT fN fK fV g).

  (** C97. The renamed grammar: its rules are the renamed rules, and it generates the renamed words. *)
  Theorem C97_grammar :
    built g' /\ start_nt g' = fN (start_nt g) /\
    (forall A, try_get_rule g' (fN A) = option_map (ren_rule fT fN fK fV) (try_get_rule g A)) /\
    (forall A' r', try_get_rule g' A' = Some r' -> exists A, A' = fN A) /\
    (forall A w', lang (rhs_of g') (fN A) w' <-> exists w, w' = map fT w /\ lang (rhs_of g) A w).
  Proof.
    pose proof (acc_wf g (built_accepted g B)) as W.
    split; [exact (ren_built fT fN fK fV JN g B)|]. split; [reflexivity|]. split; [|split].
    - intro A. exact (ren_map_get_f fN JN _ (rule_set g) A (proj1 W)).
    - intros A' r' G. apply (ren_map_get fN JN _ (rule_set g) A' r' (proj1 W)) in G. destruct G as (A & _ & -> & _). eauto.
    - intros A w'. exact (lang_ren fT fN JN _ _ (ren_rhs fT fN fK fV JN g B) A w').
  Qed.

  Variable lay : layout NT.
  Variable lay' : layout NT'.
  Hypothesis I : lay_inj g lay.
  Hypothesis I' : lay_inj g' lay'.

  (** C97. Each pass on the renamed grammar returns the renamed result. *)
  Theorem C97_nullables r : runs_to (calculate_nullables lay g) (Ret r) ->
    runs_to (calculate_nullables lay' g') (Ret match r with Ok info => Ok (ren_info fN fK info) | Err e => Err e end).
  Proof.
    intro R. destruct (ren_nullables fT fN fK fV JN g B lay lay' I I') as [(_ & R1 & R1')|(_ & info & _ & R1 & R1')];
      pose proof (runs_to_fun _ _ _ R R1) as E; injection E as ->; exact R1'.
  Qed.
  Theorem C97_firsts r : runs_to (calculate_firsts lay g) (Ret r) ->
    runs_to (calculate_firsts lay' g') (Ret match r with Ok m => Ok (ren_map fN (fun s => bs_of_list (map fT s)) m) | Err e => Err e end).
  Proof.
    intro R. destruct (ren_firsts fT fN fK fV JN g B lay lay' I I') as [(_ & R1 & R1')|(_ & m & R1 & R1')];
      pose proof (runs_to_fun _ _ _ R R1) as E; injection E as ->; exact R1'.
  Qed.
  Theorem C97_follows r : runs_to (calculate_follows lay g) r ->
    match r with
    | Ret (Ok m) => exists m', runs_to (calculate_follows lay' g') (Ret (Ok m')) /\
        forall A' t', (exists s', bt_get A' m' = Some s' /\ In t' s') <-> exists A t s, A' = fN A /\ t' = fT t /\ bt_get A m = Some s /\ In t s
    | Ret (Err e) => runs_to (calculate_follows lay' g') (Ret (Err e))
    | Panic _ => exists s, runs_to (calculate_follows lay' g') (Panic s)
    | NoFuel => False
    end.
  Proof. exact (ren_follows fT fN fK fV JN g B lay lay' I I' r). Qed.
  Theorem C97_transform x : runs_to (transform_to_nonnull lay g) (Ret x) ->
    runs_to (transform_to_nonnull lay' g') (Ret match x with Ok g1 => Ok (ren_grammar fT fN (ren_nk fK) (ren_nv fN fK fV) g1) | Err e => Err e end).
  Proof. exact (ren_transform fT fN fK fV JN g B lay lay' I I' x). Qed.
End Rename.

(** C97. Parsing the renamed tokens with the renamed grammar: accepted, rejected, or the same panic, as the original;
    the values of the tokens and the tree parsed into do not matter. *)
Theorem C97_parse {T NT AK AV V T' NT' AK' AV' V' : Type} `{OrdEq T} `{OrdEq NT} `{OrdEq AK} `{OrdEq V} `{OrdEq T'} `{OrdEq NT'} `{OrdEq AK'} `{OrdEq V'}
  (fT : T -> T') (fN : NT -> NT') (fK : AK -> AK') (fV : AV -> AV') (g : Grammar T NT AK AV) sg sg' lay lay'
  (w : list (Token T V)) (w' : list (Token T' V')) t0 t0' :
  (forall A B, fN A = fN B -> A = B) -> (forall a b, fT a = fT b -> a = b) ->
  built g -> runs_to (wrap_grammar_with_start g) (Ret (Ok sg)) -> runs_to (wrap_grammar_with_start (ren_grammar fT fN fK fV g)) (Ret (Ok sg')) ->
  lay_inj sg lay -> lay_inj sg' lay' -> api_tree t0 -> api_tree t0' ->
  map tk_kind w' = map fT (map tk_kind w) ->
  exists r r', runs_to (fun fuel => parse lay sg w t0 fuel) r /\ runs_to (fun fuel => parse lay' sg' w' t0' fuel) r' /\
    match r, r' with
    | Ret (Some _, _), Ret (Some _, _) | Ret (None, _), Ret (None, _) => True
    | Panic m, Panic m' => m = m'
    | _, _ => False
    end.
Proof.
  intros JN JT B Wr Wr' L L' A A' Ew. set (g' := ren_grammar fT fN fK fV g) in *.
  pose proof (ren_built fT fN fK fV JN g B) as B'. fold g' in B'. pose proof (ren_rhs fT fN fK fV JN g B) as Er. fold g' in Er.
  assert (Ln : length w' = length w) by (rewrite <- (map_length tk_kind w'), Ew, !map_length; reflexivity).
  destruct (C41_parse_terminates g sg lay B Wr L w t0 A) as (r & R). destruct (C41_parse_terminates g' sg' lay' B' Wr' L' w' t0' A') as (r' & R').
  assert (X : forall msg, runs_to (fun fuel => parse lay sg w t0 fuel) (Panic msg) <-> runs_to (fun fuel => parse lay' sg' w' t0' fuel) (Panic msg)).
  { intro msg. pose proof (C99_panic_message g sg lay B Wr L w t0 msg A) as Pn. pose proof (C99_panic_message g' sg' lay' B' Wr' L' w' t0' msg A') as Pn'. cbv zeta in Pn, Pn'.
    rewrite Pn, Pn', Ln, Ew. change (start_nt g') with (fN (start_nt g)).
    assert (Y1 : forall j, viable (rhs_of g') (fN (start_nt g)) (firstn j (map fT (map tk_kind w))) <-> viable (rhs_of g) (start_nt g) (firstn j (map tk_kind w))).
    { intro j. rewrite (firstn_map fT). apply (viable_ren fT fN JN JT _ _ Er). }
    assert (Y2 : forall j, two_places (rhs_of g') (fN (start_nt g)) (map fT (map tk_kind w)) j <-> two_places (rhs_of g) (start_nt g) (map tk_kind w) j).
    { intro j. apply (two_places_ren fT fN JN JT _ _ Er). }
    assert (Y3 : lang (rhs_of g') (fN (start_nt g)) [] <-> lang (rhs_of g) (start_nt g) []) by exact (lang_ren_iff fT fN JN JT _ _ Er (start_nt g) []).
    split; intros (j & Lj & Mn & Q); exists j; (split; [exact Lj|]); (split; [intros i Li; specialize (Mn i Li)|]);
      [pose proof (Y1 i); pose proof (Y2 i); tauto|pose proof (Y1 j); pose proof (Y2 j); tauto|pose proof (Y1 i); pose proof (Y2 i); tauto|pose proof (Y1 j); pose proof (Y2 j); tauto]. }
  assert (Lw : lang (rhs_of g') (start_nt g') (map tk_kind w') <-> lang (rhs_of g) (start_nt g) (map tk_kind w)).
  { rewrite Ew. exact (lang_ren_iff fT fN JN JT _ _ Er (start_nt g) _). }
  exists r, r'. split; [exact R|]. split; [exact R'|].
  destruct r as [[[n|] t]|m|].
  - destruct r' as [[[n'|] t']|m'|]; [exact Logic.I| | |now destruct R'].
    + apply (C43_parse_rejects_only_nonwords g' sg' lay' B' Wr' L' w' t0' t' A' R'). apply Lw. exact (C42_parse_accepts_only_words g sg lay B Wr L w t0 n t A R).
    + discriminate (runs_to_fun _ _ _ R (proj2 (X m') R')).
  - destruct r' as [[[n'|] t']|m'|]; [|exact Logic.I| |now destruct R'].
    + apply (C43_parse_rejects_only_nonwords g sg lay B Wr L w t0 t A R). apply Lw. exact (C42_parse_accepts_only_words g' sg' lay' B' Wr' L' w' t0' n' t' A' R').
    + discriminate (runs_to_fun _ _ _ R (proj2 (X m') R')).
  - rewrite (runs_to_fun _ _ _ R' (proj1 (X m) R)). reflexivity.
  - now destruct R.
Qed.

Print Assumptions C96_memory.
Print Assumptions C97_build.
Print Assumptions C97_grammar.
Print Assumptions C97_nullables.
Print Assumptions C97_firsts.
Print Assumptions C97_follows.
Print Assumptions C97_transform.
Print Assumptions C97_parse.

(** 0 -> 1 2 t7;  1 -> (empty) | t9;  2 -> t8, renamed so that the order of the nonterminals is reversed and the
    terminals 8 and 9 change places. *)
Definition rn_calls : list (gb_call nat nat nat nat) :=
  [AddRule 0 [AddProd 10 0 [AddNamedNonterm (String.String (Ascii.ascii_of_nat 120) String.EmptyString) 1; AddNonterm 2; AddTerm 7]];
   AddRule 1 [AddProd 11 0 []; AddProd 12 0 [AddTerm 9]]; AddRule 2 [AddProd 13 0 [AddTerm 8]]].
Definition rn_nt (n : nat) : nat := match n with 0 => 2 | 2 => 0 | _ => n end.
Definition rn_t (n : nat) : nat := match n with 8 => 9 | 9 => 8 | _ => n end.
Example C97_example : exists g sg sg', runs_to (build 0 rn_calls) (Ret (Ok g)) /\
  let g' := ren_grammar rn_t rn_nt Datatypes.S (fun v => v) g in
  (forall A B, rn_nt A = rn_nt B -> A = B) /\ (forall a b, rn_t a = rn_t b -> a = b) /\
  lay_inj g ex_lay /\ lay_inj g' ex_lay /\
  map r_head (rules g) = [0; 1; 2] /\ map r_head (rules g') = [0; 1; 2] /\ start_nt g' = 2 /\
  runs_to (calculate_firsts ex_lay g) (Ret (Ok [(0, [8; 9]); (1, [9]); (2, [8])])) /\
  runs_to (calculate_firsts ex_lay g') (Ret (Ok [(0, [9]); (1, [8]); (2, [8; 9])])) /\
  runs_to (wrap_grammar_with_start g) (Ret (Ok sg)) /\ runs_to (wrap_grammar_with_start g') (Ret (Ok sg')) /\
  lay_inj sg (ex_slay) /\ lay_inj sg' ex_slay.
Proof.
  eexists. eexists. eexists. split; [apply (build_vm _ _ 10); [vm_compute; reflexivity|discriminate]|]. cbv zeta.
  split; [intros [|[|[|A]]] [|[|[|B]]] E; cbn in E; congruence|].
  split; [intros a b E; assert (X : forall n, rn_t (rn_t n) = n) by (intro n; do 10 (destruct n as [|n]; [reflexivity|]); reflexivity);
          rewrite <- (X a), <- (X b), E; reflexivity|].
  split; [apply ex_lay_inj; vm_compute; reflexivity|]. split; [apply ex_lay_inj; vm_compute; reflexivity|]. split; [reflexivity|]. split; [vm_compute; reflexivity|]. split; [reflexivity|].
  split; [apply (runs_to_mono _ 10); [apply calculate_firsts_mono|vm_compute; reflexivity|discriminate]|].
  split; [apply (runs_to_mono _ 10); [apply calculate_firsts_mono|vm_compute; reflexivity|discriminate]|].
  split; [apply wrap_vm; vm_compute; reflexivity|].
  split; [apply wrap_vm; vm_compute; reflexivity|].
  split; apply ex_slay_inj; vm_compute; reflexivity.
Qed.
