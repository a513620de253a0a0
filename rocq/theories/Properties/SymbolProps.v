(** C119: symbols and actions of a grammar of which equal ones need not be identical (src/grammar/base.rs,
    src/grammar/base/builder.rs, src/start_grammar.rs, src/grammar/passes, src/grammar/transform/nonnull.rs,
    src/parsers/earley.rs). *)
From Coq Require Import String List Arith NArith Lia.
From Verif.Model Require Import Ord BTree Outcome Utils Grammar StartGrammar Nullable NonNull Firsts Tokens Tree State Earley.
From Verif.Spec Require Import Cfg BuildSpec NullSpec RenameSpec TreeSpec EarleySpec RenameForestSpec ValueSpec CoarseSpec SymbolSpec Examples.
From Verif.Proofs Require Import OrdFacts LoopFacts GrammarFacts StartFacts BuildMore EarleyMain EarleyMore CoarseFacts SymbolFacts.
From Verif.Properties Require Import BuildProps NullableProps FirstsProps EarleyProps.
Import ListNotations.

Section Runs.
  (** All symbols and actions are compared by keys (nothing is assumed about the comparison of the keys here). *)
  Context {T NT AK AV V T' NT' AK' AV' V' : Type} `{Ord T} `{Ord NT} `{Ord AK} `{Ord V} `{Ord T'} `{Ord NT'} `{Ord AK'} `{Ord V'}.
  Variables (fT : T -> T') (fN : NT -> NT') (fK : AK -> AK') (fV : AV -> AV') (fX : V -> V').
  Hypothesis FT : compares_by fT.
  Hypothesis FN : compares_by fN.
  Hypothesis FK : compares_by fK.
  Hypothesis FX : compares_by fX.
  Local Notation keys := (key_grammar fT fN fK fV).
  Local Notation start_keys := (key_grammar (start_t fT) (start_n fN) (start_k fK) (start_v fV)).

  (** C119.  Building: the grammar of the keys, the error sets of the keys, or the same panic. *)
  Theorem C119_build start (calls : list (gb_call T NT AK AV)) :
    same_run (map_result keys (key_errors fN)) (build start calls) (build (fN start) (map (ren_gb fT fN fK fV) calls)).
  Proof. exact (build_map fT fN fK fV FN start calls). Qed.
  Theorem C119_wrap (g : Grammar T NT AK AV) :
    same_run (map_result start_keys (key_errors (start_n fN))) (wrap_grammar_with_start g) (wrap_grammar_with_start (keys g)).
  Proof. exact (wrap_map fT fN fK fV FN g). Qed.

  (** C119.  The passes and the transformation.  Productions of equal heads are productions of one rule, so where a
      production lies depends on the key of its head only. *)
  Theorem C119_nullables (lay : layout NT') (g : Grammar T NT AK AV) :
    same_run (map_result (key_map fN (ren_tree fN fK)) (fun e => e)) (calculate_nullables (fun A => lay (fN A)) g) (calculate_nullables lay (keys g)).
  Proof. exact (nullables_map fT fN fK fV FN lay g). Qed.
  Theorem C119_firsts (lay : layout NT') (g : Grammar T NT AK AV) :
    same_run (map_result (key_map fN (map fT)) (fun e => e)) (calculate_firsts (fun A => lay (fN A)) g) (calculate_firsts lay (keys g)).
  Proof. exact (firsts_map fT fN fK fV FT FN lay g). Qed.
  Theorem C119_follows (lay : layout NT') (g : Grammar T NT AK AV) :
    same_run (map_result (key_map fN (map fT)) (fun e => e)) (calculate_follows (fun A => lay (fN A)) g) (calculate_follows lay (keys g)).
  Proof. exact (follows_map fT fN fK fV FT FN lay g). Qed.
  Theorem C119_nonnull (lay : layout NT') (g : Grammar T NT AK AV) :
    same_run (map_result (key_grammar fT fN (ren_nk fK) (ren_nv fN fK fV)) (fun e => e))
      (transform_to_nonnull (fun A => lay (fN A)) g) (transform_to_nonnull lay (keys g)).
  Proof. exact (nonnull_map fT fN fK fV FN lay g). Qed.

  (** C119.  Parsing: the same root and the tree of the keys, or the same panic. *)
  Theorem C119_parse (lay : layout (StartNonTerminal NT')) (sg : StartGrammar T NT AK AV) (w : list (Token T V)) t0 :
    same_run (fun x => (fst x, map_in fT fK fX (snd x)))
      (fun fuel => parse (fun A => lay (start_n fN A)) sg w t0 fuel)
      (fun fuel => parse lay (start_keys sg) (map (ren_token fT fX) w) (map_in fT fK fX t0) fuel).
  Proof. exact (parse_keys fT fN fK fV fX FT FN FK FX lay sg w t0). Qed.
End Runs.

Lemma same_run_ret {A B} (h : A -> B) f f' a : same_run h f f' -> runs_to f (Ret a) -> runs_to f' (Ret (h a)).
Proof. intros S [_ (n & E)]. split; [discriminate|]. exists n. intros fuel L. rewrite S, (E fuel L). reflexivity. Qed.

Section Meaning.
  (** The keys themselves are identical if equal. *)
  Context {T NT AK AV V T' NT' AK' AV' V' : Type} `{Ord T} `{Ord NT} `{Ord AK} `{Ord V} `{OrdEq T'} `{OrdEq NT'} `{OrdEq AK'} `{OrdEq V'}.
  Variables (fT : T -> T') (fN : NT -> NT') (fK : AK -> AK') (fV : AV -> AV') (fX : V -> V').
  Hypothesis FT : compares_by fT.
  Hypothesis FN : compares_by fN.
  Hypothesis FK : compares_by fK.
  Hypothesis FX : compares_by fX.
  Variable g : Grammar T NT AK AV.
  Hypothesis Bg : built g.
  Local Notation keys := (key_grammar fT fN fK fV).
  Local Notation start_keys := (key_grammar (start_t fT) (start_n fN) (start_k fK) (start_v fV)).

  Lemma built_keys : built (keys g).
  Proof.
    destruct Bg as (start & calls & R). exists (fN start), (map (ren_gb fT fN fK fV) calls).
    exact (same_run_ret _ _ _ _ (C119_build fT fN fK fV FN start calls) R).
  Qed.

  (** C119.  A nonterminal is reported nullable exactly if it derives the empty word, equal symbols being one. *)
  Theorem C119_nullable_decides (lay : layout NT') info : lay_inj (keys g) lay ->
    runs_to (calculate_nullables (fun A => lay (fN A)) g) (Ret (Ok info)) ->
    forall A, is_nullable info A = true <-> lang_upto g A [].
  Proof.
    intros Lay R A. apply (same_run_ret _ _ _ _ (C119_nullables fT fN fK fV FN lay g)) in R.
    destruct (C07_nullable_decides lay (keys g) Lay built_keys) as (r & R' & D). pose proof (runs_to_fun _ _ _ R R') as E. injection E as <-.
    destruct (D _ eq_refl) as [D1 _]. specialize (D1 (fN A)). unfold is_nullable in D1. rewrite (kmem fN (ren_tree fN fK) FN) in D1.
    unfold is_nullable. rewrite D1. exact (lang_keys fT fN fK fV FT FN g A []).
  Qed.

  (** C119.  Parsing accepts words only, and rejects only other inputs, equal symbols being one; the trees read off the
      result are, up to keys, those that parsing the keys gives. *)
  Variable sg : StartGrammar T NT AK AV.
  Hypothesis Wr : runs_to (wrap_grammar_with_start g) (Ret (Ok sg)).
  Variable lay : layout (StartNonTerminal NT').
  Hypothesis Lay : in_memory (start_keys sg) lay.
  Lemma wrap_keys : runs_to (wrap_grammar_with_start (keys g)) (Ret (Ok (start_keys sg))).
  Proof. exact (same_run_ret _ _ _ _ (C119_wrap fT fN fK fV FN g) Wr). Qed.
  Theorem C119_recognises (w : list (Token T V)) t0 : api_tree t0 ->
    exists r r', runs_to (fun fuel => parse (fun A => lay (start_n fN A)) sg w t0 fuel) r /\
      runs_to (fun fuel => parse lay (start_keys sg) (map (ren_token fT fX) w) (map_in fT fK fX t0) fuel) r' /\
      match r, r' with
      | Ret (Some m, t), Ret (Some m', t') => lang_upto g (start_nt g) (map tk_kind w) /\ m = m' /\
          forall n tr', reads t' n tr' <-> exists tr, reads t n tr /\ ren_ptree fT fK fX tr = tr'
      | Ret (None, _), Ret (None, _) => ~ lang_upto g (start_nt g) (map tk_kind w)
      | Panic e, Panic e' => e = e'
      | _, _ => False
      end.
  Proof.
    intro A. set (mi := map_in fT fK fX). set (w' := map (ren_token fT fX) w).
    assert (A' : api_tree (mi t0)) by exact (api_map fT fK fX FT FK FX t0 A).
    pose proof (in_memory_inj _ _ Lay) as Inj.
    destruct (main (keys g) (start_keys sg) lay built_keys wrap_keys Inj w' (mi t0) A') as (r' & R' & _).
    destruct R' as [NF (n & En)].
    assert (E : forall fuel, n <= fuel -> map_out (fun x => (fst x, mi (snd x))) (parse (fun A => lay (start_n fN A)) sg w t0 fuel) = r').
    { intros fuel Lf. rewrite <- (En fuel Lf). symmetry. exact (C119_parse fT fN fK fV fX FT FN FK FX lay sg w t0 fuel). }
    assert (Rr : runs_to (fun fuel => parse (fun A => lay (start_n fN A)) sg w t0 fuel) (parse (fun A => lay (start_n fN A)) sg w t0 n)).
    { apply (parse_vm _ _ _ _ n); [reflexivity|]. intro Q. pose proof (E n (le_n _)) as X. rewrite Q in X. cbn in X. congruence. }
    assert (R' : runs_to (fun fuel => parse lay (start_keys sg) w' (mi t0) fuel) r') by (split; [exact NF|exists n; exact En]).
    exists (parse (fun A => lay (start_n fN A)) sg w t0 n), r'. split; [exact Rr|]. split; [exact R'|].
    assert (Lg : lang (rhs_of (keys g)) (start_nt (keys g)) (map tk_kind w') <-> lang_upto g (start_nt g) (map tk_kind w)).
    { rewrite <- (lang_keys fT fN fK fV FT FN g). unfold w'. rewrite !map_map. reflexivity. }
    pose proof (E n (le_n _)) as X. clear E Rr En NF.
    destruct (parse (fun A => lay (start_n fN A)) sg w t0 n) as [[[m|] t]|e|]; subst r'; cbn in R' |- *.
    - split; [|split; [reflexivity|intros; apply reads_keys]]. apply Lg.
      exact (C42_parse_accepts_only_words (keys g) (start_keys sg) lay built_keys wrap_keys Inj w' (mi t0) m (mi t) A' R').
    - rewrite <- Lg. exact (C43_parse_rejects_only_nonwords (keys g) (start_keys sg) lay built_keys wrap_keys Inj w' (mi t0) (mi t) A' R').
    - reflexivity.
    - destruct R' as [NF _]. congruence.
  Qed.
End Meaning.

Print Assumptions C119_build.
Print Assumptions C119_wrap.
Print Assumptions C119_nullables.
Print Assumptions C119_firsts.
Print Assumptions C119_follows.
Print Assumptions C119_nonnull.
Print Assumptions C119_parse.
Print Assumptions C119_nullable_decides.
Print Assumptions C119_recognises.

(** *** A case: symbols of which only one part is compared.  Heads, uses of nonterminals and tokens are never identical,
    but equal; the grammar is accepted and the input parsed. *)
Record tagged := { tg_key : nat; tg_note : nat }.
#[local] Instance Ord_tagged : Ord tagged := fun a b => cmp (tg_key a) (tg_key b).
Local Notation tag k n := {| tg_key := k; tg_note := n |}.
Example tagged_key : compares_by tg_key.
Proof. intros x y. reflexivity. Qed.
Definition ex_tag_calls : list (gb_call tagged tagged tagged nat) :=
  [AddRule (tag 0 1) [AddProd (tag 10 0) 0 [AddTerm (tag 7 0); AddNonterm (tag 1 5)]];
   AddRule (tag 1 6) [AddProd (tag 11 0) 0 [AddTerm (tag 8 0)]; AddProd (tag 12 0) 0 [AddTerm (tag 9 0); AddNonterm (tag 0 7)]]].
Definition ex_tag_g : Grammar tagged tagged tagged nat :=
  match build (tag 0 0) ex_tag_calls 20 with Ret (Ok g) => g | _ => Build_Grammar (tag 0 0) [] end.
Definition ex_tag_sg : StartGrammar tagged tagged tagged nat :=
  match wrap_grammar_with_start ex_tag_g 20 with Ret (Ok g) => g | _ => Build_Grammar Start [] end.
Definition ex_tag_w : list (Token tagged tagged) :=
  [Build_Token (tag 7 30) (tag 0 31); Build_Token (tag 9 32) (tag 0 33); Build_Token (tag 7 34) (tag 0 35); Build_Token (tag 8 36) (tag 0 37)].
Example C119_case : built ex_tag_g /\ runs_to (wrap_grammar_with_start ex_tag_g) (Ret (Ok ex_tag_sg)) /\
  in_memory (key_grammar (start_t tg_key) (start_n tg_key) (start_k tg_key) (start_v (fun v : nat => v)) ex_tag_sg) ex_slay /\
  exists m t, runs_to (fun fuel => parse (fun A => ex_slay (start_n tg_key A)) ex_tag_sg ex_tag_w in_new fuel) (Ret (Some m, t)).
Proof.
  split; [|split; [|split]].
  - exists (tag 0 0), ex_tag_calls. apply (runs_to_mono _ 20); [apply build_mono|vm_compute; reflexivity|discriminate].
  - apply (runs_to_mono _ 20); [apply build_mono|vm_compute; reflexivity|discriminate].
  - apply ex_slay_mem. vm_compute. reflexivity.
  - eexists _, _. apply (parse_vm _ _ _ _ 40); [vm_compute; reflexivity|discriminate].
Qed.
