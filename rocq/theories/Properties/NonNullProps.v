(** Properties of the null-removing transformation (C10-C13, C55). *)
From Coq Require Import String List NArith.
From Verif.Model Require Import Ord BTree Outcome Utils Grammar Nullable NonNull.
From Verif.Spec Require Import Reach Cfg BuildSpec NullSpec NonNullSpec Examples.
From Verif.Proofs Require Import OrdFacts BTreeFacts LoopFacts GrammarFacts BuildMore NullableFacts NullableMore
  NonNullFacts NonNullMore.
Import ListNotations.

Section S.
  Context {T NT AK AV : Type} `{OrdEq NT}.

  (** C10. The result is an accepted grammar, none of its bodies is empty, and none of its nonterminals
      derives the empty word. *)
  Theorem C10_nonnull_no_empty (lay : layout NT) (g : Grammar T NT AK AV) g' :
    lay_inj g lay -> built g -> runs_to (transform_to_nonnull lay g) (Ret (Ok g')) ->
    built g' /\
    (forall A p, prod_of g' A p -> pi_elements p <> []) /\ (forall A, ~ derives_empty g' A).
  Proof. exact (fun I B => transform_nonempty lay g I B g'). Qed.

  (** C11, the inclusion that always holds. *)
  Theorem C11_nonnull_sound (lay : layout NT) (g : Grammar T NT AK AV) g' :
    lay_inj g lay -> built g -> runs_to (transform_to_nonnull lay g) (Ret (Ok g')) ->
    forall A w, lang (rhs_of g') A w -> w <> [] /\ lang (rhs_of g) A w.
  Proof. exact (fun I B => transform_lang_sound lay g I B g'). Qed.

  (** C11, equality, for grammars in which a production deriving the empty word derives nothing else
      (missing: the other grammars, where it is false, see [C11_nonnull_loses_words_refuted]). *)
  Theorem C11_nonnull_language_partial (lay : layout NT) (g : Grammar T NT AK AV) g' :
    lay_inj g lay -> built g -> runs_to (transform_to_nonnull lay g) (Ret (Ok g')) ->
    null_prods_pure g ->
    forall A w, lang (rhs_of g') A w <-> w <> [] /\ lang (rhs_of g) A w.
  Proof. exact (fun I B => transform_lang_pure lay g I B g'). Qed.

  (** C11, what the result derives on every grammar: the nonempty words having a derivation that uses
      productions deriving the empty word for the empty word only. *)
  Theorem C11_nonnull_language_exact (lay : layout NT) (g : Grammar T NT AK AV) g' :
    lay_inj g lay -> built g -> runs_to (transform_to_nonnull lay g) (Ret (Ok g')) ->
    forall A w, lang (rhs_of g') A w <-> w <> [] /\ strict g [NonTerm A] w.
  Proof. exact (fun I B => transform_lang_exact lay g I B g'). Qed.

  (** C12. It always terminates without panicking, with exactly this verdict. *)
  Theorem C12_nonnull_verdict (lay : layout NT) (g : Grammar T NT AK AV) :
    lay_inj g lay -> built g ->
    (null_ambiguous g /\ runs_to (transform_to_nonnull lay g) (Ret (Err (NNNullable Ambiguity)))) \/
    (~ null_ambiguous g /\ nonnull_rejected g /\ runs_to (transform_to_nonnull lay g) (Ret (Err NNBuild))) \/
    (~ null_ambiguous g /\ ~ nonnull_rejected g /\
       exists g', runs_to (transform_to_nonnull lay g) (Ret (Ok g'))).
  Proof. exact (transform_verdict lay g). Qed.

  (** C13. The rules of the result are those of the original, in order, each with the variants of each
      kept production in turn. *)
  Theorem C13_nonnull_variants (lay : layout NT) (g : Grammar T NT AK AV) g' :
    lay_inj g lay -> built g -> runs_to (transform_to_nonnull lay g) (Ret (Ok g')) ->
    start_symbol g' = start_symbol g /\
    Forall2 (fun e e' => fst e' = fst e /\ r_head (snd e') = fst e /\
      exists vss, Forall2 (variants g) (r_prods (snd e)) vss /\ r_prods (snd e') = concat vss)
    (rule_set g) (rule_set g').
  Proof. exact (fun I B => transform_shape lay g I B g'). Qed.

  Theorem C13_nonnull_keys_distinct (lay : layout NT) (g : Grammar T NT AK AV) g' :
    lay_inj g lay -> built g -> runs_to (transform_to_nonnull lay g) (Ret (Ok g')) ->
    forall A r r', In (A, r) (rule_set g) -> In (A, r') (rule_set g') ->
    NoDup (map pi_action_key (r_prods r)) -> NoDup (map pi_action_key (r_prods r')).
  Proof. exact (fun I B => transform_keys lay g I B g'). Qed.
End S.

(** C11 fails in general: a nonempty word of the start symbol is lost. *)
Theorem C11_nonnull_loses_words_refuted : exists (g : Grammar nat nat nat nat) g' w,
  built g /\ in_memory g ex_lay /\ runs_to (transform_to_nonnull ex_lay g) (Ret (Ok g')) /\
  w <> [] /\ lang (rhs_of g) (start_nt g) w /\ ~ lang (rhs_of g') (start_nt g') w.
Proof. exact nn_loses_word. Qed.

(** C55. The example in the module's documentation (nonnull.rs:28-45) is rejected. *)
Theorem C55_nonnull_doc_example_refuted :
  built ex_doc_g /\ in_memory ex_doc_g ex_lay /\ runs_to (transform_to_nonnull ex_lay ex_doc_g) (Ret (Err NNBuild)).
Proof. exact doc_example_fails. Qed.

Print Assumptions C10_nonnull_no_empty.
Print Assumptions C11_nonnull_sound.
Print Assumptions C11_nonnull_language_partial.
Print Assumptions C11_nonnull_language_exact.
Print Assumptions C12_nonnull_verdict.
Print Assumptions C13_nonnull_variants.
Print Assumptions C13_nonnull_keys_distinct.
Print Assumptions C11_nonnull_loses_words_refuted.

(** A grammar meeting all hypotheses (also of the partial theorem), and its transformation. *)
Example ex_pure_hyps : lay_inj ex_pure_g ex_lay /\ built ex_pure_g /\ null_prods_pure ex_pure_g.
Proof. refine (conj _ (conj built_pure ex_pure_pure)); [apply ex_lay_inj; vm_compute; reflexivity|..]. Qed.
Example ex_pure_run :
  transform_to_nonnull ex_lay ex_pure_g 10 =
  Ret (Ok (Build_Grammar 0
    (let l := Build_ProdElement (Some "l"%string) (NonTerm 1) in
     let x := Build_ProdElement None (Term 7) in
     let r := Build_ProdElement (Some "r"%string) (NonTerm 1) in
     let e := TNode (Build_ProdKey 1 12) [] in
     [(0, Build_RuleInner 0
        [Build_ProdInner (Build_NNActionKey 10 [false; false]) (Build_NNActionValue 5 []) [l; x; r];
         Build_ProdInner (Build_NNActionKey 10 [true; false]) (Build_NNActionValue 5 [("l"%string, e)]) [x; r];
         Build_ProdInner (Build_NNActionKey 10 [false; true]) (Build_NNActionValue 5 [("r"%string, e)]) [l; x];
         Build_ProdInner (Build_NNActionKey 10 [true; true]) (Build_NNActionValue 5 [("l"%string, e); ("r"%string, e)]) [x];
         Build_ProdInner (Build_NNActionKey 11 []) (Build_NNActionValue 5 []) [Build_ProdElement None (Term 8)]]);
      (1, Build_RuleInner 1
        [Build_ProdInner (Build_NNActionKey 13 [false]) (Build_NNActionValue 6 [])
           [Build_ProdElement None (Term 9); Build_ProdElement None (NonTerm 0)]])]))).
Proof. vm_compute. reflexivity. Qed.
