(** Properties of the Firsts and Follows passes (C14-C18). *)
From Coq Require Import String List NArith.
From Verif.Model Require Import Ord BTree Outcome Utils Grammar Nullable Firsts.
From Verif.Spec Require Import Reach Cfg BuildSpec NullSpec Examples.
From Verif.Proofs Require Import OrdFacts BTreeFacts LoopFacts GrammarFacts BuildMore NullableFacts NullableMore FirstsMore.
Import ListNotations.

Section S.
  Context {T NT AK AV : Type} `{OrdEq T} `{OrdEq NT}.

  (** C14. On every accepted grammar the Firsts pass returns; it fails exactly on the grammars the
      Nullable pass rejects, and otherwise computes FIRST. *)
  Theorem C14_firsts (lay : layout NT) (g : Grammar T NT AK AV) :
    lay_inj g lay -> built g ->
    exists r, runs_to (calculate_firsts lay g) (Ret r) /\
      match r with
      | Err e => e = FNullableError Ambiguity /\ null_ambiguous g
      | Ok m => ~ null_ambiguous g /\
          forall A t, (exists s, firsts_get m A = Some s /\ In t s) <-> first_of (rhs_of g) A t
      end.
  Proof. exact (firsts_result lay g). Qed.

  (** C15 as stated is false ([C15_firsts_absent_refuted]).  Exactly: [get] is [None] iff no body of the
      nonterminal can begin with anything but the nonterminal itself; in particular it is [Some] when
      FIRST is non-empty. *)
  Theorem C15_firsts_absent_exact (lay : layout NT) (g : Grammar T NT AK AV) m A :
    lay_inj g lay -> built g -> runs_to (calculate_firsts lay g) (Ret (Ok m)) ->
    (firsts_get m A = None <-> forall e, can_be_first (rhs_of g) A e -> e = NonTerm A).
  Proof. exact (fun I B => firsts_absent lay g I B m A). Qed.
  Theorem C15_firsts_present_partial (lay : layout NT) (g : Grammar T NT AK AV) m A t :
    lay_inj g lay -> built g -> runs_to (calculate_firsts lay g) (Ret (Ok m)) ->
    first_of (rhs_of g) A t -> exists s, firsts_get m A = Some s.
  Proof. exact (fun I B => firsts_present lay g I B m A t). Qed.

  (** C16. The computed FOLLOW is sound. *)
  Theorem C16_follows_sound (lay : layout NT) (g : Grammar T NT AK AV) m A t s :
    lay_inj g lay -> built g -> runs_to (calculate_follows lay g) (Ret (Ok m)) ->
    bt_get A m = Some s -> In t s ->
    exists B rhs, rhs_of g B rhs /\ follow_from (rhs_of g) B A t.
  Proof. exact (fun I B => follows_sound lay g I B m A t s). Qed.

  (** C17 as stated is false ([C17_follows_incomplete_refuted]: nullable symbols are not skipped).  It
      holds for grammars where no nonterminal that may be empty stands right after a nonterminal; in general the
      computed set is exactly [adjacent_follow]. *)
  Theorem C17_follows_complete_partial (lay : layout NT) (g : Grammar T NT AK AV) m B A t :
    lay_inj g lay -> built g -> runs_to (calculate_follows lay g) (Ret (Ok m)) ->
    (forall H pre Y X post, rhs_of g H (pre ++ NonTerm Y :: NonTerm X :: post) -> ~ derives_empty g X) ->
    follow_from (rhs_of g) B A t -> exists s, bt_get A m = Some s /\ In t s.
  Proof. exact (fun I Bl => follows_complete lay g I Bl m B A t). Qed.
  Theorem C17_follows_exact (lay : layout NT) (g : Grammar T NT AK AV) m :
    lay_inj g lay -> built g -> runs_to (calculate_follows lay g) (Ret (Ok m)) ->
    forall A t, (exists s, bt_get A m = Some s /\ In t s) <-> adjacent_follow (rhs_of g) A t.
  Proof. exact (fun I B => follows_exact lay g I B m). Qed.

  (** C18 as stated is false ([C18_follows_panics_refuted]).  Exact verdict: the pass terminates; it
      fails iff the grammar is null-ambiguous; otherwise it panics iff some body has a nonterminal
      followed by a nonterminal X for which [Firsts::get] is [None]. *)
  Theorem C18_follows_verdict (lay : layout NT) (g : Grammar T NT AK AV) :
    lay_inj g lay -> built g ->
    let undef := exists B pre A X post, rhs_of g B (pre ++ NonTerm A :: NonTerm X :: post) /\
                   forall e, can_be_first (rhs_of g) X e -> e = NonTerm X in
    (runs_to (calculate_follows lay g) (Ret (Err (FoFirst (FNullableError Ambiguity)))) <-> null_ambiguous g) /\
    ((exists s, runs_to (calculate_follows lay g) (Panic s)) <-> ~ null_ambiguous g /\ undef) /\
    ((exists m, runs_to (calculate_follows lay g) (Ret (Ok m))) <-> ~ null_ambiguous g /\ ~ undef).
  Proof. exact (follows_verdict lay g). Qed.
End S.

Theorem C15_firsts_absent_refuted : exists (g : Grammar nat nat nat nat) m A r,
  built g /\ in_memory g ex_lay /\ runs_to (calculate_firsts ex_lay g) (Ret (Ok m)) /\ try_get_rule g A = Some r /\
  firsts_get m A = None.
Proof. exact firsts_absent_example. Qed.

Theorem C17_follows_incomplete_refuted : exists (g : Grammar nat nat nat nat) m,
  built g /\ in_memory g ex_lay /\ runs_to (calculate_follows ex_lay g) (Ret (Ok m)) /\
  follow_from (rhs_of g) (start_nt g) 1 7 /\ ~ exists s, bt_get 1 m = Some s /\ In 7 s.
Proof. exact follows_incomplete_example. Qed.

Theorem C18_follows_panics_refuted : exists (g : Grammar nat nat nat nat) s,
  built g /\ in_memory g ex_lay /\ runs_to (calculate_follows ex_lay g) (Panic s).
Proof. exact follows_panic_example. Qed.

Print Assumptions C14_firsts.
Print Assumptions C15_firsts_absent_exact.
Print Assumptions C15_firsts_present_partial.
Print Assumptions C16_follows_sound.
Print Assumptions C17_follows_complete_partial.
Print Assumptions C17_follows_exact.
Print Assumptions C18_follows_verdict.

(** Concrete instances of the hypotheses. *)
Example ex_expr_firsts : lay_inj ex_expr_g ex_lay /\ built ex_expr_g /\
  calculate_firsts ex_lay ex_expr_g 10 = Ret (Ok [(0, [0; 2]); (1, [0; 2])]) /\
  calculate_follows ex_lay ex_expr_g 10 = Ret (Ok [(0, [1; 3]); (1, [1; 3])]).
Proof. refine (conj _ (conj built_expr (conj eq_refl eq_refl))); [apply ex_lay_inj; vm_compute; reflexivity|..]. Qed.
Example ex_null_firsts :
  calculate_firsts ex_lay ex_null_g 10 = Ret (Ok [(0, [7; 8]); (2, [9])]).
Proof. vm_compute. reflexivity. Qed.
Example ex_expr_complete_hyp : (forall X, ~ derives_empty ex_expr_g X) /\ follow_from (rhs_of ex_expr_g) 0 0 1.
Proof.
  split; [exact ex_expr_nullfree|]. exists [], [NonTerm 1]. apply CfgFacts.df_rule.
  exists (Build_ProdInner 10 0 [Build_ProdElement (Some "l"%string) (NonTerm 0); Build_ProdElement None (Term 1);
    Build_ProdElement (Some "r"%string) (NonTerm 1)]).
  split; [eexists; split; [left; reflexivity | simpl; auto] | reflexivity].
Qed.
