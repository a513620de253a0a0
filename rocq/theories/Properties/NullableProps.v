(** Properties of the Nullable pass (C07-C09). *)
From Coq Require Import String List NArith.
From Verif.Model Require Import Ord BTree Outcome Utils Grammar Nullable.
From Verif.Spec Require Import Reach Cfg BuildSpec NullSpec Examples.
From Verif.Proofs Require Import OrdFacts BTreeFacts LoopFacts GrammarFacts BuildMore NullableFacts NullableMore.
Import ListNotations.

Section S.
  Context {T NT AK AV : Type} `{OrdEq NT}.

  (** C07. On every accepted grammar the pass returns (it terminates and does not panic), and when it
      returns [Ok] its queries decide derivability of the empty word. *)
  Theorem C07_nullable_decides (lay : layout NT) (g : Grammar T NT AK AV) :
    lay_inj g lay -> built g ->
    exists r, runs_to (calculate_nullables lay g) (Ret r) /\
      forall info, r = Ok info ->
       (forall A, is_nullable info A = true <-> derives_empty g A) /\
       (forall A, In A (get_nullable_set info) <-> derives_empty g A) /\
       (forall A i p, nth_prod g A i p ->
          (is_prod_nullable info (Build_Prod A i p) = true <-> body_derives_empty g p)).
  Proof. exact (nullable_decides lay g). Qed.

  (** C08. It reports [Ambiguity] iff some nonterminal has two productions deriving the empty word, i.e.
      iff some nullable nonterminal does not have exactly one derivation tree of the empty word. *)
  Theorem C08_nullable_verdict (lay : layout NT) (g : Grammar T NT AK AV) :
    lay_inj g lay -> built g ->
    (runs_to (calculate_nullables lay g) (Ret (Err Ambiguity)) <-> null_ambiguous g) /\
    ((exists info, runs_to (calculate_nullables lay g) (Ret (Ok info))) <-> ~ null_ambiguous g) /\
    (~ null_ambiguous g <-> forall A, derives_empty g A ->
       exists c, etree_of g A c /\ forall d, etree_of g A d -> d = c).
  Proof. exact (nullable_verdict lay g). Qed.

  (** C09. The recorded action tree of a nonterminal is exactly the action tree of its empty
      derivation. *)
  Theorem C09_nullable_action (lay : layout NT) (g : Grammar T NT AK AV) info :
    lay_inj g lay -> built g -> runs_to (calculate_nullables lay g) (Ret (Ok info)) ->
    (forall A t, get_nullable_action info A = Some t <-> null_tree g A t) /\
    (forall A, (exists t, get_nullable_action info A = Some t) <-> derives_empty g A).
  Proof. exact (fun I B => nullable_actions lay g I B info). Qed.
End S.

Print Assumptions C07_nullable_decides.
Print Assumptions C08_nullable_verdict.
Print Assumptions C09_nullable_action.

(** The hypotheses are met: a grammar with nested nullable nonterminals, and an ambiguous one. *)
Example ex_null_hyps : lay_inj ex_null_g ex_lay /\ built ex_null_g.
Proof. refine (conj _ built_null); [apply ex_lay_inj; vm_compute; reflexivity|..]. Qed.
Example ex_amb_hyps : lay_inj ex_amb_g ex_lay /\ built ex_amb_g.
Proof. refine (conj _ built_amb); [apply ex_lay_inj; vm_compute; reflexivity|..]. Qed.
Example ex_null_run :
  calculate_nullables ex_lay ex_null_g 10 =
  Ret (Ok [(1, TNode (Build_ProdKey 1 12) []);
           (2, TNode (Build_ProdKey 2 13)
                 [("c"%string, TVNode (TNode (Build_ProdKey 1 12) []));
                  ("d"%string, TVNode (TNode (Build_ProdKey 1 12) []))])]).
Proof. vm_compute. reflexivity. Qed.
Example ex_amb_run : calculate_nullables ex_lay ex_amb_g 10 = Ret (Err Ambiguity).
Proof. vm_compute. reflexivity. Qed.
