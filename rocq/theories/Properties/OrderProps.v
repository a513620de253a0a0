(** Properties of the order of builder calls (C93). *)
From Coq Require Import String List Permutation.
From Verif.Model Require Import Ord BTree Outcome Grammar.
From Verif.Spec Require Import Reach Cfg BuildSpec OrderSpec Examples.
From Verif.Proofs Require Import OrdFacts LoopFacts GrammarFacts BuildMore OrderFacts.
Import ListNotations.

Section S.
  Context {T NT AK AV : Type} `{OrdEq NT}.

  (** C93. [build] depends only on the last [add_rule] of each head: same grammar, same errors, same panic. *)
  Theorem C93_same_rules start (calls calls' : list (gb_call T NT AK AV)) r :
    same_rules calls calls' -> (runs_to (build start calls) r <-> runs_to (build start calls') r).
  Proof.
    intro E. split; apply build_ext_runs; [exact E|]. intros A ps. symmetry. apply E.
  Qed.

  (** C93. The order in which rules for different heads are added does not matter. *)
  Theorem C93_rule_order start (calls calls' : list (gb_call T NT AK AV)) r :
    NoDup (map call_head calls) -> Permutation calls calls' ->
    (runs_to (build start calls) r <-> runs_to (build start calls') r).
  Proof. intros N P. apply C93_same_rules. now apply perm_same. Qed.

  (** C93. A rule that is followed by another one for the same head has no effect at all. *)
  Theorem C93_overwritten start (pre rest : list (gb_call T NT AK AV)) A rcs rcs' r :
    In (AddRule A rcs') rest ->
    (runs_to (build start (pre ++ AddRule A rcs :: rest)) r <-> runs_to (build start (pre ++ rest)) r).
  Proof. intro I. apply C93_same_rules. apply last_rule_same. apply last_rule_drop. exists rcs'. exact I. Qed.

  (** C93. The order and multiplicity of the productions of a rule affect neither the verdict nor the
      language: both builds succeed, or fail with the same errors, or with the same panic. *)
  Theorem C93_prod_order start (calls calls' : list (gb_call T NT AK AV)) :
    covers calls calls' -> covers calls' calls ->
    (exists g g', runs_to (build start calls) (Ret (Ok g)) /\ runs_to (build start calls') (Ret (Ok g')) /\
       start_nt g = start_nt g' /\ (forall A rhs, rhs_of g A rhs <-> rhs_of g' A rhs) /\
       (forall A w, lang (rhs_of g) A w <-> lang (rhs_of g') A w)) \/
    (exists e, runs_to (build start calls) (Ret (Err e)) /\ runs_to (build start calls') (Ret (Err e))) \/
    (exists m, runs_to (build start calls) (Panic m) /\ runs_to (build start calls') (Panic m)).
  Proof.
    intros C C'. destruct (covers_verdict start calls calls' C C') as [X|[X|(m & m' & R & R')]]; [auto|auto|]. right. right. exists m. split; [exact R|].
    rewrite (build_panic_text _ _ _ R), <- (build_panic_text _ _ _ R'). exact R'.
  Qed.

  (** C93. Adding the rules of an accepted grammar to a new builder gives the same grammar. *)
  Theorem C93_rebuild (g : Grammar T NT AK AV) :
    built g -> runs_to (build (start_nt g) (rebuild_calls g)) (Ret (Ok g)).
  Proof. exact (rebuild g). Qed.
End S.

Print Assumptions C93_same_rules.
Print Assumptions C93_rule_order.
Print Assumptions C93_overwritten.
Print Assumptions C93_prod_order.
Print Assumptions C93_rebuild.

(** The hypotheses are met, by rules in another order and by rules with productions in another order. *)
Example C93_order_example : NoDup (map call_head ex_null) /\ Permutation ex_null (rev ex_null) /\ ex_null <> rev ex_null /\
  runs_to (build 0 (rev ex_null)) (Ret (Ok ex_null_g)).
Proof.
  split; [|split; [apply Permutation_rev|split; [discriminate|]]].
  - repeat constructor; cbn; intuition discriminate.
  - apply (build_vm _ _ 10); [vm_compute; reflexivity|discriminate].
Qed.
Definition order_ex1 : list (gb_call nat nat nat nat) := [AddRule 0 [AddProd 1 1 [AddTerm 5]; AddProd 2 2 [AddNonterm 0; AddTerm 6]]].
Definition order_ex2 : list (gb_call nat nat nat nat) :=
  [AddRule 0 []; AddRule 0 [AddProdWithElems 2 2 [Build_ProdElement None (NonTerm 0); Build_ProdElement None (Term 6)]; AddProd 1 1 [AddTerm 5]; AddProd 1 1 [AddTerm 5]]].
Example C93_prod_order_example : covers order_ex1 order_ex2 /\ covers order_ex2 order_ex1 /\ exists g, runs_to (build 0 order_ex2) (Ret (Ok g)).
Proof.
  assert (L1 : forall A rcs, last_rule order_ex1 A rcs -> A = 0 /\ rcs = [AddProd 1 1 [AddTerm 5]; AddProd 2 2 [AddNonterm 0; AddTerm 6]]).
  { intros A rcs L. apply last_rule_cons in L. destruct L as [([] & ? & L & _)|[L _]]; [discriminate..|]. injection L as <- <-. auto. }
  assert (L2 : forall A rcs, last_rule order_ex2 A rcs -> A = 0 /\ rcs = [AddProdWithElems 2 2 [Build_ProdElement None (NonTerm 0); Build_ProdElement None (Term 6)]; AddProd 1 1 [AddTerm 5]; AddProd 1 1 [AddTerm 5]]).
  { intros A rcs L. apply last_rule_cons in L. destruct L as [L|[L F]].
    - apply last_rule_cons in L. destruct L as [([] & ? & L & _)|[L _]]; [discriminate..|]. injection L as <- <-. auto.
    - injection L as <- <-. exfalso. eapply F. left. reflexivity. }
  split; [|split].
  - intros A rcs L. destruct (L1 A rcs L) as [-> ->]. eexists. split; [exists [AddRule 0 []], []; split; [reflexivity|intros ? []]|]. intro p. cbn. tauto.
  - intros A rcs L. destruct (L2 A rcs L) as [-> ->]. eexists. split; [exists [], []; split; [reflexivity|intros ? []]|]. intro p. cbn. tauto.
  - eexists. apply (build_vm _ _ 10); [vm_compute; reflexivity|discriminate].
Qed.
