(** The passes and the transformation do not depend on the addresses of productions. *)
From Coq Require Import List Lia.
From Verif.Model Require Import Ord BTree Outcome Utils Grammar Nullable Firsts NonNull.
From Verif.Spec Require Import Cfg BuildSpec NullSpec.
From Verif.Proofs Require Import OrdFacts BTreeFacts LoopFacts NullableMore FirstsMore NonNullMore.
Import ListNotations.

Lemma runs_to_swap {A B} (f f' : nat -> outcome A) (k : nat -> A -> outcome B) a r :
  runs_to f (Ret a) -> runs_to f' (Ret a) ->
  runs_to (fun n => obind (f n) (k n)) r -> runs_to (fun n => obind (f' n) (k n)) r.
Proof.
  intros [_ [n E]] [_ [n' E']] [N [m Q]]. split; [exact N|]. exists (n + n' + m). intros fuel L.
  rewrite E' by lia. rewrite <- (Q fuel) by lia. rewrite E by lia. reflexivity.
Qed.

Section S.
  Context {T NT AK AV : Type} `{OrdEq T} `{OrdEq NT}.
  Variable g : Grammar T NT AK AV.
  Hypothesis B : built g.
  Variables lay lay' : layout NT.
  Hypothesis I : lay_inj g lay.
  Hypothesis I' : lay_inj g lay'.

  Lemma mem_nullables : exists r, runs_to (calculate_nullables lay g) (Ret r) /\ runs_to (calculate_nullables lay' g) (Ret r).
  Proof.
    destruct (nullable_final lay g I B) as [[A R]|(N & info & R & S & _ & _ & _ & C)];
    destruct (nullable_final lay' g I' B) as [[A' R']|(N' & info' & R' & S' & _ & _ & _ & C')]; try tauto.
    - exists (Err Ambiguity). auto.
    - exists (Ok info). split; [exact R|]. replace info with info'; [exact R'|]. apply msorted_ext; [exact S'|exact S|].
      intro k. destruct (bt_get k info') as [t|] eqn:E.
      + symmetry. apply C. apply C'. exact E.
      + destruct (bt_get k info) as [t|] eqn:E'; [|reflexivity]. exfalso. assert (X : bt_get k info' = Some t) by (apply C'; apply C; exact E'). congruence.
  Qed.
  Lemma mem_firsts r : runs_to (calculate_firsts lay g) r -> runs_to (calculate_firsts lay' g) r.
  Proof. destruct mem_nullables as (x & R & R'). exact (runs_to_swap _ _ _ x r R R'). Qed.
  Lemma mem_transform r : runs_to (transform_to_nonnull lay g) r -> runs_to (transform_to_nonnull lay' g) r.
  Proof. destruct mem_nullables as (x & R & R'). exact (runs_to_swap _ _ _ x r R R'). Qed.
  Lemma mem_follows r : runs_to (calculate_follows lay g) r -> runs_to (calculate_follows lay' g) r.
  Proof.
    destruct (firsts_result lay g I B) as (x & R & _). exact (runs_to_swap _ _ _ x r R (mem_firsts _ R)).
  Qed.
End S.
