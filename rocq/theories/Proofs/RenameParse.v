(** Renaming symbols: what the Earley parser recognises. *)
From Coq Require Import List Lia Arith.
From Verif.Model Require Import Ord BTree Outcome Grammar.
From Verif.Spec Require Import Reach Cfg EarleySpec RenameSpec.
From Verif.Proofs Require Import OrdFacts RenameFacts.
Import ListNotations.

Lemma map_inj_eq {A B} (f : A -> B) : (forall x y, f x = f y -> x = y) -> forall l l', map f l = map f l' -> l = l'.
Proof.
  intros J l. induction l as [|a l IH]; intros [|b l'] E; try discriminate; [reflexivity|]. cbn in E. injection E as E1 E2. f_equal; [now apply J|now apply IH].
Qed.
Lemma seg_map {A B} (f : A -> B) w i k : seg (map f w) i k = map f (seg w i k).
Proof. unfold seg. rewrite skipn_map, firstn_map. reflexivity. Qed.

Section S.
  Context {T NT T' NT' : Type} `{OrdEq NT} `{OrdEq NT'}.
  Variables (fT : T -> T') (fN : NT -> NT').
  Hypothesis JN : forall A B, fN A = fN B -> A = B.
  Hypothesis JT : forall a b, fT a = fT b -> a = b.
  Notation rel := (ren_elem fT fN).
  Variable P : NT -> list (Elem T NT) -> Prop.
  Variable P' : NT' -> list (Elem T' NT') -> Prop.
  Hypothesis E : forall A' rhs', P' A' rhs' <-> exists A rhs, A' = fN A /\ rhs' = map rel rhs /\ P A rhs.

  Lemma gen_ren_iff es w : gen P' (map rel es) (map fT w) <-> gen P es w.
  Proof.
    split; [|apply (gen_ren_r fT fN P P' E)]. intro G. apply (gen_ren fT fN JN P P' E) in G. destruct G as (w0 & Ew & G).
    apply (map_inj_eq fT JT) in Ew. now subst.
  Qed.
  Lemma lang_ren_iff A w : lang P' (fN A) (map fT w) <-> lang P A w.
  Proof. exact (gen_ren_iff [NonTerm A] w). Qed.

  Variable S0 : NT.
  Variable w : list T.
  Notation w' := (map fT w).
  Lemma predicted_ren i A' : predicted P' (fN S0) w' i A' <-> exists A, A' = fN A /\ predicted P S0 w i A.
  Proof.
    split.
    - induction 1 as [|i A' pre B' post k Pd (A & -> & IH) Pr L1 L2 G]; [exists S0; split; [reflexivity|constructor]|].
      apply (P_ren_inv fT fN JN P P' E) in Pr. destruct Pr as (rhs & Er & Pr). symmetry in Er. apply map_rel_app in Er. destruct Er as (x & [|[|B] y] & -> & -> & Ey); try discriminate.
      cbn in Ey. injection Ey as -> ->. exists B. split; [reflexivity|]. rewrite map_length in L2. rewrite seg_map in G. apply gen_ren_iff in G.
      econstructor; eassumption.
    - intros (A & -> & Pd). induction Pd as [|i A pre B post k Pd IH Pr L1 L2 G]; [constructor|].
      apply (P_ren fT fN P P' E) in Pr. rewrite map_app in Pr. cbn [map ren_elem] in Pr.
      econstructor; [exact IH|exact Pr|exact L1|now rewrite map_length|]. rewrite seg_map. now apply gen_ren_iff.
  Qed.
  Lemma two_places_ren k : two_places P' (fN S0) w' k <-> two_places P S0 w k.
  Proof.
    split.
    - intros (i & A' & pre & mid & post & Pd & Pr & Nm & L1 & L2 & G1 & G2). apply predicted_ren in Pd. destruct Pd as (A & -> & Pd).
      apply (P_ren_inv fT fN JN P P' E) in Pr. destruct Pr as (rhs & Er & Pr). symmetry in Er. apply map_rel_app in Er. destruct Er as (x & y & -> & -> & Ey).
      symmetry in Ey. apply map_rel_app in Ey. destruct Ey as (m & z & -> & -> & ->). exists i, A, x, m, z. rewrite map_length in L2. rewrite seg_map in G1, G2.
      rewrite <- map_app in G2. apply gen_ren_iff in G1. apply gen_ren_iff in G2. repeat (split; [assumption|]).
      split; [intros ->; apply Nm; reflexivity|]. auto.
    - intros (i & A & pre & mid & post & Pd & Pr & Nm & L1 & L2 & G1 & G2). exists i, (fN A), (map rel pre), (map rel mid), (map rel post).
      apply (P_ren fT fN P P' E) in Pr. rewrite !map_app in Pr. rewrite map_length, !seg_map.
      split; [apply predicted_ren; eauto|]. split; [exact Pr|]. split; [intro Q; apply map_eq_nil in Q; contradiction|].
      split; [exact L1|]. split; [exact L2|]. split; [now apply gen_ren_iff|]. rewrite <- map_app. now apply gen_ren_iff.
  Qed.
  Lemma map_rel_terms u b rest : map rel b = map Term (map fT u) ++ rest -> exists r, b = map Term u ++ r.
  Proof.
    intro Q. apply map_rel_app in Q. destruct Q as (x & y & -> & Ex & _). exists y. f_equal.
    revert u Ex. induction x as [|[t|A] x IH]; intros [|a u] Ex; try discriminate; [reflexivity|]. cbn in Ex. injection Ex as E1 E2. apply JT in E1. subst a.
    cbn. f_equal. now apply IH.
  Qed.
  Lemma viable_ren u : viable P' (fN S0) (map fT u) <-> viable P S0 u.
  Proof.
    split.
    - intros (rest & D). apply (df_ren fT fN JN P P' E [NonTerm S0]) in D. destruct D as (b & Eb & D). symmetry in Eb. apply map_rel_terms in Eb.
      destruct Eb as (r & ->). exists r. exact D.
    - intros (rest & D). exists (map rel rest). apply (df_ren fT fN JN P P' E [NonTerm S0]). exists (map Term u ++ rest). split; [|exact D].
      rewrite map_app, !map_map. reflexivity.
  Qed.
End S.
