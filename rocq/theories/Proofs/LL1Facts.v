(** One-token look-ahead without empty words: words are determined by their beginnings. *)
From Coq Require Import List Arith Lia.
From Verif.Model Require Import Ord BTree Outcome Utils Grammar StartGrammar Tokens Tree Nullable Firsts.
From Verif.Spec Require Import Reach Cfg BuildSpec NullSpec TreeSpec EarleySpec LL1Spec.
From Verif.Proofs Require Import OrdFacts BTreeFacts LoopFacts GrammarFacts CfgFacts NullableFacts NullableMore FirstsFacts FirstsMore EarleyItems EarleyMore.
Import ListNotations.

Section LL1.
  Context {T NT AK AV : Type} `{OrdEq T} `{OrdEq NT}.
  Variable g : Grammar T NT AK AV.
  Hypothesis Bg : built g.
  Local Notation P := (rhs_of g).

  Lemma begins_first es t : begins g es t <-> firstS P es t.
  Proof.
    split; [|apply firstS_sound]. intros (rest & D). apply (firstS_derives _ _ _ _ D). apply firstS_cons. left. reflexivity.
  Qed.
  Lemma gen_begins es t u : gen P es (t :: u) -> begins g es t.
  Proof. intro G. exists (map Term u). exact (CfgFacts.gen_derives P _ _ G). Qed.

  Section Decides.
    Hypothesis L : ll1 g.
    Lemma ll1_nonnull A : ~ lang P A [].
    Proof. exact (proj1 L A). Qed.
    Lemma ll1_same A p q t : prod_of g A p -> prod_of g A q -> begins g (body p) t -> begins g (body q) t -> p = q.
    Proof.
      intros Pp Pq Bp Bq. apply prod_of_nth in Pp, Pq. destruct Pp as (i & Ni), Pq as (j & Nj).
      pose proof (proj2 L A i j p q t Ni Nj Bp Bq) as <-. exact (nth_prod_fun g (built_rs_wf g Bg) A i p q Ni Nj).
    Qed.
    Lemma ll1_prefix es u : gen P es u -> forall u' s s', gen P es u' -> u ++ s = u' ++ s' -> u = u'.
    Proof.
      intro G. induction G as [|t es u G IH|A rhs es u v Pr G1 IH1 G2 IH2]; intros u' s s' G' E.
      - inversion G'. reflexivity.
      - inversion G' as [|t' es' u1 G1|]; subst. cbn in E. injection E as E. f_equal. exact (IH _ _ _ G1 E).
      - inversion G' as [| |A' rhs' es' x y Pr' G1' G2']; subst. rewrite <- !app_assoc in E.
        assert (rhs' = rhs) as ->.
        { destruct u as [|a u]; [destruct (ll1_nonnull A); apply lang_iff; eauto|].
          destruct x as [|b x]; [destruct (ll1_nonnull A); apply lang_iff; eauto|].
          cbn in E. injection E as -> _. destruct Pr as (p & Pp & ->), Pr' as (q & Pq & ->).
          rewrite (ll1_same A p q b Pp Pq); [reflexivity|exact (gen_begins _ _ _ G1)|exact (gen_begins _ _ _ G1')]. }
        pose proof (IH1 _ _ _ G1' E) as <-. apply app_inv_head in E. f_equal. exact (IH2 _ _ _ G2' E).
    Qed.
    Lemma ll1_prefix_free : prefix_free P.
    Proof.
      intros A u v Lu. split; [intros ->; exact (ll1_nonnull A Lu)|]. intro Lv.
      pose proof (ll1_prefix _ _ Lu (u ++ v) v [] Lv ltac:(rewrite app_nil_r; reflexivity)) as E.
      rewrite <- (app_nil_r u) in E at 1. apply app_inv_head in E. auto.
    Qed.

    Context {V : Type}.
    Lemma ll1_trees :
      (forall e ts (c : ptree T AK V), dtree g e ts c -> forall c', dtree g e ts c' -> c = c') /\
      (forall es ts (cs : list (ptree T AK V)), dtrees g es ts cs -> forall cs', dtrees g es ts cs' -> cs = cs').
    Proof.
      apply dtree_dtrees_ind.
      - intros k v c' D. inversion D; subst. reflexivity.
      - intros A p ts cs Pp D IH c' D'. inversion D' as [|A' q ts' cs' Pq Dq]; subst.
        assert (q = p) as ->; [|f_equal; exact (IH _ Dq)].
        pose proof (proj2 (dtree_gen g) _ _ _ D) as G. pose proof (proj2 (dtree_gen g) _ _ _ Dq) as Gq.
        destruct (map tk_kind ts) as [|t u].
        + destruct (ll1_nonnull A). apply lang_iff. eexists. split; [exists p; split; [exact Pp|reflexivity]|exact G].
        + symmetry. exact (ll1_same A p q t Pp Pq (gen_begins _ _ _ G) (gen_begins _ _ _ Gq)).
      - intros cs' D. inversion D. reflexivity.
      - intros e es ts us c cs D1 IH1 D2 IH2 cs' D. inversion D as [|e' es' ts' us' c' cs0 D1' D2' E1 E2 E3]; subst.
        assert (E : ts' = ts /\ us' = us).
        { pose proof (proj1 (dtree_gen g) _ _ _ D1) as G1. pose proof (proj1 (dtree_gen g) _ _ _ D1') as G1'.
          pose proof (f_equal (map tk_kind) E2) as Em. rewrite !map_app in Em. 
          pose proof (ll1_prefix _ _ G1' _ _ _ G1 Em) as El.
          assert (Hl : length ts' = length ts) by (rewrite <- (map_length tk_kind ts'), El, map_length; reflexivity).
          clear - E2 Hl. revert ts E2 Hl. induction ts' as [|a ts' IH]; intros [|b ts] E L; try discriminate; [auto|].
          cbn in E, L. injection E as -> E. injection L as L. destruct (IH ts E L) as [-> ->]. auto. }
        destruct E as [-> ->]. f_equal; auto.
    Qed.
  End Decides.

  (** The test by the passes. *)
  Lemma starts_iff m es t : (forall A, ~ derives_empty g A) ->
    (forall A t, (exists s, firsts_get m A = Some s /\ In t s) <-> first_of P A t) ->
    (In t (starts_with m es) <-> begins g es t).
  Proof.
    intros N F. rewrite begins_first. destruct es as [|[a|B] es]; cbn.
    - split; [tauto|]. intro X. destruct (firstS_nil _ _ X).
    - rewrite firstS_cons. cbn. split; [intros [->|[]]; auto|]. intros [->|[G _]]; [auto|]. inversion G.
    - rewrite firstS_cons. cbn. rewrite <- first_of_iff, <- F. split.
      + intro I. left. destruct (firsts_get m B) as [s|]; [eauto|destruct I].
      + intros [(s & -> & I)|[G _]]; [exact I|]. destruct (N B G).
  Qed.
End LL1.
