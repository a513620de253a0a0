(** The order of builder calls. *)
From Coq Require Import List Permutation Sorted.
From Verif.Model Require Import Ord BTree Outcome Grammar.
From Verif.Spec Require Import Reach Cfg BuildSpec OrderSpec.
From Verif.Proofs Require Import OrdFacts BTreeFacts LoopFacts GrammarFacts CfgFacts BuildMore.
Import ListNotations.

Section S.
  Context {T NT AK AV : Type} `{OrdEq NT}.
  Notation call := (gb_call T NT AK AV).
  Notation same_rules := (@same_rules T NT AK AV).

  Lemma build_ext start (calls calls' : list call) : same_rules calls calls' ->
    forall fuel, build start calls fuel = build start calls' fuel.
  Proof.
    intros E fuel. rewrite !build_unfold.
    assert (X : calls_grammar start calls = calls_grammar start calls'); [|rewrite X; reflexivity].
    unfold calls_grammar. f_equal. apply msorted_ext; [apply (calls_rs_wf start calls)|apply (calls_rs_wf start calls')|].
    intro k.
    assert (Y : forall cs cs' r, same_rules cs cs' -> bt_get k (rule_map (map spec_rule cs)) = Some r -> bt_get k (rule_map (map spec_rule cs')) = Some r).
    { intros cs cs' r Q G. apply (calls_get start cs) in G. apply (calls_get start cs'). destruct G as (rcs & L & ->).
      destruct (proj1 (Q k (map spec_prod rcs)) (ex_intro _ rcs (conj L eq_refl))) as (rcs' & L' & E'). exists rcs'. rewrite E'. auto. }
    destruct (bt_get k (rule_map (map spec_rule calls))) as [r|] eqn:G.
    - symmetry. exact (Y _ _ r E G).
    - destruct (bt_get k (rule_map (map spec_rule calls'))) as [r|] eqn:G'; [|reflexivity].
      assert (E' : same_rules calls' calls) by (intros A ps; symmetry; apply E). rewrite (Y _ _ r E' G') in G. discriminate.
  Qed.
  Lemma build_ext_runs start (calls calls' : list call) r : same_rules calls calls' ->
    runs_to (build start calls) r -> runs_to (build start calls') r.
  Proof. intros E (N & n & R). split; [exact N|]. exists n. intros fuel L. rewrite <- (build_ext start calls calls' E). now apply R. Qed.

  Lemma last_rule_same (calls calls' : list call) : (forall A rcs, last_rule calls A rcs <-> last_rule calls' A rcs) -> same_rules calls calls'.
  Proof. intros E A ps. split; intros (rcs & L & P); exists rcs; (split; [now apply E|exact P]). Qed.

  Lemma last_rule_nodup (calls : list call) A rcs : NoDup (map call_head calls) -> (last_rule calls A rcs <-> In (AddRule A rcs) calls).
  Proof.
    intro N. split.
    - intros (pre & post & -> & _). apply in_or_app. right. now left.
    - intro I. apply in_split in I. destruct I as (pre & post & ->). exists pre, post. split; [reflexivity|]. intros rcs' I.
      rewrite map_app in N. cbn in N. apply NoDup_remove_2 in N. apply N. apply in_or_app. right. change A with (call_head (@AddRule T NT AK AV A rcs')). now apply in_map.
  Qed.
  Lemma perm_same (calls calls' : list call) : NoDup (map call_head calls) -> Permutation calls calls' -> same_rules calls calls'.
  Proof.
    intros N P. apply last_rule_same. intros A rcs. assert (N' : NoDup (map call_head calls')) by (eapply Permutation_NoDup; [|exact N]; now apply Permutation_map).
    rewrite !last_rule_nodup by assumption. split; apply Permutation_in; [exact P|now apply Permutation_sym].
  Qed.

  Lemma last_rule_cons (c : call) calls A rcs :
    last_rule (c :: calls) A rcs <-> last_rule calls A rcs \/ (c = AddRule A rcs /\ forall rcs', ~ In (AddRule A rcs') calls).
  Proof.
    split.
    - intros ([|x pre] & post & E & F); cbn in E; injection E as -> ->; [right; auto|]. left. exists pre, post. auto.
    - intros [(pre & post & -> & F)|[-> F]]; [exists (c :: pre), post; auto|]. exists [], calls. auto.
  Qed.
  Lemma last_rule_drop pre A r1 (rest : list call) : (exists rcs, In (AddRule A rcs) rest) ->
    forall B rcs, last_rule (pre ++ AddRule A r1 :: rest) B rcs <-> last_rule (pre ++ rest) B rcs.
  Proof.
    intros (r2 & I) B rcs. induction pre as [|c pre IH]; cbn [app].
    - rewrite last_rule_cons. split; [|auto]. intros [L|[E F]]; [exact L|]. injection E as -> ->. exfalso. exact (F r2 I).
    - rewrite !(last_rule_cons c), IH.
      assert (X : (forall rcs', ~ In (AddRule B rcs') (pre ++ AddRule A r1 :: rest)) <-> (forall rcs', ~ In (AddRule B rcs') (pre ++ rest))); [|rewrite X; reflexivity].
      split; intros F rcs' J; apply in_app_or in J.
      + apply (F rcs'). apply in_or_app. destruct J; [auto|right; now right].
      + destruct J as [J|[J|J]]; [apply (F rcs'); apply in_or_app; auto| |apply (F rcs'); apply in_or_app; auto].
        injection J as -> ->. apply (F r2). apply in_or_app. auto.
  Qed.

  (** The verdict does not depend on the order and multiplicity of productions. *)
  Lemma covers_mentions (calls calls' : list call) A B : covers calls calls' -> mentions calls A B -> mentions calls' A B.
  Proof.
    intros C (rcs & c & L & I & M). destruct (C A rcs L) as (rcs' & L' & E). apply (in_map spec_prod) in I. apply E in I.
    apply in_map_iff in I. destruct I as (c' & Ec & I). exists rcs', c'. rewrite Ec. auto.
  Qed.
  Lemma covers_defined (calls calls' : list call) A : covers calls calls' -> defined calls A -> defined calls' A.
  Proof. intros C (rcs & L). destruct (C A rcs L) as (rcs' & L' & _). exists rcs'. exact L'. Qed.
  Lemma covers_no_prods (calls calls' : list call) A : covers calls calls' -> err_no_prods calls A -> err_no_prods calls' A.
  Proof.
    intros C L. destruct (C A [] L) as (rcs' & L' & E). destruct rcs' as [|c rcs']; [exact L'|]. exfalso. apply (proj2 (E (spec_prod c))). now left.
  Qed.
  Lemma sset_ext (U U' : list NT) : sorted U -> sorted U' -> (forall x, In x U <-> In x U') -> U = U'.
  Proof. intros S S' E. now apply sorted_ext. Qed.

  Lemma covers_verdict start (calls calls' : list call) : covers calls calls' -> covers calls' calls ->
    (exists g g', runs_to (build start calls) (Ret (Ok g)) /\ runs_to (build start calls') (Ret (Ok g')) /\
       start_nt g = start_nt g' /\ (forall A rhs, rhs_of g A rhs <-> rhs_of g' A rhs) /\
       (forall A w, lang (rhs_of g) A w <-> lang (rhs_of g') A w)) \/
    (exists e, runs_to (build start calls) (Ret (Err e)) /\ runs_to (build start calls') (Ret (Err e))) \/
    (exists m m', runs_to (build start calls) (Panic m) /\ runs_to (build start calls') (Panic m')).
  Proof.
    intros C C'.
    assert (M : forall A B, mentions calls A B <-> mentions calls' A B) by (intros; split; apply covers_mentions; assumption).
    assert (D : forall A, defined calls A <-> defined calls' A) by (intros; split; apply covers_defined; assumption).
    assert (N : forall A, err_no_prods calls A <-> err_no_prods calls' A) by (intros; split; apply covers_no_prods; assumption).
    assert (Im : forall B, is_mentioned calls B <-> is_mentioned calls' B) by (intro B; split; intros (A & X); exists A; now apply M).
    assert (Pm : forall B, plus (mentions calls) start B <-> plus (mentions calls') start B) by (intro B; apply plus_ext; exact M).
    assert (Sm : forall B, star (mentions calls) start B <-> star (mentions calls') start B) by (intro B; apply star_ext; exact M).
    destruct (build_verdict start calls) as [((A & S1 & S2) & m & P)|(Df & U & Dd & Nn & (SU & HU) & (SD & HD) & (SN & HN) & V)];
      destruct (build_verdict start calls') as [((A' & S1' & S2') & m' & P')|(Df' & U' & Dd' & Nn' & (SU' & HU') & (SD' & HD') & (SN' & HN') & V')].
    - right. right. exists m, m'. auto.
    - exfalso. apply S2. apply D. apply Df'. apply Sm. exact S1.
    - exfalso. apply S2'. apply D. apply Df. apply Sm. exact S1'.
    - assert (EU : U = U'). { apply sset_ext; try assumption. intro B. rewrite HU, HU'. unfold err_unreachable. rewrite Im, Pm. reflexivity. }
      assert (ED : Dd = Dd'). { apply sset_ext; try assumption. intro B. rewrite HD, HD'. unfold err_undefined. rewrite Im, D. reflexivity. }
      assert (EN : Nn = Nn'). { apply sset_ext; try assumption. intro B. rewrite HN, HN'. apply N. }
      subst U' Dd' Nn'. destruct V as [(e1 & e2 & e3 & g & G)|(Ne & G)], V' as [(e1' & e2' & e3' & g' & G')|(Ne' & G')]; try (exfalso; tauto).
      + left. exists g, g'. split; [exact G|]. split; [exact G'|].
        destruct (build_Ok_inv _ _ _ G) as (-> & _), (build_Ok_inv _ _ _ G') as (-> & _). split; [reflexivity|].
        assert (X : forall c c' : list call, covers c c' -> forall A rhs, rhs_of (calls_grammar start c) A rhs -> rhs_of (calls_grammar start c') A rhs).
        { intros c c' Cc A rhs (p & (r & Ir & Ip) & ->). apply calls_In in Ir. destruct Ir as (rcs & L & ->). cbn in Ip.
          destruct (Cc A rcs L) as (rcs' & L' & E). apply E in Ip. exists p. split; [|reflexivity].
          exists (Build_RuleInner A (map spec_prod rcs')). split; [|exact Ip]. apply calls_In. exists rcs'. auto. }
        assert (Y : forall A rhs, rhs_of (calls_grammar start calls) A rhs <-> rhs_of (calls_grammar start calls') A rhs) by (intros; split; apply X; assumption).
        split; [exact Y|]. intros A w. unfold lang.
        split; intro Gn; induction Gn; [constructor|constructor; assumption|econstructor; [apply Y; eassumption|..]; assumption|
          constructor|constructor; assumption|econstructor; [apply Y; eassumption|..]; assumption].
      + right. left. eexists. split; [exact G|exact G'].
  Qed.

  (** Adding the rules of an accepted grammar again. *)
  Lemma rebuild (g : Grammar T NT AK AV) : built g -> runs_to (build (start_nt g) (rebuild_calls g)) (Ret (Ok g)).
  Proof.
    intros (start & calls & R). destruct (build_content start calls g R) as (-> & So & Ru & _ & _).
    apply (build_ext_runs _ calls); [|exact R].
    assert (Nd : NoDup (map call_head (rebuild_calls g))).
    { unfold rebuild_calls. rewrite map_map. cbn [call_head]. now apply sorted_NoDup. }
    assert (Ri : forall ps : list (ProdInner T NT AK AV), map spec_prod (map (fun p => AddProdWithElems (pi_action_key p) (pi_action_value p) (pi_elements p)) ps) = ps).
    { intro ps. rewrite map_map. rewrite <- (map_id ps) at 2. apply map_ext. intros []. reflexivity. }
    intros A ps. split.
    - intros (rcs & L & E). exists (map (fun p => AddProdWithElems (pi_action_key p) (pi_action_value p) (pi_elements p)) ps). split; [|apply Ri].
      apply last_rule_nodup; [exact Nd|]. unfold rebuild_calls. apply in_map_iff. exists (Build_RuleInner A ps). split; [reflexivity|].
      apply Ru. exists rcs. auto.
    - intros (rcs & L & E). apply last_rule_nodup in L; [|exact Nd]. unfold rebuild_calls in L. apply in_map_iff in L. destruct L as ([A' ps'] & Ec & Ir).
      injection Ec as -> <-. cbn [r_prods] in *. rewrite Ri in E. subst ps'. apply Ru in Ir. destruct Ir as (rcs' & L' & ->). exists rcs'. auto.
  Qed.
End S.
