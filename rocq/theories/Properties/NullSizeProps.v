(** C124: sizes of the trees of the Nullable pass and of null-free grammars (src/grammar/passes/nullable/nullables.rs,
    src/grammar/transform/nonnull.rs). *)
From Coq Require Import String List Arith Lia Sorted.
From Verif.Model Require Import Ord BTree Outcome Grammar Nullable NonNull.
From Verif.Spec Require Import Reach Cfg NullSpec NonNullSpec BuildSpec OrderSpec NullSizeSpec Examples.
From Verif.Proofs Require Import OrdFacts BTreeFacts LoopFacts GrammarFacts BuildMore OrderFacts NullableFacts NullableMore NullSize.
From Verif.Properties Require Import NullableProps NonNullProps.
Import ListNotations.
Local Open Scope nat_scope.

Section S.
  Context {T NT AK AV : Type} `{OrdEq T} `{OrdEq NT}.

  (** C124.  With n rules and at most b elements in a body, an action tree has at most 1 + b + ... + b^(n-1) nodes. *)
  Theorem C124_tree_bound (lay : layout NT) (g : Grammar T NT AK AV) info A t b :
    lay_inj g lay -> built g -> runs_to (calculate_nullables lay g) (Ret (Ok info)) ->
    get_nullable_action info A = Some t ->
    (forall X p, prod_of g X p -> length (pi_elements p) <= b) ->
    tree_nodes t <= geometric b (length (rule_set g)).
  Proof.
    intros I B R G W. destruct (C09_nullable_action lay g info I B R) as [Nt _].
    assert (U : forall A t t', null_tree g A t -> null_tree g A t' -> t = t') by (intros X t1 t2 N1 N2; apply Nt in N1, N2; congruence).
    pose proof (tree_size g U b W (tree_nodes t) A t [] (le_n _) (proj1 (Nt A t) G)) as X.
    cbn [length] in X. rewrite Nat.sub_0_r in X. apply X; [constructor; [intros []|constructor]|intros Y []].
  Qed.

  (** C124.  A production that derives the empty word gives none; any other gives 2^k, where k of its elements are nonterminals
      that derive the empty word. *)
  Theorem C124_variants (lay : layout NT) (g : Grammar T NT AK AV) g' :
    lay_inj g lay -> built g -> runs_to (transform_to_nonnull lay g) (Ret (Ok g')) ->
    Forall2 (fun e e' => fst e' = fst e /\
      exists ns, Forall2 (variant_count g) (r_prods (snd e)) ns /\ length (r_prods (snd e')) = list_sum ns)
    (rule_set g) (rule_set g').
  Proof.
    intros I B R. destruct (C13_nonnull_variants lay g g' I B R) as [_ F].
    assert (Dec : forall X, derives_empty g X \/ ~ derives_empty g X).
    { assert (Na : ~ null_ambiguous g).
      { destruct (C12_nonnull_verdict lay g I B) as [[_ R2]|[[Na _]|[Na _]]]; [|exact Na|exact Na]. pose proof (runs_to_fun _ _ _ R R2). discriminate. }
      destruct (C08_nullable_verdict lay g I B) as (_ & (_ & Ok_) & _). destruct (Ok_ Na) as (info & Ri).
      destruct (C07_nullable_decides lay g I B) as (r & Rr & D).
      pose proof (runs_to_fun _ _ _ Ri Rr) as E. assert (E2 : r = Ok info) by (injection E; auto). destruct (D info E2) as (D1 & _).
      intro X. rewrite <- D1. destruct (is_nullable info X); [left; reflexivity|right; discriminate]. }
    clear R I. induction F as [|e e' l l' (E1 & _ & vss & Fv & E2) _ IH]; [constructor|]. constructor; [|exact IH].
    split; [exact E1|]. exists (map (@length _) vss). rewrite E2. split.
    - clear E2. induction Fv as [|p vs ps vss V _ IHv]; [constructor|]. cbn [map]. constructor; [exact (variants_count g Dec p vs V)|exact IHv].
    - clear. induction vss as [|vs vss IH]; [reflexivity|]. cbn [concat map]. rewrite app_length, IH. reflexivity.
  Qed.
End S.

(** *** The bounds are attained *)
Section Doubling.
  Variable n : nat.
  Definition dbl_prod (i : nat) : ProdInner nat nat nat nat := Build_ProdInner 0 0 [Build_ProdElement (Some "l"%string) (NonTerm (S i)); Build_ProdElement (Some "r"%string) (NonTerm (S i))].
  Lemma dbl_heads : NoDup (map call_head (doubling n)).
  Proof.
    unfold doubling. rewrite map_app, map_map. cbn [map call_head]. change [n] with (seq (0 + n) 1). rewrite map_id.
    rewrite <- (seq_app n 1 0). apply seq_NoDup.
  Qed.
  Lemma dbl_last A rcs : last_rule (doubling n) A rcs <->
    (A < n /\ rcs = [AddProd 0 0 [AddNamedNonterm "l"%string (S A); AddNamedNonterm "r"%string (S A)]]) \/ (A = n /\ rcs = [AddProd 0 0 []]).
  Proof.
    rewrite (last_rule_nodup _ A rcs dbl_heads). unfold doubling. rewrite in_app_iff, in_map_iff. split.
    - intros [(i & [= <- <-] & I)|[[= <- <-]|[]]]; [left|right; auto]. apply in_seq in I. split; [lia|reflexivity].
    - intros [[L ->]|[-> ->]]; [left; exists A; split; [reflexivity|apply in_seq; lia]|right; left; reflexivity].
  Qed.
  Lemma dbl_mentions A : A < n -> mentions (doubling n) A (S A).
  Proof. intro L. eexists _, _. split; [apply dbl_last; left; split; [exact L|reflexivity]|]. split; [left; reflexivity|]. left. reflexivity. Qed.
  Lemma dbl_star A : A <= n -> star (mentions (doubling n)) 0 A.
  Proof. induction A as [|A IH]; intro L; [constructor|]. econstructor; [apply IH; lia|apply dbl_mentions; lia]. Qed.
  Lemma dbl_defined A : defined (doubling n) A <-> A <= n.
  Proof.
    split; [intros (rcs & L); apply dbl_last in L; lia|]. intro L. destruct (Nat.eq_dec A n) as [E|E]; eexists; apply dbl_last; [right; auto|left; split; [lia|reflexivity]].
  Qed.
  Lemma dbl_built : exists g, runs_to (build 0 (doubling n)) (Ret (Ok g)).
  Proof.
    apply reachable_accepted.
    - apply dbl_defined. lia.
    - intros A D. apply dbl_star, dbl_defined, D.
    - intros A B (rcs & c & L & I & M). apply dbl_defined. apply dbl_last in L. destruct L as [[L ->]|[-> ->]]; destruct I as [<-|[]]; cbn in M.
      + destruct M as [[= <-]|[[= <-]|[]]]; lia.
      + destruct M.
    - intros A L. apply dbl_last in L. destruct L as [[_ [=]]|[_ [=]]].
  Qed.
  Variable g : Grammar nat nat nat nat.
  Hypothesis R : runs_to (build 0 (doubling n)) (Ret (Ok g)).

  Lemma dbl_rule A r : In (A, r) (rule_set g) <-> (A < n /\ r = Build_RuleInner A [dbl_prod A]) \/ (A = n /\ r = Build_RuleInner n [Build_ProdInner 0 0 []]).
  Proof.
    destruct (build_Ok_inv _ _ _ R) as (-> & _). rewrite calls_In. split.
    - intros (rcs & L & ->). apply dbl_last in L. destruct L as [[L ->]|[-> ->]]; auto.
    - intros [[L ->]|[-> ->]]; eexists; (split; [apply dbl_last|]); [left; split; [exact L|reflexivity]|reflexivity|right; auto|reflexivity].
  Qed.
  Lemma dbl_prod_of A p : prod_of g A p <-> (A < n /\ p = dbl_prod A) \/ (A = n /\ p = Build_ProdInner 0 0 []).
  Proof.
    split.
    - intros (r & I & J). apply dbl_rule in I. destruct I as [[L ->]|[-> ->]]; destruct J as [<-|[]]; auto.
    - intros [[L ->]|[-> ->]]; eexists; (split; [apply dbl_rule|]); [left; split; [exact L|reflexivity]|left; reflexivity|right; auto|left; reflexivity].
  Qed.
  Lemma dbl_unamb : ~ null_ambiguous g.
  Proof.
    intros (A & i & j & p & q & (r & I & Hi) & (r' & I' & Hj) & N & _). apply dbl_rule in I, I'.
    assert (r = r') as <- by (destruct I as [[L ->]|[-> ->]], I' as [[L' ->]|[E' ->]]; (reflexivity || lia)).
    assert (length (r_prods r) = 1) by (destruct I as [[L ->]|[-> ->]]; reflexivity).
    pose proof (proj1 (nth_error_Some (r_prods r) i) ltac:(congruence)). pose proof (proj1 (nth_error_Some (r_prods r) j) ltac:(congruence)). lia.
  Qed.
  Lemma dbl_empty : forall k A, k = n - A -> A <= n -> derives_empty g A.
  Proof.
    induction k as [|k IH]; intros A E L; apply lang_iff.
    - exists []. split; [|constructor]. exists (Build_ProdInner 0 0 []). split; [apply dbl_prod_of; right; split; [lia|reflexivity]|reflexivity].
    - exists [NonTerm (S A); NonTerm (S A)]. split; [exists (dbl_prod A); split; [apply dbl_prod_of; left; split; [lia|reflexivity]|reflexivity]|].
      apply gen_empty. intros e [<-|[<-|[]]]; exists (S A); (split; [reflexivity|apply IH; lia]).
  Qed.
  Lemma dbl_named A id B : last_named (pi_elements (dbl_prod A)) id B <-> (id = "l"%string \/ id = "r"%string) /\ B = S A.
  Proof.
    split.
    - intros ([|e1 [|e2 [|e3 pre]]] & post & E & _); cbn in E; injection E; intros; subst; try discriminate; auto.
    - intros [[->| ->] ->].
      + exists [], [Build_ProdElement (Some "r"%string) (NonTerm (S A))]. split; [reflexivity|]. intros e [<-|[]]. discriminate.
      + exists [Build_ProdElement (Some "l"%string) (NonTerm (S A))], []. split; [reflexivity|]. intros e [].
  Qed.
  Lemma dbl_tree : forall k A t, k = n - A -> A <= n -> null_tree g A t -> S (tree_nodes t) = 2 ^ S k.
  Proof.
    induction k as [|k IH]; intros A t E L N; destruct N as [A p ps Pp Gp S Fv Fe].
    - assert (A = n) by lia. subst A. apply dbl_prod_of in Pp. destruct Pp as [[? _]|[_ ->]]; [lia|].
      destruct ps as [|[id v] ps]; [reflexivity|]. destruct (Fv id v (or_introl eq_refl)) as (B & t & ([|] & post & X & _) & _); discriminate.
    - apply dbl_prod_of in Pp. destruct Pp as [[L' ->]|[-> _]]; [|lia].
      assert (Ns : map fst ps = ["l"; "r"]%string).
      { apply sorted_ext; [exact S|repeat constructor|]. intro id. split.
        - intro I. apply in_map_iff in I. destruct I as ([id' v] & <- & I). destruct (Fv id' v I) as (B & t & Ln & _). apply dbl_named in Ln. destruct Ln as [[->| ->] _]; cbn; auto.
        - intro I. assert (Ln : last_named (pi_elements (dbl_prod A)) id (Datatypes.S A)) by (apply dbl_named; destruct I as [<-|[<-|[]]]; auto).
          destruct (Fe id _ Ln) as (v & Iv). exact (in_map fst _ _ Iv). }
      destruct ps as [|[i1 v1] [|[i2 v2] [|]]]; try discriminate Ns. injection Ns as -> ->.
      destruct (Fv _ v1 (or_introl eq_refl)) as (B1 & t1 & Ln1 & -> & Nt1). destruct (Fv _ v2 (or_intror (or_introl eq_refl))) as (B2 & t2 & Ln2 & -> & Nt2).
      apply dbl_named in Ln1, Ln2. destruct Ln1 as [_ ->], Ln2 as [_ ->].
      pose proof (IH (Datatypes.S A) t1 ltac:(lia) ltac:(lia) Nt1) as E1. pose proof (IH (Datatypes.S A) t2 ltac:(lia) ltac:(lia) Nt2) as E2.
      cbn [tree_nodes map snd value_nodes list_sum fold_right]. cbn [Nat.pow] in *. lia.
  Qed.
End Doubling.

(** C124.  The bound is attained up to a constant: the grammar of the n + 1 rules i -> l:(i+1) r:(i+1), n -> (empty) is accepted, and the tree of its start symbol has
    2^(n+1) - 1 nodes. *)
Theorem C124_tree_exponential n : exists g, runs_to (build 0 (doubling n)) (Ret (Ok g)) /\
  forall lay, lay_inj g lay -> exists info t, runs_to (calculate_nullables lay g) (Ret (Ok info)) /\
    get_nullable_action info 0 = Some t /\ S (tree_nodes t) = 2 ^ (n + 1).
Proof.
  destruct (dbl_built n) as (g & R). exists g. split; [exact R|]. intros lay I. assert (B : built g) by (exists 0, (doubling n); exact R).
  destruct (C08_nullable_verdict lay g I B) as (_ & (_ & Ok_) & _). destruct (Ok_ (dbl_unamb n g R)) as (info & Ri).
  destruct (C09_nullable_action lay g info I B Ri) as [Nt Ex]. destruct (proj2 (Ex 0) (dbl_empty n g R n 0 ltac:(lia) ltac:(lia))) as (t & G).
  exists info, t. split; [exact Ri|]. split; [exact G|]. rewrite Nat.add_1_r. apply (dbl_tree n g R n 0); [lia|lia|apply Nt, G].
Qed.

Section Optional.
  Variable n : nat.
  Hypothesis Pos : 0 < n.
  Lemma opt_last A rcs : last_rule (optional n) A rcs <->
    (A = 0 /\ rcs = [AddProd 0 0 (AddTerm 0 :: repeat (AddNonterm 1) n)]) \/ (A = 1 /\ rcs = [AddProd 1 0 []; AddProd 2 0 [AddTerm 1]]).
  Proof.
    rewrite last_rule_nodup by (repeat constructor; cbn; intuition discriminate). cbn [optional In]. split.
    - intros [[= <- <-]|[[= <- <-]|[]]]; auto.
    - intros [[-> ->]|[-> ->]]; auto.
  Qed.
  Definition opt_prod : ProdInner nat nat nat nat := Build_ProdInner 0 0 (Build_ProdElement None (Term 0) :: repeat (Build_ProdElement None (NonTerm 1)) n).
  Lemma opt_spec : spec_prod (AddProd 0 0 (AddTerm 0 :: repeat (AddNonterm 1) n)) = opt_prod.
  Proof. cbn. unfold opt_prod. do 2 f_equal. clear Pos. induction n as [|k IH]; [reflexivity|]. cbn [repeat map]. rewrite IH. reflexivity. Qed.
  Lemma opt_mentions A B : mentions (optional n) A B <-> A = 0 /\ B = 1.
  Proof.
    split.
    - intros (rcs & c & L & I & M). apply opt_last in L. destruct L as [[-> ->]|[-> ->]].
      + destruct I as [<-|[]]. rewrite opt_spec in M. cbn in M. destruct M as [[=]|M]. apply in_map_iff in M. destruct M as (e & E & Ie). apply repeat_spec in Ie. subst e. cbn in E. split; congruence.
      + destruct I as [<-|[<-|[]]]; cbn in M; [destruct M|destruct M as [[=]|[]]].
    - intros [-> ->]. eexists _, _. split; [apply opt_last; left; auto|]. split; [left; reflexivity|]. rewrite opt_spec. cbn. right.
      destruct n as [|k]; [lia|]. left. reflexivity.
  Qed.
  Lemma opt_built : exists g, runs_to (build 0 (optional n)) (Ret (Ok g)).
  Proof.
    apply reachable_accepted.
    - eexists. apply opt_last. auto.
    - intros A (rcs & L). apply opt_last in L. destruct L as [[-> _]|[-> _]]; [constructor|]. econstructor; [constructor|]. apply opt_mentions. auto.
    - intros A B M. apply opt_mentions in M. destruct M as [_ ->]. eexists. apply opt_last. auto.
    - intros A L. apply opt_last in L. destruct L as [[_ [=]]|[_ [=]]].
  Qed.
  Variable g : Grammar nat nat nat nat.
  Hypothesis R : runs_to (build 0 (optional n)) (Ret (Ok g)).
  Lemma opt_rule A r : In (A, r) (rule_set g) <-> (A = 0 /\ r = Build_RuleInner 0 [opt_prod]) \/
    (A = 1 /\ r = Build_RuleInner 1 [Build_ProdInner 1 0 []; Build_ProdInner 2 0 [Build_ProdElement None (Term 1)]]).
  Proof.
    destruct (build_Ok_inv _ _ _ R) as (-> & _). rewrite calls_In. split.
    - intros (rcs & L & ->). apply opt_last in L. destruct L as [[-> ->]|[-> ->]]; [left|right; auto]. cbn [map]. rewrite opt_spec. auto.
    - intros [[-> ->]|[-> ->]]; eexists; (split; [apply opt_last|]); [left; auto|cbn [map]; rewrite opt_spec; reflexivity|right; auto|reflexivity].
  Qed.
  Lemma opt_one : derives_empty g 1.
  Proof.
    apply lang_iff. exists []. split; [|constructor]. exists (Build_ProdInner 1 0 []). split; [|reflexivity]. eexists. split; [apply opt_rule; right; auto|left; reflexivity].
  Qed.
  Lemma opt_not_empty : ~ body_derives_empty g opt_prod.
  Proof. intro G. apply gen_empty with (e := Term 0) in G; [destruct G as (B & [=] & _)|left; reflexivity]. Qed.
  Lemma opt_y : ~ body_derives_empty g (Build_ProdInner 2 0 [Build_ProdElement None (Term 1)]).
  Proof. intro G. apply gen_empty with (e := Term 1) in G; [destruct G as (B & [=] & _)|left; reflexivity]. Qed.
  Lemma opt_ok lay : lay_inj g lay -> exists g', runs_to (transform_to_nonnull lay g) (Ret (Ok g')).
  Proof.
    intro I. destruct (C12_nonnull_verdict lay g I (ex_intro _ 0 (ex_intro _ (optional n) R))) as [[Am _]|[(_ & Rj & _)|(_ & _ & X)]]; [exfalso|exfalso|exact X].
    - destruct Am as (A & i & j & p & q & (r & Ir & Hi) & (r' & Ir' & Hj) & N & Bp & Bq). apply opt_rule in Ir, Ir'.
      destruct Ir as [[-> ->]|[-> ->]], Ir' as [[E ->]|[E ->]]; try discriminate E; cbn [r_prods] in *.
      + destruct i as [|[|]]; try discriminate. injection Hi as <-. exact (opt_not_empty Bp).
      + destruct i as [|[|[|]]], j as [|[|[|]]]; try discriminate; try congruence; injection Hi as <-; injection Hj as <-; [exact (opt_y Bq)|exact (opt_y Bp)].
    - destruct Rj as [(A & r & Ir & Al)|(A & B & (p & (r & Ir & Ip) & Nb & M) & Np)].
      + apply opt_rule in Ir. destruct Ir as [[-> ->]|[-> ->]]; [exact (opt_not_empty (Al _ (or_introl eq_refl)))|exact (opt_y (Al _ (or_intror (or_introl eq_refl))))].
      + apply Np. apply opt_rule in Ir. destruct Ir as [[-> ->]|[-> ->]].
        * destruct Ip as [<-|[]]. assert (start_symbol g = 0) as -> by (destruct (build_Ok_inv _ _ _ R) as (-> & _); reflexivity).
          exists 0. split; [constructor|]. exists opt_prod. split; [eexists; split; [apply opt_rule; left; auto|left; reflexivity]|]. auto.
        * exfalso. destruct Ip as [<-|[<-|[]]]; cbn in M; [destruct M|destruct M as [[=]|[]]].
  Qed.
  Lemma opt_occ : null_occurrences g (pi_elements opt_prod) n.
  Proof.
    cbn. eapply no_term; [reflexivity|]. clear Pos. pose proof opt_one as O. clear R. induction n as [|k IH]; [constructor|]. cbn [repeat]. eapply no_null; [reflexivity|exact O|exact IH].
  Qed.
End Optional.

(** C124.  With n > 0 optional elements, the null-free grammar has 2^n productions for one. *)
Theorem C124_grammar_exponential n : 0 < n -> exists g, runs_to (build 0 (optional n)) (Ret (Ok g)) /\
  forall lay, lay_inj g lay -> exists g' r', runs_to (transform_to_nonnull lay g) (Ret (Ok g')) /\
    In (0, r') (rule_set g') /\ length (r_prods r') = 2 ^ n.
Proof.
  intro Pos. destruct (opt_built n Pos) as (g & R). exists g. split; [exact R|]. intros lay I. destruct (opt_ok n g R lay I) as (g' & R').
  pose proof (C124_variants lay g g' I (ex_intro _ 0 (ex_intro _ (optional n) R)) R') as F. exists g'.
  assert (Ir : In (0, Build_RuleInner 0 [opt_prod n]) (rule_set g)) by (apply (opt_rule n g R); auto).
  assert (X : exists e', In e' (rule_set g') /\ fst e' = 0 /\ exists ns, Forall2 (variant_count g) [opt_prod n] ns /\ length (r_prods (snd e')) = list_sum ns).
  { revert Ir. clear R'. induction F as [|e e' l l' (E & ns & Fn & Ln) _ IH]; intros []; [subst e|].
    - exists e'. split; [left; reflexivity|]. split; [exact E|]. exists ns. auto.
    - destruct (IH H) as (e0 & I0 & Y). exists e0. split; [right; exact I0|exact Y]. }
  destruct X as ([A r'] & Ie & E & ns & Fn & Ln). cbn in E. subst A. exists r'. split; [exact R'|]. split; [exact Ie|]. cbn [snd] in Ln. rewrite Ln.
  inversion Fn as [|p m ps ms V Fn' E1 E2]; subst. inversion Fn'; subst. cbn [list_sum fold_right]. rewrite Nat.add_0_r.
  destruct V as [[Be _]|(_ & k & Oc & ->)]; [destruct (opt_not_empty n g Be)|]. f_equal. exact (occurrences_fun g _ _ _ Oc (opt_occ n g R)).
Qed.

(** For n = 3: the tree has 15 nodes, and 4 rules with two elements at most give the bound 15. *)
Example C124_example : geometric 2 4 = 15 /\ 2 ^ (3 + 1) = S 15 /\ (exists g, runs_to (build 0 (doubling 3)) (Ret (Ok g)) /\ lay_inj g ex_lay) /\
  exists g, runs_to (build 0 (optional 3)) (Ret (Ok g)) /\ lay_inj g ex_lay.
Proof.
  split; [reflexivity|]. split; [reflexivity|]. split; (eexists; split; [apply (build_vm _ _ 10); [vm_compute; reflexivity|discriminate]|apply ex_lay_inj; vm_compute; reflexivity]).
Qed.

Print Assumptions C124_tree_bound.
Print Assumptions C124_variants.
Print Assumptions C124_tree_exponential.
Print Assumptions C124_grammar_exponential.
