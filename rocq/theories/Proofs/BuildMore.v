(** Proofs of the statements in [Properties/BuildProps.v]. *)
From Coq Require Import String List NArith Arith Lia.
From Verif.Model Require Import Ord BTree Outcome Utils Grammar StartGrammar.
From Verif.Spec Require Import Reach Cfg BuildSpec NullSpec Examples.
From Verif.Proofs Require Import OrdFacts BTreeFacts LoopFacts UtilsFacts GrammarFacts StartFacts.
Import ListNotations.

Section S.
  Context {T NT AK AV : Type} `{OrdEq NT}.

  Lemma build_verdict (start : NT) (calls : list (gb_call T NT AK AV)) :
    ((exists A, star (mentions calls) start A /\ ~ defined calls A) /\
     exists m, runs_to (build start calls) (Panic m))
    \/
    ((forall A, star (mentions calls) start A -> defined calls A) /\
     exists U D N : list NT,
       (sorted U /\ forall B, In B U <-> err_unreachable calls start B) /\
       (sorted D /\ forall B, In B D <-> err_undefined calls B) /\
       (sorted N /\ forall A, In A N <-> err_no_prods calls A) /\
       ((U = [] /\ D = [] /\ N = [] /\ exists g, runs_to (build start calls) (Ret (Ok g))) \/
        (~ (U = [] /\ D = [] /\ N = []) /\
         runs_to (build start calls) (Ret (Err (Build_GrammarErrors U D N)))))).
  Proof.
    destruct (build_spec start calls) as (r & R & P). destruct r as [res|m|]; [| |destruct P].
    - right. destruct P as (P1 & e & U & D & N & C). split; [exact P1|].
      exists (unreachable_nonterms e), (nonterms_without_rules e), (rules_without_prods e).
      split; [exact U|]. split; [exact D|]. split; [exact N|].
      destruct C as [(-> & E1 & E2 & E3)|(-> & E)]; [left|right].
      + repeat (split; [assumption|]). exists (calls_grammar start calls). exact R.
      + split; [exact E|]. destruct e. exact R.
    - left. split; [exact P|]. exists m. exact R.
  Qed.

  Lemma build_panic_text (start : NT) (calls : list (gb_call T NT AK AV)) m :
    runs_to (build start calls) (Panic m) -> m = "An NT rule exists in the grammar."%string.
  Proof.
    intro R. pose (g := calls_grammar start calls). pose proof (calls_rs_wf start calls) as W. fold g in W.
    destruct (bfs_total (successors g) [start_symbol g] (get_nonterminals g)) as (r & Rb & P).
    - apply successors_NoFuel.
    - intros y (x & _ & z & _ & E). apply (edge_mentions _ _ _ W) in E. apply get_nonterminals_mention; [exact W|]. exists z. exact E.
    - assert (X : runs_to (find_reachable_nonterms g) (Panic m)).
      { destruct R as [_ [n R]]. destruct Rb as [Nr [k Rb]]. pose (f := Nat.max n k). specialize (R f (Nat.le_max_l n k)). rewrite build_unfold in R. fold g in R.
        unfold check_grammar, find_unreachable_nonterms in R. pose proof (Rb f (Nat.le_max_r n k)) as Rf.
        change (breadth_first_search [start_symbol g] (successors g) f) with (find_reachable_nonterms g f) in Rf. rewrite Rf in R.
        assert (r = Panic m) as -> by (destruct r as [s|m'|]; cbn in R; [destruct (into_result _) in R; discriminate|congruence|congruence]).
        split; [discriminate|]. exists k. exact Rb. }
      pose proof (runs_to_fun _ _ _ X Rb) as E. subst r. simpl in P. destruct P as (x & _ & F).
      unfold successors, get_rule in F. destruct (try_get_rule g x); [discriminate|]. cbn in F. congruence.
  Qed.

  Lemma build_content (start : NT) (calls : list (gb_call T NT AK AV)) g :
    runs_to (build start calls) (Ret (Ok g)) ->
    start_nt g = start /\
    sorted (map r_head (rules g)) /\
    (forall A ps, In (Build_RuleInner A ps) (rules g) <->
       exists rcs, last_rule calls A rcs /\ ps = map spec_prod rcs) /\
    (forall A, try_get_rule g A = None <-> ~ defined calls A) /\
    (forall A rcs, last_rule calls A rcs ->
       try_get_rule g A = Some (Build_RuleInner A (map spec_prod rcs))).
  Proof.
    intro R. destruct (build_Ok_inv _ _ _ R) as (-> & Ac & _).
    split; [reflexivity|]. split; [apply rules_sorted; exact Ac|]. split; [|split].
    - intros A ps. rewrite (rules_In _ _ (calls_rs_wf start calls)). simpl r_head. rewrite calls_In.
      split.
      + intros (rcs & L & E). injection E as ->. exists rcs. auto.
      + intros (rcs & L & ->). exists rcs. auto.
    - intro A. rewrite <- (calls_defined start). unfold gdefined, try_get_rule. rewrite bt_keys_In.
      destruct (bt_get A (rule_set (calls_grammar start calls))) as [r|]; split; try congruence.
      + intro X. destruct X. exists r. reflexivity.
      + intros _ (r & X). discriminate.
    - intros A rcs L. apply calls_get. exists rcs. auto.
  Qed.

  Lemma rhs_mentions (g : Grammar T NT AK AV) B A :
    (exists rhs, rhs_of g B rhs /\ In (NonTerm A) rhs) <-> gmentions g B A.
  Proof.
    split.
    - intros (rhs & (p & (r & I & J) & ->) & K). exists r, p. auto.
    - intros (r & p & I & J & K). exists (map pe_elem (pi_elements p)). split; [|exact K].
      exists p. split; [exists r; auto | reflexivity].
  Qed.

  Lemma accepted_closed (g : Grammar T NT AK AV) A :
    built g ->
    (A = start_nt g \/ exists B rhs, rhs_of g B rhs /\ In (NonTerm A) rhs) ->
    exists r, get_rule g A = Ret r /\ r_head r = A /\ r_prods r <> [].
  Proof.
    intros Bg M. apply built_accepted in Bg.
    assert (D : gdefined g A).
    { destruct M as [->|(B & M)]; [exact (acc_start g Bg)|].
      apply (acc_mentioned g Bg B). apply rhs_mentions. exact M. }
    apply bt_keys_In in D. destruct D as (r & G). exists r. unfold get_rule, try_get_rule. rewrite G.
    apply bt_get_In in G. split; [reflexivity|]. split.
    - exact (proj2 (acc_wf g Bg) A r G).
    - exact (acc_prods g Bg A r G).
  Qed.

  Lemma mentioned_reachable (g : Grammar T NT AK AV) B A rhs :
    built g -> rhs_of g B rhs -> In (NonTerm A) rhs ->
    plus (fun X Y => exists rhs, rhs_of g X rhs /\ In (NonTerm Y) rhs) (start_nt g) A.
  Proof.
    intros Bg R I. apply (plus_ext _ _ _ _ (rhs_mentions g)). apply (acc_reach g (built_accepted g Bg) B).
    apply rhs_mentions. exists rhs. auto.
  Qed.

  Lemma reachable_accepted (start : NT) (calls : list (gb_call T NT AK AV)) :
    defined calls start ->
    (forall A, defined calls A -> star (mentions calls) start A) ->
    (forall A B, mentions calls A B -> defined calls B) ->
    (forall A, ~ last_rule calls A []) ->
    exists g, runs_to (build start calls) (Ret (Ok g)).
  Proof.
    intros Ds Re Md Np. destruct (build_verdict start calls) as [[(A & S & D) _]|(_ & U & D & N & HU & HD & HN & C)].
    - exfalso. apply D. destruct S as [|y z _ M]; [exact Ds | exact (Md _ _ M)].
    - destruct C as [(_ & _ & _ & G)|[C _]]; [exact G|]. exfalso. apply C.
      rewrite !nil_iff_none. split; [|split]; intros x I.
      + apply HU in I. destruct I as [(A & M) X]. apply X. exists A. split; [|exact M].
        apply Re. destruct M as (rcs & c & L & _). exists rcs. exact L.
      + apply HD in I. destruct I as [(A & M) X]. exact (X (Md _ _ M)).
      + apply HN in I. exact (Np x I).
  Qed.

  Lemma wrap_total (g : Grammar T NT AK AV) :
    built g -> exists sg, runs_to (wrap_grammar_with_start g) (Ret (Ok sg)).
  Proof. intro Bg. eexists. apply wrap_runs. apply built_accepted. exact Bg. Qed.

  Lemma wrap_language (g : Grammar T NT AK AV) sg :
    built g -> runs_to (wrap_grammar_with_start g) (Ret (Ok sg)) ->
    start_nt sg = Start /\
    (forall w', lang (rhs_of sg) Start w' <->
       exists w, w' = map STerm w ++ [EndOfStream] /\ lang (rhs_of g) (start_nt g) w) /\
    (forall A w', lang (rhs_of sg) (NTerm A) w' <->
       exists w, w' = map STerm w /\ lang (rhs_of g) A w).
  Proof.
    intros Bg R. apply built_accepted in Bg. rewrite (wrapped_eq g sg Bg R). split; [reflexivity|]. split.
    - apply wrap_lang_start. exact Bg.
    - apply wrap_lang_nt. exact Bg.
  Qed.

  Lemma wrap_rules (g : Grammar T NT AK AV) sg :
    built g -> runs_to (wrap_grammar_with_start g) (Ret (Ok sg)) ->
    forall A, try_get_rule sg (NTerm A) =
      option_map (fun r => Build_RuleInner (NTerm A)
        (map (fun p => Build_ProdInner (ActionKey (pi_action_key p)) (ActionValue (pi_action_value p))
           (map (fun e => Build_ProdElement (pe_id e)
                   (match pe_elem e with Term t => Term (STerm t) | NonTerm B => NonTerm (NTerm B) end))
              (pi_elements p))) (r_prods r))) (try_get_rule g A).
  Proof.
    intros Bg R A. apply built_accepted in Bg. rewrite (wrapped_eq g sg Bg R). unfold try_get_rule.
    destruct (bt_get A (rule_set g)) as [r|] eqn:G; simpl option_map.
    - apply bt_get_iff; [apply calls_rs_wf|]. apply (wrap_In g Bg). exists r.
      split; [apply bt_get_In; exact G | reflexivity].
    - match goal with |- ?x = None => destruct x as [r'|] eqn:G' end; [|reflexivity].
      apply bt_get_In in G'. apply (wrap_In g Bg) in G'. destruct G' as (r & I & _).
      apply bt_get_iff in I; [congruence|]. apply acc_wf. exact Bg.
  Qed.

  Lemma wrap_start_prod_spec (g : Grammar T NT AK AV) sg :
    built g -> runs_to (wrap_grammar_with_start g) (Ret (Ok sg)) ->
    exists r p, start_rule sg = Ret r /\ r_head r = Start /\ start_prod sg = Ret p /\
      rule_prods r = [p] /\ p_head p = Start /\
      action_key p = StartKey /\ action_value p = StartValue /\
      prod_elements p = [Build_ProdElement (Some "start"%string) (NonTerm (NTerm (start_nt g)));
                         Build_ProdElement None (Term EndOfStream)].
  Proof.
    intros Bg R. apply built_accepted in Bg. rewrite (wrapped_eq g sg Bg R).
    exists (Build_RuleInner Start [start_prod_inner g]), (Build_Prod Start 0 (start_prod_inner g)).
    split; [apply wrap_start_rule; exact Bg|]. split; [reflexivity|].
    split; [apply wrap_start_prod; exact Bg|]. repeat split; reflexivity.
  Qed.
End S.

Lemma rule_order (a b c : RuleRef) :
  (rr_grammar a <> rr_grammar b -> (exists m, rule_cmp a b = Panic m) /\ exists m, rule_eqb a b = Panic m) /\
  (rr_grammar a = rr_grammar b ->
     exists o, rule_cmp a b = Ret o /\ rule_cmp b a = Ret (CompOpp o) /\
       (o = Eq <-> a = b) /\ rule_eqb a b = Ret (match o with Eq => true | _ => false end)) /\
  (rule_cmp a b = Ret Lt -> rule_cmp b c = Ret Lt -> rule_cmp a c = Ret Lt).
Proof.
  unfold rule_cmp, rule_eqb, assert_. split; [|split].
  - intro N. apply N.eqb_neq in N. rewrite N. simpl. split; eexists; reflexivity.
  - intro E. rewrite E, N.eqb_refl. simpl. exists (rr_rule a ?= rr_rule b)%N. split; [reflexivity|].
    split; [rewrite N.compare_antisym; reflexivity|]. split.
    + rewrite N.compare_eq_iff. destruct a, b; simpl in *. split; congruence.
    + rewrite N.eqb_compare. destruct (rr_rule a ?= rr_rule b)%N; reflexivity.
  - destruct (N.eqb_spec (rr_grammar a) (rr_grammar b)) as [E1|]; simpl; [|discriminate].
    destruct (N.eqb_spec (rr_grammar b) (rr_grammar c)) as [E2|]; simpl; [|discriminate].
    rewrite E1, E2, N.eqb_refl. simpl. intros X Y. injection X as X. injection Y as Y. f_equal.
    rewrite N.compare_lt_iff in *. lia.
Qed.

Lemma prod_order {T NT AK AV : Type} (lay : layout NT) (p q r : Prod T NT AK AV) :
  prod_cmp lay q p = CompOpp (prod_cmp lay p q) /\
  (prod_cmp lay p q = Lt -> prod_cmp lay q r = Lt -> prod_cmp lay p r = Lt) /\
  (prod_eqb lay p q = true <-> prod_cmp lay p q = Eq) /\
  ((forall A i B j, lay A i = lay B j -> A = B /\ i = j) ->
   prod_cmp lay p q = Eq <-> p_head p = p_head q /\ p_ix p = p_ix q).
Proof.
  unfold prod_cmp, prod_eqb. split; [apply N.compare_antisym|]. split; [|split].
  - rewrite !N.compare_lt_iff. lia.
  - rewrite N.eqb_eq, N.compare_eq_iff. tauto.
  - intro I. rewrite N.compare_eq_iff. split; [apply I|]. intros [-> ->]. reflexivity.
Qed.

Lemma build_vm {T AK AV} start (calls : list (gb_call T nat AK AV)) n r :
  build start calls n = r -> r <> NoFuel -> runs_to (build start calls) r.
Proof. intros E N. exact (runs_to_mono _ n r (build_mono start calls) E N). Qed.

Lemma built_expr : built ex_expr_g.
Proof. exists 0, ex_expr. apply (build_vm _ _ 10); [vm_compute; reflexivity | discriminate]. Qed.

Lemma build_empty_panics : exists m, runs_to (@build nat nat nat nat _ 0 []) (Panic m).
Proof. eexists. apply (build_vm _ _ 10); [vm_compute; reflexivity | discriminate]. Qed.

Lemma unreachable_rule_accepted :
  exists (g : Grammar nat nat nat nat) A r, built g /\ In (A, r) (rule_set g) /\ A <> start_nt g /\
    ~ plus (fun X Y => exists rhs, rhs_of g X rhs /\ In (NonTerm Y) rhs) (start_nt g) A.
Proof.
  exists ex_unreach_g, 1. eexists. split; [|split; [right; left; reflexivity|split; [discriminate|]]].
  - exists 0, ex_unreach. apply (build_vm _ _ 10); [vm_compute; reflexivity | discriminate].
  - intros (y & _ & rhs & (p & (r & I & J) & ->) & K). simpl in I.
    destruct I as [I|[I|[]]]; injection I as <- <-; destruct J as [<-|[]]; destruct K as [K|[]]; discriminate.
Qed.

Lemma start_reported :
  runs_to (build 0 ex_start_unreach) (Ret (Err (Build_GrammarErrors [0] [] []))).
Proof. apply (build_vm _ _ 10); [vm_compute; reflexivity | discriminate]. Qed.

(** Real layouts. *)
Definition lay_up {T NT AK AV} (g : Grammar T NT AK AV) (lay : layout NT) : Prop :=
  forall A i p j q, NullSpec.nth_prod g A i p -> NullSpec.nth_prod g A j q -> i < j -> (lay A i < lay A j)%N.
Lemma in_memory_up {T NT AK AV} (g : Grammar T NT AK AV) lay : NullSpec.in_memory g lay -> lay_up g lay.
Proof.
  intros (size & base & P & L & _) A i p j q I J Lt. rewrite (L _ _ _ I), (L _ _ _ J). nia.
Qed.
Lemma in_memory_inj {T NT AK AV} `{OrdEq NT} (g : Grammar T NT AK AV) lay : NullSpec.in_memory g lay -> NullSpec.lay_inj g lay.
Proof.
  intros M A i p B j q I J E. destruct M as (size & base & P & L & D).
  rewrite (L _ _ _ I), (L _ _ _ J) in E.
  destruct I as (r & I & Er). destruct J as (r' & J & Er').
  assert (Li : i < length (r_prods r)) by (apply nth_error_Some; congruence).
  assert (Lj : j < length (r_prods r')) by (apply nth_error_Some; congruence).
  destruct (OrdEq_dec A B) as [->|NAB]; [ split; [reflexivity|nia]|].
  exfalso. destruct (D A r B r' I J) as [X|X]; [exact NAB| |]; nia.
Qed.
Lemma ex_mem_gen {T NT AK AV} (g : Grammar T NT AK AV) (f : NT -> nat) : (forall A B, f A = f B -> A = B) -> ex_small g = true ->
  NullSpec.in_memory g (fun A i => ex_lay (f A) i).
Proof.
  intros Fi Sm. unfold ex_small in Sm. rewrite forallb_forall in Sm.
  exists 40%N, (fun A => (N.of_nat (S (f A)) * 4096)%N). split; [lia|]. split; [reflexivity|].
  intros A r B r' I J N. apply Sm, Nat.leb_le in I. apply Sm, Nat.leb_le in J. simpl in I, J.
  assert (f A <> f B) by (intro E; apply N, Fi, E). lia.
Qed.
Lemma ex_lay_mem {T AK AV} (g : Grammar T nat AK AV) : ex_small g = true -> NullSpec.in_memory g ex_lay.
Proof. exact (ex_mem_gen g (fun A => A) (fun A B E => E)). Qed.
Lemma ex_lay_inj {T AK AV} (g : Grammar T nat AK AV) : ex_small g = true -> NullSpec.lay_inj g ex_lay.
Proof. intro S. exact (in_memory_inj g _ (ex_lay_mem g S)). Qed.
Lemma built_null : built ex_null_g.
Proof. exists 0, ex_null. apply (build_vm _ _ 10); [vm_compute; reflexivity | discriminate]. Qed.
Lemma built_amb : built ex_amb_g.
Proof. exists 0, ex_amb. apply (build_vm _ _ 10); [vm_compute; reflexivity | discriminate]. Qed.
