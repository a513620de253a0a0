(** Properties of grammar construction (C01-C06, C53). *)
From Coq Require Import String List NArith.
From Verif.Model Require Import Ord BTree Outcome Utils Grammar StartGrammar.
From Verif.Spec Require Import Reach Cfg BuildSpec Examples.
From Verif.Proofs Require Import OrdFacts BTreeFacts LoopFacts GrammarFacts StartFacts BuildMore.
Import ListNotations.

Section S.
  Context {T NT AK AV : Type} `{OrdEq NT}.

  (** C01. For every start symbol and every list of [add_rule] calls, [build] terminates; it panics
      exactly when the start symbol or a nonterminal reachable from it has no rule; otherwise the
      verdict is exactly given by the three error sets. *)
  Theorem C01_build_verdict (start : NT) (calls : list (gb_call T NT AK AV)) :
    ((exists A, star (mentions calls) start A /\ ~ defined calls A) /\
     runs_to (build start calls) (Panic "An NT rule exists in the grammar."%string))
    \/
    ((forall A, star (mentions calls) start A -> defined calls A) /\
     exists U D N : list NT,
       (sorted U /\ forall B, In B U <-> err_unreachable calls start B) /\
       (sorted D /\ forall B, In B D <-> err_undefined calls B) /\
       (sorted N /\ forall A, In A N <-> err_no_prods calls A) /\
       ((U = [] /\ D = [] /\ N = [] /\ exists g, runs_to (build start calls) (Ret (Ok g))) \/
        (~ (U = [] /\ D = [] /\ N = []) /\
         runs_to (build start calls) (Ret (Err (Build_GrammarErrors U D N)))))).
  Proof.
    destruct (build_verdict start calls) as [[X (m & R)]|X]; [left|right; exact X]. split; [exact X|].
    rewrite <- (build_panic_text start calls m R). exact R.
  Qed.

  (** C02. An accepted grammar is exactly what was added: the last rule added for each head, with its
      productions in call order, listed in increasing head order. *)
  Theorem C02_build_content (start : NT) (calls : list (gb_call T NT AK AV)) g :
    runs_to (build start calls) (Ret (Ok g)) ->
    start_nt g = start /\
    sorted (map r_head (rules g)) /\
    (forall A ps, In (Build_RuleInner A ps) (rules g) <->
       exists rcs, last_rule calls A rcs /\ ps = map spec_prod rcs) /\
    (forall A, try_get_rule g A = None <-> ~ defined calls A) /\
    (forall A rcs, last_rule calls A rcs ->
       try_get_rule g A = Some (Build_RuleInner A (map spec_prod rcs))).
  Proof. exact (build_content start calls g). Qed.

  (** C03. In an accepted grammar the start symbol and every nonterminal occurring in a production
      have a rule with at least one production, so [get_rule] does not panic on them. *)
  Theorem C03_accepted_closed (g : Grammar T NT AK AV) A :
    built g ->
    (A = start_nt g \/ exists B rhs, rhs_of g B rhs /\ In (NonTerm A) rhs) ->
    exists r, get_rule g A = Ret r /\ r_head r = A /\ r_prods r <> [].
  Proof. exact (accepted_closed g A). Qed.

  (** C04 as stated (every rule head of an accepted grammar is reachable) is false: see
      [C04_unreachable_rule_accepted_refuted].  What holds: every nonterminal that occurs in a body is
      reachable; and a rule list in which everything is reachable, defined and non-empty is accepted. *)
  Theorem C04_mentioned_reachable_partial (g : Grammar T NT AK AV) B A rhs :
    built g -> rhs_of g B rhs -> In (NonTerm A) rhs ->
    plus (fun X Y => exists rhs, rhs_of g X rhs /\ In (NonTerm Y) rhs) (start_nt g) A.
  Proof. exact (mentioned_reachable g B A rhs). Qed.

  Theorem C04_reachable_accepted (start : NT) (calls : list (gb_call T NT AK AV)) :
    defined calls start ->
    (forall A, defined calls A -> star (mentions calls) start A) ->
    (forall A B, mentions calls A B -> defined calls B) ->
    (forall A, ~ last_rule calls A []) ->
    exists g, runs_to (build start calls) (Ret (Ok g)).
  Proof. exact (reachable_accepted start calls). Qed.

  (** C05. Wrapping an accepted grammar always succeeds and preserves it. *)
  Theorem C05_wrap_total (g : Grammar T NT AK AV) :
    built g -> exists sg, runs_to (wrap_grammar_with_start g) (Ret (Ok sg)).
  Proof. exact (wrap_total g). Qed.

  Theorem C05_wrap_language (g : Grammar T NT AK AV) sg :
    built g -> runs_to (wrap_grammar_with_start g) (Ret (Ok sg)) ->
    start_nt sg = Start /\
    (forall w', lang (rhs_of sg) Start w' <->
       exists w, w' = map STerm w ++ [EndOfStream] /\ lang (rhs_of g) (start_nt g) w) /\
    (forall A w', lang (rhs_of sg) (NTerm A) w' <->
       exists w, w' = map STerm w /\ lang (rhs_of g) A w).
  Proof. exact (wrap_language g sg). Qed.

  (** Names, action keys, action values and the order of productions are preserved. *)
  Theorem C05_wrap_rules (g : Grammar T NT AK AV) sg :
    built g -> runs_to (wrap_grammar_with_start g) (Ret (Ok sg)) ->
    forall A, try_get_rule sg (NTerm A) =
      option_map (fun r => Build_RuleInner (NTerm A)
        (map (fun p => Build_ProdInner (ActionKey (pi_action_key p)) (ActionValue (pi_action_value p))
           (map (fun e => Build_ProdElement (pe_id e)
                   (match pe_elem e with Term t => Term (STerm t) | NonTerm B => NonTerm (NTerm B) end))
              (pi_elements p))) (r_prods r))) (try_get_rule g A).
  Proof. exact (wrap_rules g sg). Qed.

  (** C06. *)
  Theorem C06_start_prod (g : Grammar T NT AK AV) sg :
    built g -> runs_to (wrap_grammar_with_start g) (Ret (Ok sg)) ->
    exists r p, start_rule sg = Ret r /\ r_head r = Start /\ start_prod sg = Ret p /\
      rule_prods r = [p] /\ p_head p = Start /\
      action_key p = StartKey /\ action_value p = StartValue /\
      prod_elements p = [Build_ProdElement (Some "start"%string) (NonTerm (NTerm (start_nt g)));
                         Build_ProdElement None (Term EndOfStream)].
  Proof. exact (wrap_start_prod_spec g sg). Qed.

  (** C06. On any grammar of that type, however it was made: [start_prod] is the only production of the
      start rule, and panics when there is no start rule, or it has none or several productions. *)
  Theorem C06_start_prod_any (sg : StartGrammar T NT AK AV) p :
    (start_prod sg = Ret p <-> exists r, start_rule sg = Ret r /\ rule_prods r = [p]) /\
    ((forall q, start_prod sg <> Ret q) -> exists m, start_prod sg = Panic m).
  Proof.
    unfold start_prod, start_rule, get_rule. destruct (try_get_rule sg Start) as [r|]; simpl.
    - destruct (rule_prods r) as [|x [|y l]] eqn:E; simpl; (split; [split|]); try discriminate; eauto.
      + intros (r' & [= <-] & E'). rewrite E' in E. discriminate.
      + intros [= <-]. eauto.
      + intros (r' & [= <-] & E'). rewrite E in E'. injection E' as ->. reflexivity.
      + intro K. exfalso. exact (K x eq_refl).
      + intros (r' & [= <-] & E'). rewrite E' in E. discriminate.
    - split; [split|]; [discriminate | intros (r & [=] & _) | eauto].
  Qed.
End S.

(** C53. References to rules of one grammar: total order, [Equal] iff the same rule; different grammars
    panic.  [prod_cmp] orders productions by address with no grammar check. *)
Theorem C53_rule_order (a b c : RuleRef) :
  (rr_grammar a <> rr_grammar b -> (exists m, rule_cmp a b = Panic m) /\ exists m, rule_eqb a b = Panic m) /\
  (rr_grammar a = rr_grammar b ->
     exists o, rule_cmp a b = Ret o /\ rule_cmp b a = Ret (CompOpp o) /\
       (o = Eq <-> a = b) /\ rule_eqb a b = Ret (match o with Eq => true | _ => false end)) /\
  (rule_cmp a b = Ret Lt -> rule_cmp b c = Ret Lt -> rule_cmp a c = Ret Lt).
Proof. exact (rule_order a b c). Qed.

Theorem C53_prod_order {T NT AK AV : Type} (lay : layout NT) (p q r : Prod T NT AK AV) :
  prod_cmp lay q p = CompOpp (prod_cmp lay p q) /\
  (prod_cmp lay p q = Lt -> prod_cmp lay q r = Lt -> prod_cmp lay p r = Lt) /\
  (prod_eqb lay p q = true <-> prod_cmp lay p q = Eq) /\
  ((forall A i B j, lay A i = lay B j -> A = B /\ i = j) ->
   prod_cmp lay p q = Eq <-> p_head p = p_head q /\ p_ix p = p_ix q).
Proof. exact (prod_order lay p q r). Qed.

(** The expectation of C04 fails: a rule that nothing mentions is accepted. *)
Theorem C04_unreachable_rule_accepted_refuted :
  exists (g : Grammar nat nat nat nat) A r, built g /\ In (A, r) (rule_set g) /\ A <> start_nt g /\
    ~ plus (fun X Y => exists rhs, rhs_of g X rhs /\ In (NonTerm Y) rhs) (start_nt g) A.
Proof. exact unreachable_rule_accepted. Qed.

(** A start symbol mentioned only by an unreachable rule is reported as unreachable. *)
Theorem C04_start_reported_refuted :
  runs_to (build 0 ex_start_unreach) (Ret (Err (Build_GrammarErrors [0] [] []))).
Proof. exact start_reported. Qed.

(** Non-vacuity: the expression grammar is accepted. *)
Example built_example : built ex_expr_g.
Proof. exact built_expr. Qed.
Example panic_example : exists m, runs_to (@build nat nat nat nat _ 0 []) (Panic m).
Proof. exact build_empty_panics. Qed.

Print Assumptions C01_build_verdict.
Print Assumptions C02_build_content.
Print Assumptions C03_accepted_closed.
Print Assumptions C04_mentioned_reachable_partial.
Print Assumptions C04_reachable_accepted.
Print Assumptions C04_unreachable_rule_accepted_refuted.
Print Assumptions C04_start_reported_refuted.
Print Assumptions C05_wrap_total.
Print Assumptions C05_wrap_language.
Print Assumptions C05_wrap_rules.
Print Assumptions C06_start_prod.
Print Assumptions C06_start_prod_any.
Print Assumptions C53_rule_order.
Print Assumptions C53_prod_order.
