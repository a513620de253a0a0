(** Properties of Debug texts (C92). *)
From Coq Require Import String Ascii List.
From Verif.Model Require Import Ord BTree Outcome Utils Grammar StartGrammar Nullable Firsts NonNull State Earley Debug.
From Verif.Spec Require Import Reach Cfg BuildSpec NullSpec DebugSpec Examples.
From Verif.Proofs Require Import OrdFacts LoopFacts GrammarFacts BuildMore PrettyFacts NullableMore DebugFacts.
Import ListNotations.
Local Open Scope string_scope.

(** C92. Two values whose implementations are derived ones over words and whose texts agree, in either
    style, made the same calls. *)
Theorem C92_derived_texts c c' alt alt' : derived c -> derived c' -> fmt alt c = fmt alt' c' -> c = c'.
Proof. exact (derived_text_inj c c' alt alt'). Qed.

(** C92, for build errors, whose only observable is their text: the same text means the same error. *)
Theorem C92_error_text {A} {DA : Debug A} (e e' : GrammarErrors A) alt alt' :
  dbg_inj A -> (forall x : A, derived (dbg x)) -> debug_text alt e = debug_text alt' e' -> e = e'.
Proof.
  intros J D E. apply (errors_inj J). eapply derived_text_inj; [| |exact E];
    apply errors_derived; apply Forall_forall; intros x _; apply D.
Qed.

(** C92, for two failing builds: the same text means the same unreachable nonterminals, the same
    nonterminals without rules and the same rules without productions. *)
Theorem C92_build_error_text {T NT AK AV} {DN : Debug NT} `{OrdEq NT}
  start start' (calls calls' : list (gb_call T NT AK AV)) e e' alt alt' :
  dbg_inj NT -> (forall n : NT, derived (dbg n)) ->
  runs_to (build start calls) (Ret (Err e)) -> runs_to (build start' calls') (Ret (Err e')) ->
  debug_text alt e = debug_text alt' e' ->
  (forall B, err_unreachable calls start B <-> err_unreachable calls' start' B) /\
  (forall B, err_undefined calls B <-> err_undefined calls' B) /\
  (forall A, err_no_prods calls A <-> err_no_prods calls' A).
Proof.
  intros J D R R' E. apply C92_error_text in E; try assumption. subst e'.
  assert (X : forall s (cs : list (gb_call T NT AK AV)), runs_to (build s cs) (Ret (Err e)) ->
    (forall B, In B (unreachable_nonterms e) <-> err_unreachable cs s B) /\
    (forall B, In B (nonterms_without_rules e) <-> err_undefined cs B) /\
    (forall B, In B (rules_without_prods e) <-> err_no_prods cs B)).
  { clear -H0. intros s cs R. destruct (build_verdict s cs) as [(_ & m & P)|(_ & U & D & N & (_ & HU) & (_ & HD) & (_ & HN) & [(_ & _ & _ & g & G)|(_ & P)])].
    - pose proof (runs_to_fun _ _ _ R P). discriminate.
    - pose proof (runs_to_fun _ _ _ R G). discriminate.
    - pose proof (runs_to_fun _ _ _ R P) as Q. injection Q as ->. auto. }
  destruct (X _ _ R) as (X1 & X2 & X3), (X _ _ R') as (Y1 & Y2 & Y3).
  split; [|split]; intro B; [rewrite <- X1, <- Y1|rewrite <- X2, <- Y2|rewrite <- X3, <- Y3]; reflexivity.
Qed.

Section S.
  Context {T NT AK AV : Type} {DT : Debug T} {DN : Debug NT}.

  (** C92, for grammars: with words as names, the text is determined by the rules without their actions,
      and determines them. *)
  Theorem C92_grammar_text (g g' : Grammar T NT AK AV) alt :
    dbg_inj T -> dbg_inj NT -> word_grammar g -> word_grammar g' ->
    (debug_text alt g = debug_text alt g' <-> rule_shapes g = rule_shapes g').
  Proof.
    intros JT JN W W'. split; [apply grammar_text_inj; assumption|apply grammar_text_of_shapes].
  Qed.
  Theorem C92_grammar_text_styles (g g' : Grammar T NT AK AV) alt alt' :
    dbg_inj T -> dbg_inj NT -> word_grammar g -> word_grammar g' ->
    debug_text alt g = debug_text alt' g' -> rule_shapes g = rule_shapes g'.
  Proof. exact (grammar_text_inj g g' alt alt'). Qed.

  (** C92, for productions and production states: the text shows head, body and position.  (Two states that
      the code treats as equal, see C50, have different texts if their positions differ.) *)
  Theorem C92_prod_text (p p' : Prod T NT AK AV) alt alt' :
    dbg_inj T -> dbg_inj NT -> word_prod p -> word_prod p' -> debug_text alt p = debug_text alt' p' ->
    p_head p = p_head p' /\ prod_elements p = prod_elements p'.
  Proof. exact (prod_text_inj p p' alt alt'). Qed.
  Theorem C92_prod_state_text (s s' : ProdState T NT AK AV) alt alt' :
    dbg_inj T -> dbg_inj NT -> word_prod (ps_prod s) -> word_prod (ps_prod s') -> debug_text alt s = debug_text alt' s' ->
    p_head (ps_prod s) = p_head (ps_prod s') /\ prod_elements (ps_prod s) = prod_elements (ps_prod s') /\ ps_index s = ps_index s'.
  Proof. exact (ps_text_inj s s' alt alt'). Qed.
  Theorem C92_earley_state_text (s s' : @EarleyState T NT AK AV) alt alt' :
    dbg_inj T -> dbg_inj NT -> word_prod (ps_prod (ek_prod_state (es_key s))) -> word_prod (ps_prod (ek_prod_state (es_key s'))) ->
    debug_text alt s = debug_text alt' s' ->
    let q := ek_prod_state (es_key s) in let q' := ek_prod_state (es_key s') in
    p_head (ps_prod q) = p_head (ps_prod q') /\ prod_elements (ps_prod q) = prod_elements (ps_prod q') /\ ps_index q = ps_index q' /\
    ek_origin (es_key s) = ek_origin (es_key s') /\ List.length (es_value s) = List.length (es_value s').
  Proof. exact (estate_text_inj s s' alt alt'). Qed.

  (** C92, for action trees and for the action keys and values of a transformed grammar, whose only
      observable is their text. *)
  Theorem C92_tree_text {L V} {DL : Debug L} {DV : Debug V} (t t' : TreeNode L V) alt alt' :
    dbg_inj L -> dbg_inj V -> word_tree t -> word_tree t' -> debug_text alt t = debug_text alt' t' -> t = t'.
  Proof. exact (tree_text_inj t t' alt alt'). Qed.
  Theorem C92_key_text {A} {DA : Debug A} (k k' : NNActionKey A) alt alt' :
    dbg_inj A -> derived (dbg (nk_action k)) -> derived (dbg (nk_action k')) -> debug_text alt k = debug_text alt' k' -> k = k'.
  Proof. intros J D D' E. apply (key_inj J). eapply derived_text_inj; [apply key_derived, D|apply key_derived, D'|exact E]. Qed.
  Theorem C92_value_text {DK : Debug AK} {DV : Debug AV} (v v' : NNActionValue NT AK AV) alt alt' :
    dbg_inj NT -> dbg_inj AK -> dbg_inj AV -> derived (dbg (nv_parent_value v)) -> derived (dbg (nv_parent_value v')) ->
    (forall n t, In (n, t) (nv_nullable_arguments v) -> is_word n /\ word_tree t) ->
    (forall n t, In (n, t) (nv_nullable_arguments v') -> is_word n /\ word_tree t) ->
    debug_text alt v = debug_text alt' v' -> v = v'.
  Proof. exact (nnvalue_text_inj v v' alt alt'). Qed.

  (** C92, for the trees the Nullable pass computes for a grammar with words as names. *)
  Theorem C92_nullable_tree_text {DK : Debug AK} `{OrdEq NT} (lay : layout NT) (g : Grammar T NT AK AV) info A B t u alt alt' :
    lay_inj g lay -> built g -> word_grammar g -> dbg_inj NT -> dbg_inj AK -> (forall C p, prod_of g C p -> derived (dbg (pi_action_key p))) ->
    runs_to (calculate_nullables lay g) (Ret (Ok info)) ->
    get_nullable_action info A = Some t -> get_nullable_action info B = Some u -> debug_text alt t = debug_text alt' u -> t = u.
  Proof.
    intros LI Bg W JN JK K R GA GB E. destruct (nullable_actions lay g LI Bg info R) as [N _]. apply N in GA, GB.
    refine (tree_text_inj t u alt alt' (prod_key_inj JN JK) void_inj (null_tree_words g A t Bg W K GA) (null_tree_words g B u Bg W K GB) E).
  Qed.
End S.

(** C92. The text of a grammar shows neither its start symbol nor its actions: two accepted grammars with
    different languages and different actions have the same text in both styles. *)
Definition dbg_ex (action : nat) : list (gb_call nat nat nat nat) :=
  [AddRule 0 [AddProd action action [AddTerm 5; AddNamedNonterm "x" 1]; AddProd 11 0 [AddTerm 6]]; AddRule 1 [AddProd 12 0 [AddTerm 7; AddNonterm 0]]].
Theorem C92_start_and_actions_not_shown : exists g g' : Grammar nat nat nat nat,
  built g /\ built g' /\ start_nt g <> start_nt g' /\ (exists t, lang (rhs_of g) (start_nt g) [t] /\ ~ lang (rhs_of g') (start_nt g') [t]) /\
  map action_key (prods g) <> map action_key (prods g') /\ (forall alt, debug_text alt g = debug_text alt g').
Proof.
  destruct (build 0 (dbg_ex 10) 10) as [[g|]| |] eqn:E; try (vm_compute in E; discriminate).
  destruct (build 1 (dbg_ex 13) 10) as [[g'|]| |] eqn:E'; try (vm_compute in E'; discriminate).
  exists g, g'. split; [exists 0, (dbg_ex 10); apply (build_vm _ _ 10); [exact E|discriminate]|].
  split; [exists 1, (dbg_ex 13); apply (build_vm _ _ 10); [exact E'|discriminate]|].
  vm_compute in E, E'. injection E as <-. injection E' as <-.
  split; [discriminate|]. split; [|split; [discriminate|intros []; vm_compute; reflexivity]].
  exists 6. split.
  - replace [6] with ([6] ++ [])%list by reflexivity. eapply gen_nonterm with (rhs := [Term 6]); [|repeat constructor|constructor].
    eexists. split; [eexists; split; [now left|right; left; reflexivity]|reflexivity].
  - intro L. inversion L as [| |A rhs es u w (p & (r & Ir & Ip) & ->) G1 G2]; subst. inversion G2; subst. rewrite app_nil_r in *. subst u.
    destruct Ir as [Ir|[Ir|[]]]; [discriminate Ir|]. injection Ir as <-. destruct Ip as [<-|[]]. inversion G1.
Qed.

(** C92. Without the condition on names texts can be confused: a production of one terminal whose name
    contains punctuation has the text of a production of two terminals. *)
Theorem C92_names_confused : exists g g' : Grammar name name nat nat,
  built g /\ built g' /\ rule_shapes g <> rule_shapes g' /\
  @debug_text _ (@Debug_grammar _ _ _ _ dbg_terminal dbg_nonterminal) false g =
  @debug_text _ (@Debug_grammar _ _ _ _ dbg_terminal dbg_nonterminal) false g'.
Proof.
  destruct (build "S" [AddRule "S" [AddProd 0 0 [AddTerm "a), Terminal(b"]]] 10) as [[g|]| |] eqn:E; try (vm_compute in E; discriminate).
  destruct (build "S" [AddRule "S" [AddProd 0 0 [AddTerm "a"; AddTerm "b"]]] 10) as [[g'|]| |] eqn:E'; try (vm_compute in E'; discriminate).
  exists g, g'. split; [eexists _, _; apply (build_vm_name _ _ 10); [exact E|discriminate]|].
  split; [eexists _, _; apply (build_vm_name _ _ 10); [exact E'|discriminate]|].
  vm_compute in E, E'. injection E as <-. injection E' as <-.
  split; [discriminate|]. vm_compute; reflexivity.
Qed.

Print Assumptions C92_derived_texts.
Print Assumptions C92_error_text.
Print Assumptions C92_build_error_text.
Print Assumptions C92_grammar_text.
Print Assumptions C92_grammar_text_styles.
Print Assumptions C92_prod_text.
Print Assumptions C92_prod_state_text.
Print Assumptions C92_earley_state_text.
Print Assumptions C92_tree_text.
Print Assumptions C92_key_text.
Print Assumptions C92_value_text.
Print Assumptions C92_nullable_tree_text.
Print Assumptions C92_start_and_actions_not_shown.
Print Assumptions C92_names_confused.

(** The hypotheses are met: numbers have derived implementations, different for different numbers, and so
    have terminals whose name is a word; a grammar with nested nullable nonterminals has words as names. *)
Example C92_nat_hyps : dbg_inj nat /\ forall n : nat, derived (dbg n).
Proof. exact (conj nat_inj nat_derived). Qed.
Example C92_terminal_hyps : (forall a b, dbg_terminal a = dbg_terminal b -> a = b) /\ derived (dbg_terminal "ident").
Proof.
  split; [intros a b E; injection E as E; exact E|]. constructor; [|discriminate|repeat constructor; discriminate]. split; [discriminate|reflexivity].
Qed.
Example C92_word_grammar : word_grammar ex_null_g /\ built ex_null_g.
Proof.
  split; [|exact built_null]. intros r Ir. cbn in Ir. split; [apply nat_derived|]. intros p Ip. apply Forall_forall. intros e Ie.
  destruct Ir as [<-|[<-|[<-|[]]]]; repeat (destruct Ip as [<-|Ip]); try contradiction; repeat (destruct Ie as [<-|Ie]); try contradiction;
    (split; [intros n E; (discriminate E || (injection E as <-; split; [discriminate|reflexivity]))|apply nat_derived]).
Qed.

(** Concrete texts. *)
Example C92_text_compact : debug_text false ex_unreach_g =
  "Grammar { Terms: [7, 7], NonTerms: [], Rules: [Rule { head: 0, prods: [Prod { head: 0, elems: [7] }] }, Rule { head: 1, prods: [Prod { head: 1, elems: [7] }] }] }".
Proof. vm_compute. reflexivity. Qed.
Example C92_text_elem : @debug_text _ (@Debug_prod_element _ _ dbg_terminal dbg_nonterminal) true (Build_ProdElement (Some "x") (NonTerm "E")) = "x:<NonTerminal(E)>".
Proof. vm_compute. reflexivity. Qed.
Example C92_text_pretty : debug_text true (Build_ProdState (Build_Prod 1 0 (Build_ProdInner 3 4 [Build_ProdElement (Some "c") (NonTerm 2); Build_ProdElement None (Term 9)])) 1) =
"ProdState {
    prod: Prod {
        head: 1,
        elems: [
            c:<2>,
            9,
        ],
    },
    index: 1,
}".
Proof. vm_compute. reflexivity. Qed.
Example C92_text_error : exists e, runs_to (build 0 [AddRule 0 [AddProd 1 1 [AddTerm 7]]; AddRule 1 [AddProd 1 1 [AddNonterm 2]]; AddRule 3 (@nil (rb_call nat nat nat nat))]) (Ret (Err e)) /\
  debug_text false e = "GrammarErrors { unreachable_nonterms: {2}, nonterms_without_rules: {2}, rules_without_prods: {3} }".
Proof. eexists. split; [apply (build_vm _ _ 10); [vm_compute; reflexivity|discriminate]|vm_compute; reflexivity]. Qed.
Example C92_text_tree : debug_text false (TNode (L := ProdKey nat nat) (V := Void) (Build_ProdKey 2 13) [("c", TVNode (TNode (Build_ProdKey 1 12) []))]) =
  "TreeNode { action_name: ProdKey { head: 2, action_key: 13 }, params: {c: Node(TreeNode { action_name: ProdKey { head: 1, action_key: 12 }, params: {} })} }".
Proof. vm_compute. reflexivity. Qed.
