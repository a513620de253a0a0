(** The repository's grammars: what they build, their languages, and what the parser does on them. *)
From Coq Require Import String List Arith NArith Lia Bool.
From Verif.Model Require Import Ord BTree Outcome Utils Grammar StartGrammar Tokens Tree State Earley ExampleGrammars.
From Verif.Spec Require Import Reach Cfg BuildSpec NullSpec TreeSpec EarleySpec ExampleSpec.
From Verif.Proofs Require Import OrdFacts BTreeFacts LoopFacts GrammarFacts StartFacts BuildMore CfgFacts EarleyMore.
Import ListNotations.

(** ** Generalities *)
Section Gen.
  Context {T NT : Type} (P : NT -> list (Elem T NT) -> Prop).
  Lemma gen_nil_inv u : gen P [] u -> u = [].
  Proof. inversion 1. reflexivity. Qed.
  Lemma gen_term_inv t es u : gen P (Term t :: es) u -> exists v, u = t :: v /\ gen P es v.
  Proof. inversion 1; subst. eauto. Qed.
  Lemma gen_nt_inv A es u : gen P (NonTerm A :: es) u -> exists x y, u = x ++ y /\ lang P A x /\ gen P es y.
  Proof.
    inversion 1 as [| |A' rhs es' x y Pr G1 G2]; subst. exists x, y. split; [reflexivity|]. split; [|exact G2].
    unfold lang. rewrite <- (app_nil_r x). econstructor; [exact Pr | exact G1 | constructor].
  Qed.
  Lemma lang_inv A u : lang P A u -> exists rhs, P A rhs /\ gen P rhs u.
  Proof.
    inversion 1 as [| |A' rhs es' x y Pr G1 G2]; subst. inversion G2; subst. rewrite app_nil_r. eauto.
  Qed.
  Lemma lang_intro A rhs u : P A rhs -> gen P rhs u -> lang P A u.
  Proof. intros Pr G. unfold lang. rewrite <- (app_nil_r u). econstructor; [exact Pr | exact G | constructor]. Qed.
  Lemma gen_nt A es x y : lang P A x -> gen P es y -> gen P (NonTerm A :: es) (x ++ y).
  Proof. intros L G. destruct (lang_inv _ _ L) as (rhs & Pr & G1). econstructor; eassumption. Qed.

  Lemma form_reach S es : derives_form P [NonTerm S] es -> forall A, In (NonTerm A) es ->
    star (fun X Y => exists rhs, P X rhs /\ In (NonTerm Y) rhs) S A.
  Proof.
    induction 1 as [|es es' D IH St]; intros A I.
    - destruct I as [[= <-]|[]]. constructor.
    - destruct St as [pre B rhs post Pr]. apply in_app_or in I as [I|I].
      + apply IH, in_or_app. auto.
      + apply in_app_or in I as [I|I].
        * eapply star_step; [apply (IH B), in_or_app; right; left; reflexivity|]. exists rhs. auto.
        * apply IH, in_or_app. right. right. exact I.
  Qed.
  Lemma form_word es : (forall A, In (NonTerm A) es -> exists u, lang P A u) -> exists u, gen P es u.
  Proof.
    induction es as [|[t|A] es IH]; intro H.
    - exists []. constructor.
    - destruct IH as [u G]; [intros A I; apply H; right; exact I|]. exists (t :: u). constructor. exact G.
    - destruct IH as [u G]; [intros B I; apply H; right; exact I|]. destruct (H A) as [x L]; [left; reflexivity|].
      exists (x ++ u). apply gen_nt; assumption.
  Qed.
  Lemma viable_word S u : productive P S -> viable P S u -> exists v, lang P S (u ++ v).
  Proof.
    intros Pd (rest & D). destruct (form_word rest) as [v G].
    - intros A I. apply Pd. apply (form_reach S _ D). apply in_or_app. auto.
    - exists v. unfold lang. apply (derives_gen P _ _ _ D). clear - G. induction u as [|t u IH]; [exact G|].
      simpl. constructor. exact IH.
  Qed.
End Gen.

(** The productions of a grammar as a list. *)
Definition prod_list {T NT AK AV} (g : Grammar T NT AK AV) : list (NT * AK * list (Elem T NT)) :=
  flat_map (fun ar => map (fun p => (fst ar, pi_action_key p, map pe_elem (pi_elements p))) (r_prods (snd ar))) (rule_set g).
Lemma prod_list_rhs {T NT AK AV} (g : Grammar T NT AK AV) A rhs :
  rhs_of g A rhs <-> exists k, In (A, k, rhs) (prod_list g).
Proof.
  unfold prod_list. split.
  - intros (p & (r & I & J) & ->). exists (pi_action_key p). apply in_flat_map. exists (A, r). split; [exact I|].
    apply in_map_iff. exists p. auto.
  - intros (k & I). apply in_flat_map in I as ([A' r] & I & J). apply in_map_iff in J as (p & [= <- <- <-] & J).
    exists p. split; [exists r; auto | reflexivity].
Qed.
Lemma prod_list_prod {T NT AK AV} (g : Grammar T NT AK AV) A p :
  prod_of g A p -> In (A, pi_action_key p, map pe_elem (pi_elements p)) (prod_list g).
Proof.
  intros (r & I & J). apply in_flat_map. exists (A, r). split; [exact I|]. apply in_map_iff. exists p. auto.
Qed.
Lemma prod_list_inv {T NT AK AV} (g : Grammar T NT AK AV) A k rhs : In (A, k, rhs) (prod_list g) ->
  exists p, prod_of g A p /\ pi_action_key p = k /\ map pe_elem (pi_elements p) = rhs.
Proof.
  intro I. apply in_flat_map in I as ([A' r] & I & J). apply in_map_iff in J as (p & [= <- <- <-] & J).
  exists p. split; [exists r; auto | auto].
Qed.

Lemma build_unwrap_mono start calls : fuel_mono (build_unwrap start calls).
Proof.
  intros n m L N. unfold build_unwrap in *.
  assert (build start calls n <> NoFuel) as B by (intro B; rewrite B in N; exact (N eq_refl)).
  rewrite (build_mono start calls n m L B). reflexivity.
Qed.
Lemma build_unwrap_built start calls g : runs_to (build_unwrap start calls) (Ret g) -> built g.
Proof.
  intros (_ & n & R). exists start, calls. specialize (R n (le_n n)). unfold build_unwrap in R.
  destruct (build start calls n) as [[g'|e]|m|] eqn:B; simpl in R; try discriminate. injection R as ->.
  apply (runs_to_mono _ n); [apply build_mono | exact B | discriminate].
Qed.

Definition out {A} (d : A) (o : outcome A) : A := match o with Ret a => a | _ => d end.
Definition g_none : RGrammar := Build_Grammar EmptyString [].
Definition g_simple := Eval vm_compute in out g_none (make_simple 20).
Definition g_simple_nullable := Eval vm_compute in out g_none (make_simple_nullable 20).
Definition g_paren := Eval vm_compute in out g_none (make_paren 20).
Definition g_ambiguous_nullable := Eval vm_compute in out g_none (make_ambiguous_nullable 20).
Definition g_base := Eval vm_compute in out g_none (base_grammar 20).
Definition g_arith := Eval vm_compute in out g_none (create_arithmetic_grammar 20).
Definition g_nest := Eval vm_compute in out g_none (simple_earley_grammar 20).
Definition g_amb := Eval vm_compute in out g_none (ambiguous_earley_grammar 20).

Ltac made := apply (runs_to_mono _ 20); [apply build_unwrap_mono | vm_compute; reflexivity | discriminate].
Lemma made_simple : runs_to make_simple (Ret g_simple). Proof. made. Qed.
Lemma made_simple_nullable : runs_to make_simple_nullable (Ret g_simple_nullable). Proof. made. Qed.
Lemma made_paren : runs_to make_paren (Ret g_paren). Proof. made. Qed.
Lemma made_ambiguous_nullable : runs_to make_ambiguous_nullable (Ret g_ambiguous_nullable). Proof. made. Qed.
Lemma made_base : runs_to base_grammar (Ret g_base). Proof. made. Qed.
Lemma made_arith : runs_to create_arithmetic_grammar (Ret g_arith). Proof. made. Qed.
Lemma made_nest : runs_to simple_earley_grammar (Ret g_nest). Proof. made. Qed.
Lemma made_amb : runs_to ambiguous_earley_grammar (Ret g_amb). Proof. made. Qed.
Lemma made_eq {A} (f : nat -> outcome A) a b : runs_to f (Ret a) -> runs_to f (Ret b) -> b = a.
Proof. intros R1 R2. pose proof (runs_to_fun _ _ _ R1 R2) as E. injection E as ->. reflexivity. Qed.

Local Open Scope string_scope.

(** Which production [H : rhs_of g A rhs] is. *)
Ltac prods H :=
  apply prod_list_rhs in H; destruct H as [? H]; vm_compute in H;
  repeat (destruct H as [H|H]; [inversion H; clear H; subst|]); [..|destruct H].
Ltac is_prod := apply prod_list_rhs; eexists; vm_compute; repeat (left; reflexivity) || (repeat (first [left; reflexivity | right])).
Ltac inv_gen := repeat match goal with
  | G : gen _ [] _ |- _ => apply gen_nil_inv in G; subst
  | G : gen _ (Term _ :: _) _ |- _ => apply gen_term_inv in G; destruct G as (? & -> & G)
  | G : gen _ (NonTerm _ :: _) _ |- _ => apply gen_nt_inv in G; destruct G as (? & ? & -> & ? & G)
  end.

(** *** make_simple *)
Lemma simple_a u : lang (rhs_of g_simple) "a" u <-> u = ["A"].
Proof.
  split.
  - intro L. apply lang_inv in L as (rhs & Pr & G). prods Pr. inv_gen. reflexivity.
  - intros ->. apply (lang_intro _ _ [Term "A"]); [is_prod | repeat constructor].
Qed.
Lemma simple_b u : lang (rhs_of g_simple) "b" u <-> u = ["B"].
Proof.
  split.
  - intro L. apply lang_inv in L as (rhs & Pr & G). prods Pr. inv_gen. reflexivity.
  - intros ->. apply (lang_intro _ _ [Term "B"]); [is_prod | repeat constructor].
Qed.
Lemma simple_lang u : lang (rhs_of g_simple) "start" u <-> u = ["A"] \/ u = ["B"].
Proof.
  split.
  - intro L. apply lang_inv in L as (rhs & Pr & G). prods Pr; inv_gen; [left | right];
      rewrite app_nil_r; [apply simple_a | apply simple_b]; assumption.
  - intros [-> | ->].
    + apply (lang_intro _ _ [NonTerm "a"]); [is_prod|]. apply (gen_nt _ _ _ ["A"] []); [apply simple_a; reflexivity | constructor].
    + apply (lang_intro _ _ [NonTerm "b"]); [is_prod|]. apply (gen_nt _ _ _ ["B"] []); [apply simple_b; reflexivity | constructor].
Qed.
Lemma simple_nts A u : lang (rhs_of g_simple) A u -> A = "start" \/ A = "a" \/ A = "b".
Proof. intro L. apply lang_inv in L as (rhs & Pr & G). prods Pr; auto. Qed.
Lemma simple_pf : prefix_free (rhs_of g_simple).
Proof.
  intros A u v L. destruct (simple_nts _ _ L) as [-> |[-> | ->]].
  - apply simple_lang in L as [-> | ->]; (split; [discriminate|]); intro L'; apply simple_lang in L' as [E|E]; inversion E; reflexivity.
  - apply simple_a in L as ->. split; [discriminate|]. intro L'. apply simple_a in L'. inversion L'. reflexivity.
  - apply simple_b in L as ->. split; [discriminate|]. intro L'. apply simple_b in L'. inversion L'. reflexivity.
Qed.
Lemma reach_in {T NT} (P : NT -> list (Elem T NT) -> Prop) S (X : NT -> Prop) :
  X S -> (forall A B rhs, P A rhs -> In (NonTerm B) rhs -> X B) ->
  forall A, star (fun A B => exists rhs, P A rhs /\ In (NonTerm B) rhs) S A -> X A.
Proof. intros H0 H1 A St. induction St as [|B C St IH (rhs & Pr & I)]; eauto. Qed.
Ltac in_cases := repeat match goal with H : In _ (_ :: _) |- _ => destruct H as [H|H]; [inversion H; clear H; subst|]
  | H : In _ [] |- _ => destruct H end.
Lemma simple_productive : productive (rhs_of g_simple) "start".
Proof.
  intros A R. assert (A = "start" \/ A = "a" \/ A = "b") as C.
  { revert A R. apply reach_in; [auto|]. intros A B rhs Pr I. prods Pr; in_cases; auto. }
  destruct C as [-> |[-> | ->]]; [exists ["A"]; apply simple_lang | exists ["A"]; apply simple_a | exists ["B"]; apply simple_b]; auto.
Qed.

(** *** make_simple_nullable, make_ambiguous_nullable *)
Lemma sn_lang u : lang (rhs_of g_simple_nullable) "start" u <-> u = [].
Proof.
  assert (forall u, lang (rhs_of g_simple_nullable) "a" u <-> u = []) as La.
  { intro v. split; [intro L; apply lang_inv in L as (rhs & Pr & G); prods Pr; inv_gen; reflexivity|].
    intros ->. apply (lang_intro _ _ []); [is_prod | constructor]. }
  assert (forall u, lang (rhs_of g_simple_nullable) "b" u <-> u = []) as Lb.
  { intro v. split; [intro L; apply lang_inv in L as (rhs & Pr & G); prods Pr; inv_gen; reflexivity|].
    intros ->. apply (lang_intro _ _ []); [is_prod | constructor]. }
  assert (forall u, lang (rhs_of g_simple_nullable) "c" u <-> u = []) as Lc.
  { intro v. split.
    - intro L. apply lang_inv in L as (rhs & Pr & G). prods Pr. inv_gen.
      apply La in H. apply Lb in H0. subst. reflexivity.
    - intros ->. apply (lang_intro _ _ [NonTerm "a"; NonTerm "b"]); [is_prod|].
      apply (gen_nt _ _ _ [] []); [apply La; reflexivity|]. apply (gen_nt _ _ _ [] []); [apply Lb; reflexivity | constructor]. }
  split.
  - intro L. apply lang_inv in L as (rhs & Pr & G). prods Pr. inv_gen. apply Lc in H. subst. reflexivity.
  - intros ->. apply (lang_intro _ _ [NonTerm "c"]); [is_prod|]. apply (gen_nt _ _ _ [] []); [apply Lc; reflexivity | constructor].
Qed.
Lemma an_lang u : lang (rhs_of g_ambiguous_nullable) "start" u <-> u = [].
Proof.
  assert (forall u, lang (rhs_of g_ambiguous_nullable) "a" u <-> u = []) as La.
  { intro v. split; [intro L; apply lang_inv in L as (rhs & Pr & G); prods Pr; inv_gen; reflexivity|].
    intros ->. apply (lang_intro _ _ []); [is_prod | constructor]. }
  assert (forall u, lang (rhs_of g_ambiguous_nullable) "b" u <-> u = []) as Lb.
  { intro v. split; [intro L; apply lang_inv in L as (rhs & Pr & G); prods Pr; inv_gen; reflexivity|].
    intros ->. apply (lang_intro _ _ []); [is_prod | constructor]. }
  assert (forall u, lang (rhs_of g_ambiguous_nullable) "c" u <-> u = []) as Lc.
  { intro v. split.
    - intro L. apply lang_inv in L as (rhs & Pr & G). prods Pr; inv_gen.
      + apply La in H. subst. reflexivity.
      + apply Lb in H. subst. reflexivity.
    - intros ->. apply (lang_intro _ _ [NonTerm "a"]); [is_prod|].
      apply (gen_nt _ _ _ [] []); [apply La; reflexivity | constructor]. }
  split.
  - intro L. apply lang_inv in L as (rhs & Pr & G). prods Pr. inv_gen. apply Lc in H. subst. reflexivity.
  - intros ->. apply (lang_intro _ _ [NonTerm "c"]); [is_prod|]. apply (gen_nt _ _ _ [] []); [apply Lc; reflexivity | constructor].
Qed.

(** *** base_grammar *)
Lemma base_lang u : lang (rhs_of g_base) "x" u <-> exists n, u = repeat "A" (n + n).
Proof.
  split.
  - remember (length u) as n eqn:E. revert u E. induction n as [n IH] using lt_wf_ind. intros u -> L.
    apply lang_inv in L as (rhs & Pr & G). prods Pr; inv_gen.
    + destruct (IH (length x0)) with (u := x0) as [m ->]; auto; [simpl; rewrite app_length; simpl; lia|].
      exists (S m). replace (S m + S m) with (S (m + m + 1)) by lia. simpl. rewrite (repeat_app "A" (m + m) 1). reflexivity.
    + exists 0. reflexivity.
  - intros [n ->]. induction n as [|n IH].
    + apply (lang_intro _ _ []); [is_prod | constructor].
    + replace (S n + S n) with (S (n + n + 1)) by lia. simpl. rewrite (repeat_app "A" (n + n) 1).
      apply (lang_intro _ _ [Term "A"; NonTerm "x"; Term "A"]); [is_prod|]. constructor.
      apply gen_nt; [exact IH | repeat constructor].
Qed.

(** *** examples/ambiguous_earley.rs *)
Lemma amb_lang u : lang (rhs_of g_amb) "A" u <-> u = [].
Proof.
  split.
  - assert (forall es u, gen (rhs_of g_amb) es u -> (forall e, In e es -> e = NonTerm "A") -> u = []) as K.
    { clear. intros es u G. induction G as [|t es w G IH|A rhs es u w Pr G1 IH1 G2 IH2]; intro H.
      - reflexivity.
      - discriminate (H (Term t) (or_introl eq_refl)).
      - rewrite IH1, IH2; [reflexivity | intros e I; apply H; right; exact I|].
        prods Pr; intros e I; in_cases; reflexivity. }
    intro L. apply (K _ _ L). intros e [<-|[]]. reflexivity.
  - intros ->. apply (lang_intro _ _ []); [is_prod | constructor].
Qed.

(** *** Nested words *)
Lemma nest_S op mid cl n : nest op mid cl (S n) = op :: (nest op mid cl n ++ [cl])%list.
Proof.
  unfold nest. simpl. f_equal. rewrite <- app_assoc. simpl. f_equal. f_equal.
  change (cl :: repeat cl n) with (repeat cl (S n)). replace (S n) with (n + 1) by lia. rewrite repeat_app. reflexivity.
Qed.
Lemma nest_prefix op mid cl n m v : op <> mid -> (nest op mid cl n ++ v)%list = nest op mid cl m -> n = m /\ v = [].
Proof.
  intro N. unfold nest. rewrite <- app_assoc. simpl. intro E.
  assert (n = m) as <-.
  { apply (f_equal (fun l => l)) in E. revert m E. 
    assert (forall n m x y, (repeat op n ++ mid :: x)%list = (repeat op m ++ mid :: y)%list -> n = m) as K.
    { clear - N. induction n as [|n IH]; intros [|m] x y E; simpl in E; try reflexivity.
      - injection E as E _. congruence.
      - injection E as E _. congruence.
      - injection E as E. f_equal. exact (IH _ _ _ E). }
    intros m E. exact (K _ _ _ _ E). }
  split; [reflexivity|]. apply app_inv_head in E. injection E as E. rewrite <- (app_nil_r (repeat cl n)) in E at 2.
  apply app_inv_head in E. exact E.
Qed.
Lemma nest_tree_yield {V} op mid cl b s (w : list (Token name V)) t :
  nest_tree op mid cl b s w t -> exists n, map tk_kind w = nest op mid cl n.
Proof.
  induction 1 as [v|x y w t H [n IH]].
  - exists 0. reflexivity.
  - exists (S n). rewrite nest_S. simpl. rewrite map_app, IH. reflexivity.
Qed.
Lemma nest_tree_ex {V} op mid cl b s n : forall w : list (Token name V), map tk_kind w = nest op mid cl n ->
  exists t, nest_tree op mid cl b s w t.
Proof.
  induction n as [|n IH]; intros w E.
  - destruct w as [|[k v] [|y w]]; try discriminate. simpl in E. injection E as ->. eexists. constructor.
  - rewrite nest_S in E. destruct w as [|[k v] w]; [discriminate|]. simpl in E. injection E as -> E.
    destruct (exists_last (l := w)) as (w' & [k' v'] & ->); [intros ->; destruct (nest op mid cl n); discriminate|].
    rewrite map_app in E. simpl in E. apply app_inj_tail in E as [E ->]. destruct (IH _ E) as [t H].
    eexists. constructor. exact H.
Qed.
Lemma nest_tree_fun {V} op mid cl b s (w : list (Token name V)) t t' : op <> mid ->
  nest_tree op mid cl b s w t -> nest_tree op mid cl b s w t' -> t = t'.
Proof.
  intros N H. revert t'. induction H as [v|x y w t H IH]; intros t' H'; inversion H'; subst.
  - reflexivity.
  - destruct N. reflexivity.
  - destruct N. reflexivity.
  - match goal with E : (_ ++ _)%list = _ |- _ => apply app_inj_tail in E as [-> E]; injection E as -> end.
    rewrite (IH _ ltac:(eassumption)). reflexivity.
Qed.

(** *** examples/simple_earley.rs *)
Lemma nest_lang u : lang (rhs_of g_nest) "a" u <-> exists n, u = nest "LPAREN" "VALUE" "RPAREN" n.
Proof.
  split.
  - remember (length u) as n eqn:E. revert u E. induction n as [n IH] using lt_wf_ind. intros u -> L.
    apply lang_inv in L as (rhs & Pr & G). prods Pr; inv_gen.
    + exists 0. reflexivity.
    + destruct (IH (length x0)) with (u := x0) as [m ->]; auto; [simpl; rewrite app_length; simpl; lia|].
      exists (S m). rewrite nest_S. reflexivity.
  - intros [n ->]. induction n as [|n IH].
    + apply (lang_intro _ _ [Term "VALUE"]); [is_prod | repeat constructor].
    + rewrite nest_S. apply (lang_intro _ _ [Term "LPAREN"; NonTerm "a"; Term "RPAREN"]); [is_prod|]. constructor.
      apply gen_nt; [exact IH | repeat constructor].
Qed.
Lemma nest_pf : prefix_free (rhs_of g_nest).
Proof.
  intros A u v L. assert (A = "a") as -> by (apply lang_inv in L as (rhs & Pr & G); prods Pr; reflexivity).
  apply nest_lang in L as [n ->]. split.
  - unfold nest. destruct n; discriminate.
  - intro L. apply nest_lang in L as [m E]. eapply nest_prefix; [|exact E]. discriminate.
Qed.
Lemma nest_productive : productive (rhs_of g_nest) "a".
Proof.
  intros A R. assert (A = "a") as ->.
  { revert A R. apply (reach_in _ _ (fun A => A = "a")); [reflexivity|]. intros A B rhs Pr I. prods Pr; in_cases; auto. }
  exists (nest "LPAREN" "VALUE" "RPAREN" 0). apply nest_lang. eauto.
Qed.

(** Which production [H : prod_of g A p] is, in the goal about its key and body. *)
Ltac dprods H := apply prod_list_prod in H; vm_compute in H;
  match type of H with context [(_, ?k, ?b)] => idtac end.
Lemma dtree_inv {T NT AK AV V} (g : Grammar T NT AK AV) A (ts : list (Token T V)) t : dtree g (NonTerm A) ts t ->
  exists k rhs cs, In (A, k, rhs) (prod_list g) /\ dtrees g rhs ts cs /\ t = PBranch k cs.
Proof. inversion 1; subst. exists (pi_action_key p), (map pe_elem (pi_elements p)), cs. auto using prod_list_prod. Qed.
Lemma dtree_intro {T NT AK AV V} (g : Grammar T NT AK AV) A k rhs (ts : list (Token T V)) cs :
  In (A, k, rhs) (prod_list g) -> dtrees g rhs ts cs -> dtree g (NonTerm A) ts (PBranch k cs).
Proof. intros I D. destruct (prod_list_inv _ _ _ _ I) as (p & Pr & <- & <-). constructor; assumption. Qed.
Lemma dtrees_term_inv {T NT AK AV V} (g : Grammar T NT AK AV) k es (ts : list (Token T V)) cs :
  dtrees g (Term k :: es) ts cs -> exists v us cs', ts = Build_Token k v :: us /\ cs = PLeaf k v :: cs' /\ dtrees g es us cs'.
Proof. inversion 1; subst. match goal with D : dtree _ (Term _) _ _ |- _ => inversion D; subst end. simpl. eauto 6. Qed.
Lemma dtrees_nt_inv {T NT AK AV V} (g : Grammar T NT AK AV) A es (ts : list (Token T V)) cs :
  dtrees g (NonTerm A :: es) ts cs -> exists x us c cs', ts = (x ++ us)%list /\ cs = c :: cs' /\ dtree g (NonTerm A) x c /\ dtrees g es us cs'.
Proof. inversion 1; subst. eauto 8. Qed.
Lemma dtrees_nil_inv {T NT AK AV V} (g : Grammar T NT AK AV) (ts : list (Token T V)) cs :
  dtrees g [] ts cs -> ts = [] /\ cs = [].
Proof. inversion 1; auto. Qed.
Lemma dtrees_term {T NT AK AV V} (g : Grammar T NT AK AV) k v es (us : list (Token T V)) cs :
  dtrees g es us cs -> dtrees g (Term k :: es) (Build_Token k v :: us) (PLeaf k v :: cs).
Proof. intro D. apply (dtrees_cons _ _ _ [Build_Token k v]); [constructor | exact D]. Qed.
Ltac inv_d := repeat match goal with
  | D : dtrees _ [] _ _ |- _ => apply dtrees_nil_inv in D; destruct D as [-> ->]
  | D : dtrees _ (Term _ :: _) _ _ |- _ => apply dtrees_term_inv in D; destruct D as (? & ? & ? & -> & -> & D)
  | D : dtrees _ (NonTerm _ :: _) _ _ |- _ => apply dtrees_nt_inv in D; destruct D as (? & ? & ? & ? & -> & -> & ? & D)
  end.
Ltac tprods H := vm_compute in H; repeat (destruct H as [H|H]; [inversion H; clear H; subst|]); [..|destruct H].
Ltac is_tprod := vm_compute; repeat (first [left; reflexivity | right]).

Lemma nest_dtree {V} (w : list (Token name V)) t : dtree g_nest (NonTerm "a") w t <->
  nest_tree "LPAREN" "VALUE" "RPAREN" "value" "parens" w t.
Proof.
  split.
  - remember (length w) as n eqn:E. revert w t E. induction n as [n IH] using lt_wf_ind. intros w t -> D.
    apply dtree_inv in D as (k & rhs & cs & I & D & ->). tprods I; inv_d.
    + constructor.
    + constructor. eapply IH; [|reflexivity|eassumption]. simpl. rewrite app_length. simpl. lia.
  - induction 1 as [v|a b w t H IH].
    + apply (dtree_intro _ _ _ [Term "VALUE"]); [is_tprod|]. apply dtrees_term. constructor.
    + apply (dtree_intro _ _ _ [Term "LPAREN"; NonTerm "a"; Term "RPAREN"]); [is_tprod|]. apply dtrees_term.
      constructor; [exact IH|]. apply dtrees_term. constructor.
Qed.

(** *** make_simple: trees *)
Lemma simple_dtree {V} (w : list (Token name V)) t : dtree g_simple (NonTerm "start") w t <->
  exists v, (w = [Build_Token "A" v] /\ t = PBranch "a_prod" [PBranch "a_term_prod" [PLeaf "A" v]]) \/
            (w = [Build_Token "B" v] /\ t = PBranch "b_prod" [PBranch "b_term_prod" [PLeaf "B" v]]).
Proof.
  split.
  - intro D. apply dtree_inv in D as (k & rhs & cs & I & D & ->). tprods I; inv_d.
    + apply dtree_inv in H as (k & rhs & cs & I & D & ->). tprods I; inv_d. eexists. left. split; reflexivity.
    + apply dtree_inv in H as (k & rhs & cs & I & D & ->). tprods I; inv_d. eexists. right. split; reflexivity.
  - intros (v & [(-> & ->)|(-> & ->)]).
    + apply (dtree_intro _ _ _ [NonTerm "a"]); [is_tprod|]. apply (dtrees_cons _ _ _ [Build_Token "A" v] []); [|constructor].
      apply (dtree_intro _ _ _ [Term "A"]); [is_tprod|]. apply dtrees_term. constructor.
    + apply (dtree_intro _ _ _ [NonTerm "b"]); [is_tprod|]. apply (dtrees_cons _ _ _ [Build_Token "B" v] []); [|constructor].
      apply (dtree_intro _ _ _ [Term "B"]); [is_tprod|]. apply dtrees_term. constructor.
Qed.

(** *** The nullable grammars: trees *)
Lemma sn_dtree {V} (w : list (Token name V)) t : dtree g_simple_nullable (NonTerm "start") w t <->
  w = [] /\ t = PBranch "start" [PBranch "c_value" [PBranch "a_value" []; PBranch "b_value" []]].
Proof.
  split.
  - intro D. apply dtree_inv in D as (k & rhs & cs & I & D & ->). tprods I; inv_d.
    apply dtree_inv in H as (k & rhs & cs & I & D & ->). tprods I; inv_d.
    apply dtree_inv in H as (k & rhs & cs & I & D & ->). tprods I; inv_d.
    apply dtree_inv in H0 as (k & rhs & cs & I & D & ->). tprods I; inv_d. auto.
  - intros (-> & ->). apply (dtree_intro _ _ _ [NonTerm "c"]); [is_tprod|].
    apply (dtrees_cons _ _ _ [] []); [|constructor]. apply (dtree_intro _ _ _ [NonTerm "a"; NonTerm "b"]); [is_tprod|].
    apply (dtrees_cons _ _ _ [] []); [apply (dtree_intro _ _ _ []); [is_tprod | constructor]|].
    apply (dtrees_cons _ _ _ [] []); [apply (dtree_intro _ _ _ []); [is_tprod | constructor] | constructor].
Qed.
Lemma an_dtree {V} (w : list (Token name V)) t : dtree g_ambiguous_nullable (NonTerm "start") w t <->
  w = [] /\ (t = PBranch "start" [PBranch "c_left" [PBranch "a_value" []]] \/ t = PBranch "start" [PBranch "c_right" [PBranch "b_value" []]]).
Proof.
  split.
  - intro D. apply dtree_inv in D as (k & rhs & cs & I & D & ->). tprods I; inv_d.
    apply dtree_inv in H as (k & rhs & cs & I & D & ->). tprods I; inv_d;
    apply dtree_inv in H as (k & rhs & cs & I & D & ->); tprods I; inv_d; auto.
  - intros (-> & [-> | ->]); (apply (dtree_intro _ _ _ [NonTerm "c"]); [is_tprod|]);
      (apply (dtrees_cons _ _ _ [] []); [|constructor]).
    + apply (dtree_intro _ _ _ [NonTerm "a"]); [is_tprod|].
      apply (dtrees_cons _ _ _ [] []); [apply (dtree_intro _ _ _ []); [is_tprod | constructor] | constructor].
    + apply (dtree_intro _ _ _ [NonTerm "b"]); [is_tprod|].
      apply (dtrees_cons _ _ _ [] []); [apply (dtree_intro _ _ _ []); [is_tprod | constructor] | constructor].
Qed.
Lemma amb_dtree_in {V} n : dtree g_amb (NonTerm "A") (@nil (Token name V)) (Nat.iter n (fun t => PBranch "a_recurse" [t]) (PBranch "a_empty" [])).
Proof.
  induction n as [|n IH]; simpl.
  - apply (dtree_intro _ _ _ []); [is_tprod | constructor].
  - apply (dtree_intro _ _ _ [NonTerm "A"]); [is_tprod|]. apply (dtrees_cons _ _ _ [] []); [exact IH | constructor].
Qed.
Lemma amb_dtree_inv {V} (w : list (Token name V)) : forall t, dtree g_amb (NonTerm "A") w t ->
  exists n, t = Nat.iter n (fun t => PBranch "a_recurse" [t]) (PBranch "a_empty" []).
Proof.
  fix IH 1. intros t D. destruct t as [k v|k cs]; [inversion D|].
  destruct cs as [|c cs].
  - clear IH. apply dtree_inv in D as (k' & rhs & cs' & I & D & E). injection E as -> <-. tprods I; [|inversion D].
    exists 0. reflexivity.
  - specialize (IH c). apply dtree_inv in D as (k' & rhs & cs' & I & D & E). injection E as -> <-. tprods I; [inversion D|].
    apply dtrees_nt_inv in D as (x & us & c' & cs'' & -> & E & D1 & D2). injection E as <- ->.
    apply dtrees_nil_inv in D2 as [-> ->]. rewrite app_nil_r in IH. destruct (IH D1) as [n ->]. exists (S n). reflexivity.
Qed.
