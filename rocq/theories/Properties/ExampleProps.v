(** C84: the grammars of the repository itself (src/grammar/examples.rs, src/lib.rs, examples/*.rs): the builder accepts
    them, their languages are the intended ones, and what the Earley parser does with them, on every input. *)
From Coq Require Import String List Arith NArith Lia Bool.
From Verif.Model Require Import Ord BTree Outcome Utils Grammar StartGrammar Tokens Tree State Earley ExampleGrammars.
From Verif.Spec Require Import Reach Cfg BuildSpec NullSpec TreeSpec EarleySpec ExampleSpec.
From Verif.Proofs Require Import OrdFacts BTreeFacts LoopFacts GrammarFacts StartFacts BuildMore CfgFacts EarleyItems EarleyMore ExampleFacts ExampleLangs.
From Verif.Properties Require Import EarleyProps.
Import ListNotations.
Local Open Scope string_scope.

(** Every one of them builds: [build(..).unwrap()] returns. *)
Theorem C84_examples_build :
  (exists g, runs_to make_simple (Ret g)) /\ (exists g, runs_to make_simple_nullable (Ret g)) /\
  (exists g, runs_to make_paren (Ret g)) /\ (exists g, runs_to make_ambiguous_nullable (Ret g)) /\
  (exists g, runs_to base_grammar (Ret g)) /\ (exists g, runs_to create_arithmetic_grammar (Ret g)) /\
  (exists g, runs_to simple_earley_grammar (Ret g)) /\ (exists g, runs_to ambiguous_earley_grammar (Ret g)).
Proof.
  repeat apply conj; eexists; [exact made_simple | exact made_simple_nullable | exact made_paren | exact made_ambiguous_nullable
    | exact made_base | exact made_arith | exact made_nest | exact made_amb].
Qed.

(** Their languages. *)
Theorem C84_simple_language g : runs_to make_simple (Ret g) ->
  forall u, lang (rhs_of g) (start_nt g) u <-> u = ["A"] \/ u = ["B"].
Proof. intro R. rewrite (made_eq _ _ _ made_simple R). exact simple_lang. Qed.
Theorem C84_simple_nullable_language g : runs_to make_simple_nullable (Ret g) ->
  forall u, lang (rhs_of g) (start_nt g) u <-> u = [].
Proof. intro R. rewrite (made_eq _ _ _ made_simple_nullable R). exact sn_lang. Qed.
Theorem C84_ambiguous_nullable_language g : runs_to make_ambiguous_nullable (Ret g) ->
  forall u, lang (rhs_of g) (start_nt g) u <-> u = [].
Proof. intro R. rewrite (made_eq _ _ _ made_ambiguous_nullable R). exact an_lang. Qed.
Theorem C84_paren_language g : runs_to make_paren (Ret g) ->
  forall u, lang (rhs_of g) (start_nt g) u <-> u <> [] /\ depth_ends "LPAREN" "RPAREN" 0 u = true.
Proof. intro R. rewrite (made_eq _ _ _ made_paren R). exact paren_lang. Qed.
Theorem C84_base_language g : runs_to base_grammar (Ret g) ->
  forall u, lang (rhs_of g) (start_nt g) u <-> exists n, u = repeat "A" (n + n).
Proof. intro R. rewrite (made_eq _ _ _ made_base R). exact base_lang. Qed.
Theorem C84_arithmetic_language g : runs_to create_arithmetic_grammar (Ret g) ->
  forall u, lang (rhs_of g) (start_nt g) u <-> arith u.
Proof. intro R. rewrite (made_eq _ _ _ made_arith R). exact arith_lang. Qed.
Theorem C84_simple_earley_language g : runs_to simple_earley_grammar (Ret g) ->
  forall u, lang (rhs_of g) (start_nt g) u <-> exists n, u = nest "LPAREN" "VALUE" "RPAREN" n.
Proof. intro R. rewrite (made_eq _ _ _ made_nest R). exact nest_lang. Qed.
Theorem C84_ambiguous_earley_language g : runs_to ambiguous_earley_grammar (Ret g) ->
  forall u, lang (rhs_of g) (start_nt g) u <-> u = [].
Proof. intro R. rewrite (made_eq _ _ _ made_amb R). exact amb_lang. Qed.

(** Their derivation trees: one, two, and infinitely many for the empty input. *)
Theorem C84_simple_nullable_trees {V} g : runs_to make_simple_nullable (Ret g) -> forall (w : list (Token name V)) t,
  dtree g (NonTerm (start_nt g)) w t <->
  w = [] /\ t = PBranch "start" [PBranch "c_value" [PBranch "a_value" []; PBranch "b_value" []]].
Proof. intro R. rewrite (made_eq _ _ _ made_simple_nullable R). exact sn_dtree. Qed.
Theorem C84_ambiguous_nullable_trees {V} g : runs_to make_ambiguous_nullable (Ret g) -> forall (w : list (Token name V)) t,
  dtree g (NonTerm (start_nt g)) w t <->
  w = [] /\ (t = PBranch "start" [PBranch "c_left" [PBranch "a_value" []]] \/
             t = PBranch "start" [PBranch "c_right" [PBranch "b_value" []]]).
Proof. intro R. rewrite (made_eq _ _ _ made_ambiguous_nullable R). exact an_dtree. Qed.
Theorem C84_ambiguous_earley_trees {V} g : runs_to ambiguous_earley_grammar (Ret g) -> forall (w : list (Token name V)) t,
  dtree g (NonTerm (start_nt g)) w t <->
  w = [] /\ exists n, t = Nat.iter n (fun t => PBranch "a_recurse" [t]) (PBranch "a_empty" []).
Proof.
  intro R. rewrite (made_eq _ _ _ made_amb R). intros w t. split.
  - intro D. split; [|exact (amb_dtree_inv w t D)].
    destruct w as [|tk w]; [reflexivity|]. exfalso. assert (lang (rhs_of g_amb) "A" (map tk_kind (tk :: w))) as L.
    { exact (proj1 (dtree_gen g_amb) _ _ _ D). }
    apply amb_lang in L. discriminate.
  - intros (-> & n & ->). apply amb_dtree_in.
Qed.

(** C47, the whole of it. *)
Section Verdict.
  Context {T NT AK AV V : Type} `{OrdEq T} `{OrdEq NT} `{OrdEq AK} `{OrdEq V}.
  Variable g : Grammar T NT AK AV.
  Variable sg : StartGrammar T NT AK AV.
  Variable lay : layout (StartNonTerminal NT).
  Hypothesis Bg : built g.
  Hypothesis Wr : runs_to (wrap_grammar_with_start g) (Ret (Ok sg)).
  Hypothesis Lay : lay_inj sg lay.
  Local Notation P := (rhs_of g).

  (** On a prefix-free grammar all of whose reachable nonterminals derive words, the verdict on every input:
      a word is accepted, with exactly its trees; the beginning of a word is rejected; on anything else the
      parser panics. *)
  Theorem C47_prefix_free_verdict (w : list (Token T V)) t0 : prefix_free P -> productive P (start_nt g) -> api_tree t0 ->
    (lang P (start_nt g) (map tk_kind w) -> exists m t, runs_to (fun fuel => parse lay sg w t0 fuel) (Ret (Some m, t)) /\
      forall tr, reads t m tr <-> dtree g (NonTerm (start_nt g)) w tr) /\
    (forall v, lang P (start_nt g) (map tk_kind w ++ v)%list -> v <> [] ->
      exists t, runs_to (fun fuel => parse lay sg w t0 fuel) (Ret (None, t))) /\
    ((forall v, ~ lang P (start_nt g) (map tk_kind w ++ v)%list) ->
      exists msg, runs_to (fun fuel => parse lay sg w t0 fuel) (Panic msg)).
  Proof.
    intros PF Pd A. repeat apply conj.
    - intro L. rewrite <- (app_nil_r (map tk_kind w)) in L.
      destruct (C47_prefix_free_parse g sg lay Bg Wr Lay w t0 [] A PF L) as (o & t & R & So & Tr). rewrite app_nil_r in L.
      destruct o as [m|]; [|destruct (proj2 So L eq_refl)]. exists m, t. split; [exact R | exact (Tr m eq_refl)].
    - intros v L N. destruct (C47_prefix_free_parse g sg lay Bg Wr Lay w t0 v A PF L) as (o & t & R & So & _).
      destruct o as [m|]; [|eauto]. destruct N. apply (proj2 (PF _ _ v (proj1 So ltac:(discriminate))) L).
    - intro N. apply (C47_prefix_free_panics_iff g sg lay Bg Wr Lay w t0 A PF). exists (Datatypes.length w). split; [lia|].
      rewrite <- (map_length tk_kind w), firstn_all. intro Vi. destruct (viable_word _ _ _ Pd Vi) as [v L]. exact (N v L).
  Qed.

End Verdict.

(** What the Earley parser does with them, on every input, for productions at any different addresses and any
    tree to work in. *)
Section Parse.
  Context {V : Type} `{OrdEq V}.
  Variable g : RGrammar.
  Variable sg : StartGrammar name name name unit.
  Variable lay : layout (StartNonTerminal name).
  Hypothesis Wr : runs_to (wrap_grammar_with_start g) (Ret (Ok sg)).
  Hypothesis Lay : lay_inj sg lay.
  Local Notation P := (rhs_of g).

  (** make_simple: the word ["A"] or ["B"] is accepted, with one tree; the empty input is rejected; everything
      else is a panic. *)
  Theorem C84_simple_parse (w : list (Token name V)) t0 : runs_to make_simple (Ret g) -> api_tree t0 ->
    (forall v, w = [Build_Token "A" v] -> exists m t, runs_to (fun fuel => parse lay sg w t0 fuel) (Ret (Some m, t)) /\
       forall tr, reads t m tr <-> tr = PBranch "a_prod" [PBranch "a_term_prod" [PLeaf "A" v]]) /\
    (forall v, w = [Build_Token "B" v] -> exists m t, runs_to (fun fuel => parse lay sg w t0 fuel) (Ret (Some m, t)) /\
       forall tr, reads t m tr <-> tr = PBranch "b_prod" [PBranch "b_term_prod" [PLeaf "B" v]]) /\
    (w = [] -> exists t, runs_to (fun fuel => parse lay sg w t0 fuel) (Ret (None, t))) /\
    (map tk_kind w <> ["A"] -> map tk_kind w <> ["B"] -> w <> [] ->
       exists msg, runs_to (fun fuel => parse lay sg w t0 fuel) (Panic msg)).
  Proof.
    intros R A. pose proof (build_unwrap_built _ _ _ R) as Bg.
    destruct (C47_prefix_free_verdict g sg lay Bg Wr Lay w t0 ltac:(rewrite (made_eq _ _ _ made_simple R); exact simple_pf)
      ltac:(rewrite (made_eq _ _ _ made_simple R); exact simple_productive) A) as (V1 & V2 & V3).
    rewrite (made_eq _ _ _ made_simple R) in V1, V2, V3. repeat apply conj.
    - intros v ->. destruct V1 as (m & t & Rp & Tr); [apply simple_lang; auto|]. exists m, t. split; [exact Rp|].
      intro tr. rewrite Tr. change (start_nt g_simple) with "start". rewrite simple_dtree. split.
      + intros (v' & [[[= <-] ->]|[E _]]); [reflexivity | inversion E].
      + intros ->. exists v. auto.
    - intros v ->. destruct V1 as (m & t & Rp & Tr); [apply simple_lang; auto|]. exists m, t. split; [exact Rp|].
      intro tr. rewrite Tr. change (start_nt g_simple) with "start". rewrite simple_dtree. split.
      + intros (v' & [[E _]|[[= <-] ->]]); [inversion E | reflexivity].
      + intros ->. exists v. auto.
    - intros ->. apply (V2 ["A"]); [apply simple_lang; auto | discriminate].
    - intros NA NB NE. apply V3. intros v L. apply simple_lang in L.
      destruct w as [|t [|t' w]]; [congruence| |destruct L as [E|E]; inversion E].
      destruct L as [E|E]; inversion E as [[E1 E2]]; simpl in NA, NB; [apply NA | apply NB]; rewrite E1; reflexivity.
  Qed.

  (** examples/simple_earley.rs: nested words are accepted with their one tree; their proper beginnings are
      rejected; everything else is a panic. *)
  Theorem C84_simple_earley_parse (w : list (Token name V)) t0 : runs_to simple_earley_grammar (Ret g) -> api_tree t0 ->
    (forall n, map tk_kind w = nest "LPAREN" "VALUE" "RPAREN" n ->
       exists m t, runs_to (fun fuel => parse lay sg w t0 fuel) (Ret (Some m, t)) /\
         (exists tr, nest_tree "LPAREN" "VALUE" "RPAREN" "value" "parens" w tr /\ forall tr', reads t m tr' <-> tr' = tr)) /\
    (forall n v, (map tk_kind w ++ v)%list = nest "LPAREN" "VALUE" "RPAREN" n -> v <> [] ->
       exists t, runs_to (fun fuel => parse lay sg w t0 fuel) (Ret (None, t))) /\
    ((forall n v, (map tk_kind w ++ v)%list <> nest "LPAREN" "VALUE" "RPAREN" n) ->
       exists msg, runs_to (fun fuel => parse lay sg w t0 fuel) (Panic msg)).
  Proof.
    intros R A. pose proof (build_unwrap_built _ _ _ R) as Bg.
    destruct (C47_prefix_free_verdict g sg lay Bg Wr Lay w t0 ltac:(rewrite (made_eq _ _ _ made_nest R); exact nest_pf)
      ltac:(rewrite (made_eq _ _ _ made_nest R); exact nest_productive) A) as (V1 & V2 & V3).
    rewrite (made_eq _ _ _ made_nest R) in V1, V2, V3. repeat apply conj.
    - intros n E. destruct V1 as (m & t & Rp & Tr); [apply nest_lang; eauto|]. exists m, t. split; [exact Rp|].
      destruct (nest_tree_ex "LPAREN" "VALUE" "RPAREN" "value" "parens" n w E) as [tr N]. exists tr. split; [exact N|].
      intro tr'. rewrite Tr. change (start_nt g_nest) with "a". rewrite nest_dtree. split; [|intros ->; exact N].
      intro N'. eapply nest_tree_fun; [|exact N'|exact N]. discriminate.
    - intros n v E. apply V2. apply nest_lang. eauto.
    - intro N. apply V3. intros v L. apply nest_lang in L as [n E]. exact (N n v E).
  Qed.

  (** make_simple_nullable, make_ambiguous_nullable, base_grammar, examples/ambiguous_earley.rs: every parse
      panics, whatever the input. *)
  Theorem C84_nullable_parse_panics (w : list (Token name V)) t0 :
    runs_to make_simple_nullable (Ret g) \/ runs_to make_ambiguous_nullable (Ret g) \/ runs_to base_grammar (Ret g) \/
    runs_to ambiguous_earley_grammar (Ret g) -> api_tree t0 ->
    exists msg, runs_to (fun fuel => parse lay sg w t0 fuel) (Panic msg).
  Proof.
    intros R A. assert (built g) as Bg by (destruct R as [R|[R|[R|R]]]; exact (build_unwrap_built _ _ _ R)).
    apply (C44_nullable_start_panics g sg lay Bg Wr Lay w t0 A). destruct R as [R|[R|[R|R]]].
    - apply (C84_simple_nullable_language g R). reflexivity.
    - apply (C84_ambiguous_nullable_language g R). reflexivity.
    - apply (C84_base_language g R). exists 0. reflexivity.
    - apply (C84_ambiguous_earley_language g R). reflexivity.
  Qed.

  (** make_paren: every non-empty input panics, be it a word or not; the empty input is rejected. *)
  Theorem C84_paren_parse (w : list (Token name V)) t0 : runs_to make_paren (Ret g) -> api_tree t0 ->
    (w <> [] -> exists msg, runs_to (fun fuel => parse lay sg w t0 fuel) (Panic msg)) /\
    (w = [] -> exists t, runs_to (fun fuel => parse lay sg w t0 fuel) (Ret (None, t))).
  Proof.
    intros R A. pose proof (build_unwrap_built _ _ _ R) as Bg. split.
    - intro N. apply (C65_parse_panics_iff g sg lay Bg Wr Lay w t0 A). exists 1. rewrite (made_eq _ _ _ made_paren R).
      destruct w as [|[k v] w]; [congruence|]. simpl. split; [lia|].
      destruct (String.eqb_spec k "LPAREN") as [-> |Nk]; [right; left; apply paren_two | left; apply paren_first; exact Nk].
    - intros ->. assert (~ lang P (start_nt g) []) as NL
        by (intro L; apply (C84_paren_language g R) in L; destruct L; congruence).
      destruct (C44_parse_returns_partial g sg lay Bg Wr Lay [] t0 A) as (o & t & Rp).
      + intros j _. rewrite firstn_nil. exists [NonTerm (start_nt g)]. constructor.
      + intro j. rewrite (made_eq _ _ _ made_paren R). apply paren_no_two.
      + exact NL.
      + destruct o as [m|]; [|eauto]. destruct NL. exact (C42_parse_accepts_only_words g sg lay Bg Wr Lay [] t0 m t A Rp).
  Qed.

  (** create_arithmetic_grammar: the accepted inputs are a number inside parentheses, with its one tree; every
      other word (that is, every word with an operator in it) panics; everything that is not the beginning of a
      word panics. *)
  Theorem C84_arithmetic_parse (w : list (Token name V)) t0 : runs_to create_arithmetic_grammar (Ret g) -> api_tree t0 ->
    (forall n, map tk_kind w = nest "(" "num" ")" n ->
       exists m t, runs_to (fun fuel => parse lay sg w t0 fuel) (Ret (Some m, t)) /\
         (exists tr, nest_tree "(" "num" ")" "Number" "Paren" w tr /\ forall tr', reads t m tr' <-> tr' = tr)) /\
    (forall m t, runs_to (fun fuel => parse lay sg w t0 fuel) (Ret (Some m, t)) -> exists n, map tk_kind w = nest "(" "num" ")" n) /\
    (arith (map tk_kind w) -> (forall n, map tk_kind w <> nest "(" "num" ")" n) ->
       exists msg, runs_to (fun fuel => parse lay sg w t0 fuel) (Panic msg)) /\
    ((forall v, ~ arith (map tk_kind w ++ v)%list) ->
       exists msg, runs_to (fun fuel => parse lay sg w t0 fuel) (Panic msg)).
  Proof.
    intros R A. pose proof (build_unwrap_built _ _ _ R) as Bg. pose proof (made_eq _ _ _ made_arith R) as Eg.
    assert (arith (map tk_kind w) -> (forall n, map tk_kind w <> nest "(" "num" ")" n) ->
       exists msg, runs_to (fun fuel => parse lay sg w t0 fuel) (Panic msg)) as Pan.
    { intros Ar N. assert (exists op, In op ops /\ In op (map tk_kind w)) as (op & I & J).
      { destruct (existsb (fun op => if in_dec string_dec op (map tk_kind w) then true else false) ops) eqn:E.
        - apply existsb_exists in E as (op & I & E). exists op. destruct (in_dec _ _ _); [auto | discriminate].
        - destruct (arith_plain _ Ar) as [n En]; [|destruct (N n En)]. intros op I J.
          assert (existsb (fun op => if in_dec string_dec op (map tk_kind w) then true else false) ops = true) as E'.
          { apply existsb_exists. exists op. split; [exact I|]. destruct (in_dec _ _ _); [reflexivity | contradiction]. }
          rewrite E in E'. discriminate. }
      destruct (arith_two _ Ar op I J [] []) as (k & Lk & Tw); [constructor|]. simpl in Lk, Tw. rewrite app_nil_r in Lk, Tw.
      apply (C65_parse_panics_iff g sg lay Bg Wr Lay w t0 A). exists k. rewrite map_length in Lk. split; [exact Lk|].
      right. left. rewrite Eg. exact Tw. }
    assert (forall n, map tk_kind w = nest "(" "num" ")" n -> exists m t, runs_to (fun fuel => parse lay sg w t0 fuel) (Ret (Some m, t)) /\
         (exists tr, nest_tree "(" "num" ")" "Number" "Paren" w tr /\ forall tr', reads t m tr' <-> tr' = tr)) as Acc.
    { intros n E. assert (forall op, In op ops -> ~ In op (map tk_kind w)) as Pl by (rewrite E; apply nest_plain).
      assert (lang P (start_nt g) (map tk_kind w)) as L by (apply (C84_arithmetic_language g R); rewrite E; apply nest_arith).
      destruct (C44_parse_returns_partial g sg lay Bg Wr Lay w t0 A) as (o & t & Rp).
      - intros j _. apply (word_viable P _ _ (skipn j (map tk_kind w))). rewrite firstn_skipn. exact L.
      - intro j. rewrite Eg. apply arith_no_two. exact Pl.
      - intro L0. apply (C84_arithmetic_language g R) in L0. exact (arith_nonempty _ L0 eq_refl).
      - destruct o as [m|]; [|destruct (C43_parse_rejects_only_nonwords g sg lay Bg Wr Lay w t0 t A Rp L)].
        exists m, t. split; [exact Rp|]. destruct (nest_tree_ex "(" "num" ")" "Number" "Paren" n w E) as [tr N].
        exists tr. split; [exact N|]. intro tr'.
        rewrite (C67_forest_exact g sg lay Bg Wr Lay w t0 m t A ltac:(rewrite Eg; apply arith_cuts; exact Pl) Rp tr').
        rewrite Eg. change (start_nt g_arith) with "expr". rewrite (arith_dtree w tr' Pl).
        split; [|intros ->; exact N]. intro N'. eapply nest_tree_fun; [|exact N'|exact N]. discriminate. }
    repeat apply conj; [exact Acc| |exact Pan|].
    - intros m t Rp. pose proof (C42_parse_accepts_only_words g sg lay Bg Wr Lay w t0 m t A Rp) as L.
      apply (C84_arithmetic_language g R) in L.
      destruct (existsb (fun op => if in_dec string_dec op (map tk_kind w) then true else false) ops) eqn:E.
      + apply existsb_exists in E as (op & I & E). destruct (in_dec _ _ _) as [J|]; [|discriminate].
        destruct Pan as [msg Rm]; [exact L| |discriminate (runs_to_fun _ _ _ Rp Rm)].
        intros n En. rewrite En in J. exact (nest_plain n op I J).
      + apply arith_plain; [exact L|]. intros op I J.
        assert (existsb (fun op => if in_dec string_dec op (map tk_kind w) then true else false) ops = true) as E'.
        { apply existsb_exists. exists op. split; [exact I|]. destruct (in_dec _ _ _); [reflexivity | contradiction]. }
        rewrite E in E'. discriminate.
    - intro N. rewrite <- (app_nil_r w). apply (C44_syntax_error_panics g sg lay Bg Wr Lay w [] t0 A). intro Vi.
      apply viable_word in Vi as [v L]; [exact (N v (proj1 (C84_arithmetic_language g R _) L))|].
      intros B Re. assert (B = "expr") as ->.
      { revert B Re. rewrite Eg. apply (reach_in _ _ (fun B => B = "expr")); [reflexivity|]. intros X Y rhs Pr I.
        apply arith_rhs in Pr as [_ [-> |[-> |(op & _ & ->)]]]; in_cases; reflexivity. }
      exists ["num"]. change "expr" with (start_nt g_arith). rewrite <- Eg. apply (C84_arithmetic_language g R). constructor.
  Qed.
End Parse.

Print Assumptions C47_prefix_free_verdict.
Print Assumptions C84_examples_build.
Print Assumptions C84_paren_language.
Print Assumptions C84_arithmetic_language.
Print Assumptions C84_simple_parse.
Print Assumptions C84_simple_earley_parse.
Print Assumptions C84_nullable_parse_panics.
Print Assumptions C84_paren_parse.
Print Assumptions C84_arithmetic_parse.

(** Concrete cases of the specification. *)
Example ex_depth : map (fun w => depth_ends "LPAREN" "RPAREN" 0 w)
  [["LPAREN"; "LPAREN"; "RPAREN"; "LPAREN"; "RPAREN"; "RPAREN"]; ["LPAREN"; "RPAREN"; "LPAREN"; "RPAREN"]; ["LPAREN"]; ["RPAREN"]] =
  [true; false; false; false].
Proof. reflexivity. Qed.
Example ex_arith : arith ["("; "num"; "+"; "num"; ")"; "*"; "num"].
Proof.
  apply (ar_op ["("; "num"; "+"; "num"; ")"] "*" ["num"]); [|simpl; auto|constructor].
  apply (ar_paren ["num"; "+"; "num"]). apply (ar_op ["num"] "+" ["num"]); [constructor | simpl; auto | constructor].
Qed.
Example ex_nest : nest "(" "num" ")" 2 = ["("; "("; "num"; ")"; ")"].
Proof. reflexivity. Qed.
