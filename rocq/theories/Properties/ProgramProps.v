(** C121: the programs of the repository, from the rules to the drawing (examples/*.rs). *)
From Coq Require Import String Ascii List Arith NArith Lia.
From Verif.Model Require Import Ord BTree Outcome Utils Grammar StartGrammar Tokens Tree State Earley DotText Pretty Debug
  ExampleGrammars ExamplePrograms.
From Verif.Spec Require Import Reach Cfg BuildSpec NullSpec TreeSpec DotSpec EarleySpec AmbigSpec DrawSpec PrettySpec Examples ExampleSpec.
From Verif.Proofs Require Import OrdFacts BTreeFacts LoopFacts GrammarFacts StartFacts BuildMore CfgFacts TreeFacts TreeHist
  DotFacts DotTextFacts TreeLink EarleyMore DrawFacts ExampleFacts PrettyFacts.
From Verif.Properties Require Import BuildProps TreeProps DotProps EarleyProps AmbigProps DrawProps PrettyProps ExampleProps.
Import ListNotations.
Local Open Scope string_scope.

Section Props.
  Context {T NT AK AV V : Type} `{OrdEq T} `{OrdEq NT} `{OrdEq AK} `{OrdEq V} {DT : ToDoc T} {DN : ToDoc NT}.
  Variables (debug_t : T -> string) (debug_ak : AK -> string) (debug_v : V -> string).
  Variables (start : NT) (calls : list (gb_call T NT AK AV)) (w : list (Token T V)).
  Variables (lay : layout (StartNonTerminal NT)) (render : nat -> doc -> string).
  Local Notation draw := (draw debug_t debug_ak debug_v).
  Local Notation program := (earley_program debug_t debug_ak debug_v start calls w lay render).

  (** The rules are in order: everything reachable is defined, everything mentioned is reachable and defined, and no rule is
      without productions. *)
  Definition in_order : Prop :=
    (forall A, star (mentions calls) start A -> defined calls A) /\ (forall B, ~ err_unreachable calls start B) /\
    (forall B, ~ err_undefined calls B) /\ (forall A, ~ err_no_prods calls A).

  Lemma no_members {A} (l : list A) : (forall x, ~ In x l) -> l = [].
  Proof. destruct l as [|a l]; [reflexivity|]. intro N. destruct (N a). now left. Qed.

  (** C121.  If the rules are not in order the program dies before it has written anything: inside [build] if something
      reachable is undefined, otherwise at the unwrap of its result. *)
  Theorem C121_bad_rules : ~ in_order ->
    ((exists A, star (mentions calls) start A /\ ~ defined calls A) ->
       runs_to program (Ret (None, Died "An NT rule exists in the grammar."))) /\
    ((forall A, star (mentions calls) start A -> defined calls A) ->
       runs_to program (Ret (None, Died "called `Result::unwrap()` on an `Err` value"))).
  Proof.
    intro N.
    assert (Y : forall msg, runs_to (program_grammar start calls) (Panic msg) -> runs_to program (Ret (None, Died msg))).
    { intros msg (_ & k & R). split; [discriminate|]. exists k. intros fuel L. unfold earley_program. rewrite (R fuel L). reflexivity. }
    destruct (C01_build_verdict start calls) as [(X & R)|(Df & U & D & Np & (_ & HU) & (_ & HD) & (_ & HN) & V1)].
    - split; [intros _|intro Df; destruct X as (A & S & Nd); destruct (Nd (Df A S))].
      apply Y. unfold program_grammar. apply runs_to_bind_panic. exact R.
    - split; [intros (A & S & Nd); destruct (Nd (Df A S))|intros _]. apply Y. destruct V1 as [(-> & -> & -> & _)|(_ & R)].
      + destruct N. split; [exact Df|]. split; [intros B E; exact (proj2 (HU B) E)|].
        split; [intros B E; exact (proj2 (HD B) E)|intros B E; exact (proj2 (HN B) E)].
      + unfold program_grammar. eapply runs_to_bind; [exact R|]. cbn [unwrap_res obind]. apply runs_to_const. discriminate.
  Qed.

  (** C121.  Otherwise it writes the grammar, wrapped, to its error output, and then: it dies with the texts of C99 if at some
      position of the input no sentential form begins so, or a production is at two places at once, or the start symbol
      derives the empty word; if not, it dies of the last [unwrap] if the input is not a word; and if it is one it writes a
      drawing, in which every derivation tree of the input is drawn under one of the boxes that belong to the result, and,
      if pieces of the input are cut in one way only, nothing else is. *)
  Theorem C121_good_rules : in_order ->
    exists g sg, runs_to (build start calls) (Ret (Ok g)) /\ runs_to (wrap_grammar_with_start g) (Ret (Ok sg)) /\
      forall (Mem : in_memory sg lay),
      let P := rhs_of g in let u := map tk_kind w in
      let syntax j := ~ viable P (start_nt g) (firstn j u) in
      let confusion j := two_places P (start_nt g) u j \/ (j = 0 /\ lang P (start_nt g) []) in
      let notice := "Grammar: " ++ to_pretty render sg ++ nl in
      (forall j, j <= List.length w -> (forall i, i < j -> ~ syntax i /\ ~ confusion i) -> syntax j ->
         runs_to program (Ret (Some notice, Died "assertion failed: !new_state.is_empty()"))) /\
      (forall j, j <= List.length w -> (forall i, i < j -> ~ syntax i /\ ~ confusion i) -> ~ syntax j -> confusion j ->
         runs_to program (Ret (Some notice, Died "assertion failed: `(left == right)`"))) /\
      ((forall j, j <= List.length w -> ~ syntax j /\ ~ confusion j) -> ~ lang P (start_nt g) u ->
         runs_to program (Ret (Some notice, Died "called `Option::unwrap()` on a `None` value"))) /\
      ((forall j, j <= List.length w -> ~ syntax j /\ ~ confusion j) -> lang P (start_nt g) u ->
         exists out boxes, runs_to program (Ret (Some notice, Printed out)) /\
           (forall i, In i boxes -> exists l, In (NodeStmt i l "box") out) /\
           (forall i l, In (NodeStmt i l "box") out -> (forall j, ~ In (EdgeStmt j i) out) -> In i boxes) /\
           (forall tr, dtree g (NonTerm (start_nt g)) w tr -> exists i, In i boxes /\ box_shows out i (draw tr)) /\
           (unique_cuts P (start_nt g) u -> forall i d, In i boxes -> box_shows out i d ->
              exists tr, dtree g (NonTerm (start_nt g)) w tr /\ d = draw tr)).
  Proof.
    intros (Df & NU & ND & NN).
    destruct (C01_build_verdict start calls) as [((A & S & Nd) & _)|(_ & U & D & Np & (_ & HU) & (_ & HD) & (_ & HN) & V1)].
    { destruct Nd. exact (Df A S). }
    assert (Em : U = [] /\ D = [] /\ Np = []).
    { repeat split; apply no_members; intros x J; [apply HU in J; exact (NU x J)|apply HD in J; exact (ND x J)|apply HN in J; exact (NN x J)]. }
    destruct V1 as [(_ & _ & _ & g & Rg)|(Bad & _)]; [|destruct (Bad Em)]. clear U D Np HU HD HN Em.
    assert (Bg : built g) by (exists start, calls; exact Rg).
    destruct (C05_wrap_total g Bg) as (sg & Rw). exists g, sg. split; [exact Rg|]. split; [exact Rw|].
    intros Mem P u syntax confusion notice.
    pose proof (in_memory_inj _ _ Mem) as Inj.
    assert (A0 : api_tree (@in_new T AK V)) by exact api_tree_new.
    assert (Pg : runs_to (program_grammar start calls) (Ret sg)).
    { unfold program_grammar. eapply runs_to_bind; [exact Rg|]. cbn [unwrap_res obind]. eapply runs_to_bind; [exact Rw|].
      cbn [unwrap_res]. apply runs_to_ret. }
    assert (Dies : forall m, runs_to (program_output debug_t debug_ak debug_v lay sg w) (Panic m) -> runs_to program (Ret (Some notice, Died m))).
    { intros m (_ & k & R). destruct Pg as (_ & k' & Rg'). split; [discriminate|]. exists (k + k'). intros fuel L.
      unfold earley_program. rewrite (Rg' fuel) by lia. rewrite (R fuel) by lia. reflexivity. }
    assert (PDies : forall m, runs_to (fun fuel => parse lay sg w in_new fuel) (Panic m) -> runs_to program (Ret (Some notice, Died m))).
    { intros m R. apply Dies. unfold program_output. apply runs_to_bind_panic. exact R. }
    pose proof (C99_panic_message g sg lay Bg Rw Inj w in_new) as M99. cbv zeta in M99.
    assert (NoPanic : (forall j, j <= List.length w -> ~ syntax j /\ ~ confusion j) ->
      exists o t, runs_to (fun fuel => parse lay sg w in_new fuel) (Ret (o, t))).
    { intros Fine. destruct (C41_parse_terminates g sg lay Bg Rw Inj w in_new A0) as (r & R). destruct r as [[o t]|m|].
      - eauto.
      - apply (M99 m A0) in R. destruct R as (j & L & _ & [(S & _)|(_ & C & _)]); destruct (Fine j L) as [F1 F2]; [destruct (F1 S)|destruct (F2 C)].
      - destruct (proj1 R eq_refl). }
    split; [|split; [|split]].
    - intros j L Be S. apply PDies. apply (M99 _ A0). exists j. split; [exact L|]. split; [exact Be|]. left. auto.
    - intros j L Be S C. apply PDies. apply (M99 _ A0). exists j. split; [exact L|]. split; [exact Be|]. right. auto.
    - intros Fine NL. destruct (NoPanic Fine) as (o & t & R). destruct o as [m|].
      + destruct NL. exact (C42_parse_accepts_only_words g sg lay Bg Rw Inj w in_new m t A0 R).
      + apply Dies. unfold program_output. eapply runs_to_bind; [exact R|]. cbn [unwrap_opt expect obind]. apply runs_to_const. discriminate.
    - intros Fine Lg. destruct (NoPanic Fine) as (o & t & R). destruct o as [m|].
      2:{ destruct (C43_parse_rejects_only_nonwords g sg lay Bg Rw Inj w in_new t A0 R Lg). }
      destruct (C120_parse_drawing g sg lay Bg Rw Mem debug_t debug_ak debug_v w in_new m t A0 R) as (out & s & boxes & Rt & _ & _ & B1 & B2 & B3 & B4).
      exists out, boxes. split; [|auto]. 
      assert (Ro : runs_to (program_output debug_t debug_ak debug_v lay sg w) (Ret out)).
      { unfold program_output. eapply runs_to_bind; [exact R|]. cbn [unwrap_opt expect obind]. exact Rt. }
      destruct Pg as (_ & k' & Rg'), Ro as (_ & k & Ro). split; [discriminate|]. exists (k + k'). intros fuel L.
      unfold earley_program. rewrite (Rg' fuel) by lia. rewrite (Ro fuel) by lia. reflexivity.
  Qed.
End Props.

Section Runs.
  Variables (lay : layout (StartNonTerminal name)) (render : nat -> doc -> string).

  Lemma in_order_of {T NT AK AV} `{OrdEq NT} start (calls : list (gb_call T NT AK AV)) g :
    runs_to (build start calls) (Ret (Ok g)) -> in_order start calls.
  Proof.
    intros R. destruct (C01_build_verdict start calls) as [(_ & R')|(Df & U & D & Np & (_ & HU) & (_ & HD) & (_ & HN) & V1)].
    - discriminate (runs_to_fun _ _ _ R R').
    - destruct V1 as [(-> & -> & -> & _)|(_ & R')]; [|discriminate (runs_to_fun _ _ _ R R')].
      split; [exact Df|]. split; [intros B E; exact (proj2 (HU B) E)|].
      split; [intros B E; exact (proj2 (HD B) E)|intros B E; exact (proj2 (HN B) E)].
  Qed.
  Lemma unwrapped start calls g : runs_to (build_unwrap start calls) (Ret g) -> runs_to (build start calls) (Ret (Ok g)).
  Proof.
    intros (_ & k & R). split; [discriminate|]. exists k. intros fuel L. specialize (R fuel L). unfold build_unwrap in R.
    destruct (build start calls fuel) as [[x|e]| |]; cbn [obind] in R; try discriminate. now injection R as ->.
  Qed.

  (** C121.  The program simple_earley.rs, wherever the productions are in memory: it writes its grammar and then a drawing;
      under the boxes that belong to the result, among which are all boxes no arrow leads to, one tree is drawn and no
      other: the parentheses around the value. *)
  Theorem C121_simple_earley g sg : runs_to simple_earley_grammar (Ret g) -> runs_to (wrap_grammar_with_start g) (Ret (Ok sg)) ->
    in_memory sg lay ->
    exists out boxes, runs_to (simple_earley_main lay render) (Ret (Some ("Grammar: " ++ to_pretty render sg ++ nl), Printed out)) /\
      (renders render -> lex (to_pretty render sg) =
         [Word "Start"; Sym "="; Sym "<"; Word "START"; Sym ">"; Sym ","; Word "Rules"; Sym "{";
          Sym "<"; Word "START"; Sym ">"; Sym "="; Sym ">"; Word "start"; Sym ":"; Sym "<"; Word "a"; Sym ">"; Sym "<"; Word "EOS"; Sym ">"; Sym ";";
          Word "a"; Sym "="; Sym ">"; Word "val"; Sym ":"; Word "VALUE"; Sym "|";
          Word "LPAREN"; Word "contents"; Sym ":"; Sym "<"; Word "a"; Sym ">"; Word "RPAREN"; Sym ";"; Sym "}"; Sym ","]%char) /\
      (forall i l, In (NodeStmt i l "box") out -> (forall j, ~ In (EdgeStmt j i) out) -> In i boxes) /\
      let tree := Drawn "parens" [Drawn "Terminal(LPAREN)(""("")" []; Drawn "value" [Drawn "Terminal(VALUE)(""Hello!"")" []];
                                  Drawn "Terminal(RPAREN)("")"")" []] in
      (exists i, In i boxes /\ box_shows out i tree) /\ (forall i d, In i boxes -> box_shows out i d -> d = tree).
  Proof.
    intros Rg Rw Mem. pose proof (build_unwrap_built _ _ _ Rg) as Bg. pose proof (unwrapped _ _ _ Rg) as Rb.
    pose proof (in_memory_inj _ _ Mem) as Inj.
    set (w := [Build_Token "LPAREN" "("; Build_Token "VALUE" "Hello!"; Build_Token "RPAREN" ")"]).
    destruct (C121_good_rules (fun t => fmt false (dbg_terminal t)) (debug_text false) debug_str _ _ w lay render (in_order_of _ _ _ Rb))
      as (g' & sg' & Rb' & Rw' & X).
    assert (Eg : g' = g) by (pose proof (runs_to_fun _ _ _ Rb' Rb) as E; now injection E). subst g'.
    assert (Es : sg' = sg) by (pose proof (runs_to_fun _ _ _ Rw' Rw) as E; now injection E). subst sg'.
    specialize (X Mem). cbv zeta in X. destruct X as (_ & _ & _ & X).
    destruct (C84_simple_earley_parse g sg lay Rw Inj w in_new Rg api_tree_new) as (P1 & _ & _).
    destruct (P1 1 eq_refl) as (m & t & Rp & tr & Ntr & Trs).
    destruct X as (out & boxes & Rm & B1 & B2 & B3 & B4).
    { intros j L. assert (Np : ~ exists msg, runs_to (fun fuel => parse lay sg w in_new fuel) (Panic msg)) by
        (intros (msg & R); discriminate (runs_to_fun _ _ _ Rp R)).
      split; intros C; apply Np; apply (C65_parse_panics_iff g sg lay Bg Rw Inj w in_new api_tree_new); exists j; (split; [exact L|]).
      - now left.
      - right. destruct C as [C|[_ C]]; auto. }
    { exact (C42_parse_accepts_only_words g sg lay Bg Rw Inj w in_new m t api_tree_new Rp). }
    assert (PF : prefix_free (rhs_of g)) by (rewrite (made_eq _ _ _ made_nest Rg); exact nest_pf).
    specialize (B4 (pf_unique_cuts _ PF _ _)).
    assert (Tr : forall p : ptree name name string, dtree g (NonTerm (start_nt g)) w p <->
      p = PBranch "parens" [PLeaf "LPAREN" "("; PBranch "value" [PLeaf "VALUE" "Hello!"]; PLeaf "RPAREN" ")"]).
    { intro p. rewrite (made_eq _ _ _ made_nest Rg). change (start_nt g_nest) with "a". rewrite nest_dtree.
      assert (Nt : nest_tree "LPAREN" "VALUE" "RPAREN" "value" "parens" w
                     (PBranch "parens" [PLeaf "LPAREN" "("; PBranch "value" [PLeaf "VALUE" "Hello!"]; PLeaf "RPAREN" ")"])).
      { exact (nt_step _ _ _ _ _ "(" ")" _ _ (nt_base _ _ _ _ _ "Hello!")). }
      split; [|intros ->; exact Nt]. intro N'. eapply nest_tree_fun; [|exact N'|exact Nt]. discriminate. }
    exists out, boxes. split; [exact Rm|]. split; [|split; [exact B2|]].
    - intros Rd. pose proof (C78_wrapped_tokens (fun t : name => t) (fun n : name => n) (fun _ => eq_refl) (fun _ => eq_refl) render g sg Bg Rw Rd) as L.
      etransitivity; [exact L|]. rewrite (made_eq _ _ _ made_nest Rg). vm_compute. reflexivity.
    - intro tree. split.
      + destruct (B3 _ (proj2 (Tr _) eq_refl)) as (i & J & S). exists i. split; [exact J|exact S].
      + intros i d J S. destruct (B4 i d J S) as (p & Dp & ->). apply Tr in Dp. subst p. reflexivity.
  Qed.

  (** C121.  The program ambiguous_earley.rs writes its grammar and dies in the parser. *)
  Theorem C121_ambiguous_earley g sg : runs_to ambiguous_earley_grammar (Ret g) -> runs_to (wrap_grammar_with_start g) (Ret (Ok sg)) ->
    in_memory sg lay ->
    runs_to (ambiguous_earley_main lay render)
      (Ret (Some ("Grammar: " ++ to_pretty render sg ++ nl), Died "assertion failed: `(left == right)`")).
  Proof.
    intros Rg Rw Mem. pose proof (unwrapped _ _ _ Rg) as Rb.
    destruct (C121_good_rules (fun t => fmt false (dbg_terminal t)) (debug_text false) (fun _ : unit => "()") _ _ [] lay render (in_order_of _ _ _ Rb))
      as (g' & sg' & Rb' & Rw' & X).
    assert (Eg : g' = g) by (pose proof (runs_to_fun _ _ _ Rb' Rb) as E; now injection E). subst g'.
    assert (Es : sg' = sg) by (pose proof (runs_to_fun _ _ _ Rw' Rw) as E; now injection E). subst sg'.
    specialize (X Mem). cbv zeta in X. destruct X as (_ & X & _).
    apply (X 0); [cbn; lia|intros i L; lia| |].
    - intros NV. apply NV. exists [NonTerm (start_nt g)]. constructor.
    - right. split; [reflexivity|]. rewrite (made_eq _ _ _ made_amb Rg). apply amb_lang. reflexivity.
  Qed.
End Runs.

Print Assumptions C121_bad_rules.
Print Assumptions C121_good_rules.
Print Assumptions C121_simple_earley.
Print Assumptions C121_ambiguous_earley.

(** ** The hypotheses are met *)
Definition ex_play : layout (StartNonTerminal name) := fun A i => (match A with Start => 0 | NTerm _ => 1000 end + N.of_nat i * 8)%N.
Definition ex_nest_sg : StartGrammar name name name unit := Eval vm_compute in
  match wrap_grammar_with_start g_nest 20 with Ret (Ok sg) => sg | _ => Build_Grammar Start [] end.
Example C121_example : runs_to simple_earley_grammar (Ret g_nest) /\ runs_to (wrap_grammar_with_start g_nest) (Ret (Ok ex_nest_sg)) /\
  in_memory ex_nest_sg ex_play /\
  simple_earley_main ex_play simple_render 40 = Ret (Some
"Grammar: Start = <START>, Rules { <START> => start:<a> <EOS>; a => val:VALUE | LPAREN contents:
  <a> RPAREN; }, 
", Printed
   [NodeStmt "n0" "" "point"; NodeStmt "n1" "" "point"; NodeStmt "n2" "" "point"; NodeStmt "n4" "" "point";
    NodeStmt "a0" "Terminal(LPAREN)(""("")" "box"; NodeStmt "a1" "Terminal(VALUE)(""Hello!"")" "box"; NodeStmt "a2" "value" "box";
    NodeStmt "a3" "Terminal(RPAREN)("")"")" "box"; NodeStmt "a4" "parens" "box";
    EdgeStmt "n0" "a0"; EdgeStmt "n1" "a1"; EdgeStmt "n2" "a2"; EdgeStmt "n4" "a3"; EdgeStmt "a2" "n1";
    EdgeStmt "a4" "n0"; EdgeStmt "a4" "n2"; EdgeStmt "a4" "n4"]).
Proof.
  split; [exact made_nest|]. split; [apply (runs_to_mono _ 20); [apply build_mono|vm_compute; reflexivity|discriminate]|]. split; [|vm_compute; reflexivity].
  exists 8%N, (fun A => match A with Start => 0 | NTerm _ => 1000 end)%N. split; [lia|]. split; [reflexivity|].
  intros A r B r' J J' N. repeat (destruct J as [[= <- <-]|J]; [|]); [| |destruct J];
    repeat (destruct J' as [[= <- <-]|J']; [|]); try (now destruct J'); try (now destruct N); vm_compute; [left|right]; discriminate.
Qed.
(** Rules that are not in order: a rule without productions. *)
Example C121_bad_example : ~ in_order "a" [AddRule "a" [] : gb_call name name name unit].
Proof. intros (_ & _ & _ & N). apply (N "a"). exists [], []. split; [reflexivity|intros ? []]. Qed.
