(** C84: the arithmetic grammar of src/lib.rs, the verdict of the parser on every input. *)
From Coq Require Import String List Arith NArith Lia Bool.
From Verif.Model Require Import Ord BTree Outcome Utils Grammar StartGrammar Tokens Tree State Earley ExampleGrammars.
From Verif.Spec Require Import Reach Cfg BuildSpec NullSpec TreeSpec EarleySpec ExampleSpec.
From Verif.Proofs Require Import OrdFacts BTreeFacts LoopFacts GrammarFacts StartFacts BuildMore CfgFacts EarleyItems EarleyMore ExampleFacts ExampleLangs ArithVerdict.
From Verif.Properties Require Import EarleyProps ExampleProps LL1Props.
Import ListNotations.
Local Open Scope string_scope.

Section Parse.
  Context {V : Type} `{OrdEq V}.
  Variable g : RGrammar.
  Variable sg : StartGrammar name name name unit.
  Variable lay : layout (StartNonTerminal name).
  Hypothesis Wr : runs_to (wrap_grammar_with_start g) (Ret (Ok sg)).
  Hypothesis Lay : lay_inj sg lay.

  (** An operator followed by a whole expression occurs in the input. *)
  Definition operation (u : list name) : Prop :=
    exists x op y z, u = (x ++ op :: y ++ z)%list /\ In op ["+"; "-"; "*"; "/"] /\ arith y.

  (** The verdict on every input.  Parenthesised numbers are accepted.  Any other beginning of an expression is
      rejected as long as no operator is followed by a whole expression (so [num +] and [num + (] are rejected,
      [num + num] and [(num + num] panic).  Everything else panics. *)
  Theorem C84_arithmetic_verdict (w : list (Token name V)) t0 : runs_to create_arithmetic_grammar (Ret g) -> api_tree t0 ->
    let u := map tk_kind w in
    ((exists m t, runs_to (fun fuel => parse lay sg w t0 fuel) (Ret (Some m, t))) <-> exists n, u = nest "(" "num" ")" n) /\
    ((exists t, runs_to (fun fuel => parse lay sg w t0 fuel) (Ret (None, t))) <->
       (exists v, arith (u ++ v)%list) /\ ~ operation u /\ forall n, u <> nest "(" "num" ")" n) /\
    ((exists msg, runs_to (fun fuel => parse lay sg w t0 fuel) (Panic msg)) <->
       operation u \/ forall v, ~ arith (u ++ v)%list).
  Proof.
    intros R A u. pose proof (build_unwrap_built _ _ _ R) as Bg. pose proof (made_eq _ _ _ made_arith R) as Eg.
    destruct (C84_arithmetic_parse g sg lay Wr Lay w t0 R A) as (Acc & Acc' & _ & Syn). fold u in Acc, Acc', Syn.
    assert (S0 : start_nt g = "expr") by (rewrite Eg; reflexivity).
    assert (Pr : forall j, j <= Datatypes.length w -> ~ viable (rhs_of g) (start_nt g) (firstn j u) -> forall v, ~ arith (u ++ v)%list).
    { intros j _ N v Ar. apply N. apply (word_viable _ _ _ (skipn j u ++ v)%list). rewrite app_assoc, firstn_skipn.
      apply (C84_arithmetic_language g R). exact Ar. }
    assert (Pan : (exists msg, runs_to (fun fuel => parse lay sg w t0 fuel) (Panic msg)) -> operation u \/ forall v, ~ arith (u ++ v)%list).
    { intro Rp. apply (C65_parse_panics_iff g sg lay Bg Wr Lay w t0 A) in Rp as (j & Lj & [N|[Tw|L]]).
      - right. exact (Pr j Lj N).
      - left. rewrite S0, Eg in Tw. apply two_operand in Tw as (x & op & y & z & E & I & Hy). exists x, op, y, z. auto.
      - exfalso. apply (C84_arithmetic_language g R) in L. exact (arith_nonempty _ L eq_refl). }
    assert (Op : forall v, arith (u ++ v)%list -> operation u -> exists msg, runs_to (fun fuel => parse lay sg w t0 fuel) (Panic msg)).
    { intros v Ar (x & op & y & z & E & I & Hy). destruct (arith_operand _ Hy) as (y1 & y2 & -> & O).
      rewrite <- app_assoc in E.
      destruct (op_used _ Ar op x y1 ((y2 ++ z) ++ v) I O) as (p & a & pre & post & -> & Ha & D & G).
      { rewrite E, <- app_assoc. simpl. rewrite <- !app_assoc. reflexivity. }
      eapply (C109_left_recursion_panics g sg lay Bg Wr Lay w t0 "expr" [Term op; NonTerm "expr"] pre post p (a ++ op :: y1)%list (y2 ++ z)%list A).
      - rewrite Eg. exact (arith_op op I).
      - discriminate.
      - rewrite S0, Eg. exact D.
      - rewrite Eg. exact G.
      - rewrite Eg. apply gen_nt; [apply arith_to; exact Ha|]. constructor. rewrite <- (app_nil_r y1).
        apply gen_nt; [apply arith_to, operand_arith; exact O | constructor].
      - fold u. rewrite E, <- !app_assoc. simpl. reflexivity. }
    assert (NoPl : forall n, operation (nest "(" "num" ")" n) -> False).
    { intros n (x & op & y & z & E & I & _). apply (nest_plain n op I). rewrite E. apply in_or_app. right. left. reflexivity. }
    repeat split.
    - intros (m & t & Rp). exact (Acc' m t Rp).
    - intros [n E]. destruct (Acc n E) as (m & t & Rp & _). eauto.
    - destruct (begins true 0 u) eqn:B; [apply begins_iff; exact B|]. exfalso.
      destruct Syn as [msg Rm].
      + intros v Ar. rewrite (proj2 (begins_iff u) (ex_intro _ v Ar)) in B. discriminate.
      + destruct H1 as [t Rp]. discriminate (runs_to_fun _ _ _ Rp Rm).
    - intro O. destruct H1 as [t Rp]. destruct (begins true 0 u) eqn:B.
      + apply begins_iff in B as [v Ar]. destruct (Op v Ar O) as [msg Rm]. discriminate (runs_to_fun _ _ _ Rp Rm).
      + destruct Syn as [msg Rm]; [|discriminate (runs_to_fun _ _ _ Rp Rm)].
        intros v Ar. rewrite (proj2 (begins_iff u) (ex_intro _ v Ar)) in B. discriminate.
    - intros n E. destruct H1 as [t Rp]. destruct (Acc n E) as (m & t' & Rm & _). discriminate (runs_to_fun _ _ _ Rp Rm).
    - intros ((v & Ar) & NO & Nn). destruct (C44_parse_returns_partial g sg lay Bg Wr Lay w t0 A) as (o & t & Rp).
      + intros j _. fold u. apply (word_viable _ _ _ (skipn j u ++ v)%list). rewrite app_assoc, firstn_skipn.
        apply (C84_arithmetic_language g R). exact Ar.
      + intros j Tw. apply NO. rewrite S0, Eg in Tw. apply two_operand in Tw as (x & op & y & z & E & I & Hy). exists x, op, y, z. auto.
      + intro L. apply (C84_arithmetic_language g R) in L. exact (arith_nonempty _ L eq_refl).
      + destruct o as [m|]; [|eauto]. destruct (Acc' m t Rp) as [n En]. destruct (Nn n En).
    - exact Pan.
    - intros [O|Nv]; [|exact (Syn Nv)]. destruct (begins true 0 u) eqn:B.
      + apply begins_iff in B as [v Ar]. exact (Op v Ar O).
      + apply Syn. intros v Ar. rewrite (proj2 (begins_iff u) (ex_intro _ v Ar)) in B. discriminate.
  Qed.
End Parse.

Print Assumptions C84_arithmetic_verdict.

(** Each of the three cases occurs: [num + (] can be continued and has no finished operation; [(num * num] can be
    continued too but has one; [num num] cannot be continued. *)
Example ex_unfinished : (exists v, arith (["num"; "+"; "("] ++ v)%list) /\ ~ operation ["num"; "+"; "("] /\
  forall n, ["num"; "+"; "("] <> nest "(" "num" ")" n.
Proof.
  split; [exists ["num"; ")"]; apply (ar_op ["num"] "+" ["("; "num"; ")"]); [constructor | simpl; auto | apply (ar_paren ["num"]); constructor]|].
  split.
  - intros (x & op & y & z & E & I & Hy). apply arith_operand in Hy as (a & b & -> & O).
    destruct x as [|x0 [|x1 [|x2 x]]].
    + injection E as <- _. unfold ops in *. in_cases.
    + injection E as _ <- E. destruct (operand_first a O) as (a' & [-> | ->]); [discriminate|]. injection E as E. symmetry in E.
      destruct O as [O|(q & O & _)]; [discriminate|]. injection O as ->. destruct q; discriminate.
    + injection E as _ _ <- _. unfold ops in *. in_cases.
    + injection E as _ _ _ E. destruct x; discriminate.
  - intros n E. destruct n as [|[|n]]; discriminate.
Qed.
Example ex_finished : (exists v, arith (["("; "num"; "*"; "num"] ++ v)%list) /\ operation ["("; "num"; "*"; "num"].
Proof.
  split.
  - exists [")"]. apply (ar_paren ["num"; "*"; "num"]). apply (ar_op ["num"] "*" ["num"]); [constructor | simpl; auto | constructor].
  - exists ["("; "num"], "*", ["num"], []. split; [reflexivity|]. split; [simpl; auto | constructor].
Qed.
Example ex_no_expression : forall v, ~ arith (["num"; "num"] ++ v)%list.
Proof. intros v Ar. assert (begins true 0 ["num"; "num"] = true) as B by (apply begins_iff; eauto). vm_compute in B. discriminate. Qed.
