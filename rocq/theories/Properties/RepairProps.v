(** C132: correcting an input with the parser as an oracle (src/parsers/earley.rs:34-88). *)
From Coq Require Import String List Arith NArith Lia Bool.
From Verif.Model Require Import Ord BTree Outcome Utils Grammar StartGrammar Nullable NonNull Tokens Tree State Earley.
From Verif.Spec Require Import Reach Cfg BuildSpec NullSpec NonNullSpec TreeSpec EarleySpec LL1Spec WalkSpec BlameSpec RepairSpec Examples.
From Verif.Proofs Require Import OrdFacts BTreeFacts LoopFacts GrammarFacts StartFacts BuildMore CfgFacts TreeFacts TreeHist
  EarleyItems EarleyRun EarleyParse EarleyMain TreeLink EarleyMore NullableFacts NullableMore NonNullFacts NonNullMore TrimFacts ExampleFacts LL1Facts Overlaps BlameFacts RepairFacts.
From Verif.Properties Require Import EarleyProps LL1Props PipelineProps OptionalProps BlameProps.
Import ListNotations.

Section Props.
  Context {T NT AK AV V : Type} `{OrdEq T} `{OrdEq NT} `{OrdEq AK} `{OrdEq V}.
  Variable g : Grammar T NT AK AV.
  Variable sg : StartGrammar T NT AK AV.
  Variable lay : layout (StartNonTerminal NT).
  Hypothesis Bg : built g.
  Hypothesis Wr : runs_to (wrap_grammar_with_start g) (Ret (Ok sg)).
  Hypothesis Lay : lay_inj sg lay.
  Local Notation P := (rhs_of g).
  Local Notation S0 := (start_nt g).
  Hypothesis Pd : productive P S0.
  (** [value] makes up a value for every kind. *)
  Variable value : T -> V.
  Variable w : list (Token T V).

  (** C132.  For every grammar: what is said to be a correction is a word and as near as asked for. *)
  Theorem C132_sound n : exists us, runs_to (fun fuel => corrections lay sg g value n fuel [w]) (Ret us) /\
    forall u, In u us -> near n w u /\ lang P S0 (map tk_kind u).
  Proof.
    destruct (corrections_sound g sg lay Bg Wr Lay Pd value n 0 w [w] (reached_0 g value w)) as (us & Rs & Ps).
    rewrite Nat.add_0_r in Ps. exists us. auto.
  Qed.

  Hypothesis N : ~ lang P S0 [].
  Hypothesis O : no_overlap P S0.
  (** C132.  The search for a correction ends with a word, and no word is nearer to the input. *)
  Theorem C132_nearest : exists u n, runs_to (fun fuel => correct lay sg g value fuel fuel [w]) (Ret u) /\
    lang P S0 (map tk_kind u) /\ near n w u /\ forall m v, near m (map tk_kind w) v -> lang P S0 v -> n <= m.
  Proof. exact (correct_total g sg lay Bg Wr Lay Pd value N O w). Qed.
  (** C132.  A word is left as it is. *)
  Theorem C132_word : lang P S0 (map tk_kind w) <-> runs_to (fun fuel => correct lay sg g value fuel fuel [w]) (Ret w).
  Proof.
    destruct C132_nearest as (u & n & R & L & Nr & M). split.
    - intro Lw. assert (n = 0) as -> by (specialize (M 0 _ (near_refl 0 _) Lw); lia). apply near_0 in Nr as ->. exact R.
    - intro R'. pose proof (runs_to_fun _ _ _ R R') as E. injection E as ->. exact L.
  Qed.
  (** C132.  All words near the input are listed, and only these. *)
  Theorem C132_all n : exists us, runs_to (fun fuel => corrections lay sg g value n fuel [w]) (Ret us) /\
    (forall u, In u us -> near n w u) /\
    forall v, (exists u, In u us /\ map tk_kind u = v) <-> near n (map tk_kind w) v /\ lang P S0 v.
  Proof.
    destruct (corrections_spec g sg lay Bg Wr Lay Pd value N O n 0 w [w] (reached_0 g value w)) as (us & Rs & Ps & Cs).
    rewrite Nat.add_0_r in *. exists us. split; [exact Rs|]. split; [intros u I; exact (proj1 (Ps u I))|]. intro v. split.
    - intros (u & I & <-). destruct (Ps u I) as [Nr L]. split; [apply near_map; exact Nr|exact L].
    - intros [Nr L]. destruct (near_path g value n w v Nr) as (m & u & Lm & P' & E); [intros k; exact (lang_terminals g S0 v k L)|].
      exists u. split; [|exact E]. apply (Cs m u); [lia|exact P'|rewrite E; exact L].
  Qed.
End Props.

(** C132.  On a transformed grammar (C131): the nearest nonempty words of the original one, optional parts included. *)
Section Optional.
  Context {T NT AK AV V : Type} `{OrdEq T} `{OrdEq NT} `{OrdEq AK} `{OrdEq V}.
  Variable lay0 : layout NT.
  Variable g : Grammar T NT AK AV.
  Variable g' : NonNullGrammar T NT AK AV.
  Variable sg : StartGrammar T NT (NNActionKey AK) (NNActionValue NT AK AV).
  Variable lay : layout (StartNonTerminal NT).
  Hypothesis Inj : lay_inj g lay0.
  Hypothesis B : built g.
  Hypothesis R : runs_to (transform_to_nonnull lay0 g) (Ret (Ok g')).
  Hypothesis Wr : runs_to (wrap_grammar_with_start g') (Ret (Ok sg)).
  Hypothesis Lay : lay_inj sg lay.
  Hypothesis Pure : null_prods_pure g.
  Hypothesis Pd : productive (rhs_of g') (start_nt g').
  Hypothesis O : no_overlap (rhs_of g') (start_nt g').
  Variable value : T -> V.
  Variable w : list (Token T V).
  Local Notation L := (lang (rhs_of g) (start_nt g)).
  Let B' : built g' := proj1 (transform_nonempty lay0 g Inj B g' R).
  Let N' : ~ lang (rhs_of g') (start_nt g') [] := no_empty' lay0 g g' Inj B R Pure.

  Theorem C132_optional_nearest : exists u n, runs_to (fun fuel => correct lay sg g' value fuel fuel [w]) (Ret u) /\
    u <> [] /\ L (map tk_kind u) /\ near n w u /\ forall m v, near m (map tk_kind w) v -> v <> [] -> L v -> n <= m.
  Proof.
    destruct (C132_nearest g' sg lay B' Wr Lay Pd value w N' O) as (u & n & Ru & Lu & Nr & M). exists u, n. split; [exact Ru|].
    apply (lang' lay0 g g' Inj B R Pure) in Lu. destruct Lu as [Ne Lu]. split; [intros ->; exact (Ne eq_refl)|]. split; [exact Lu|].
    split; [exact Nr|]. intros m v Nv Nev Lv. apply (M m v Nv). apply (lang' lay0 g g' Inj B R Pure). auto.
  Qed.
  Theorem C132_optional_all n : exists us, runs_to (fun fuel => corrections lay sg g' value n fuel [w]) (Ret us) /\
    (forall u, In u us -> near n w u) /\
    forall v, (exists u, In u us /\ map tk_kind u = v) <-> near n (map tk_kind w) v /\ v <> [] /\ L v.
  Proof.
    destruct (C132_all g' sg lay B' Wr Lay Pd value w N' O n) as (us & Ru & Nr & A). exists us. split; [exact Ru|]. split; [exact Nr|].
    intro v. rewrite A, (lang' lay0 g g' Inj B R Pure). reflexivity.
  Qed.
End Optional.

(** "7 9" with an optional "8" between (ex_opt_hyps meets the conditions): one 8 too many. *)
Example C132_opt : correct ex_slay ex_opt_sg ex_opt_nn (fun _ => 0) 30 30 [map ex_tok [7; 8; 8; 9]] = Ret (map (fun k => Build_Token k 0) [7; 8; 9]).
Proof. vm_compute. reflexivity. Qed.
(** The grammar in Polish notation (C129_polish_hyps meets the conditions), with seq plus num and with plus num: an operand
    is missing. *)
Example C132_polish :
  near 1 [1; 6; 5] [1; 5; 5] /\ ~ near 1 [1; 6; 5] [5; 5; 5] /\
  correct ex_slay (ex_wrap ex_pol_g) ex_pol_g (fun _ => 0) 30 30 [map ex_tok [1; 6; 5]] = Ret (map (fun k => Build_Token k 0) [1; 5; 5]) /\
  exists us, corrections ex_slay (ex_wrap ex_pol_g) ex_pol_g (fun _ => 0) 1 30 [map ex_tok [6; 5]] = Ret us /\
    forall v, (exists u, In u us /\ map tk_kind u = v) <-> v = [5] \/ v = [0; 5] \/ v = [7; 5] \/ v = [6; 5; 5].
Proof.
  split; [apply near_keep, near_sub, near_keep, near_nil|]. split.
  { intro X. inversion X; subst; match goal with Y : near 0 _ _ |- _ => apply near_0 in Y; discriminate end. }
  split; [vm_compute; reflexivity|]. eexists. split; [vm_compute; reflexivity|]. intro v. split.
  - intros (u & I & <-). cbn in I. repeat (destruct I as [<-|I]; [cbn; auto 10|]). destruct I.
  - intro E. exists (map (fun k => Build_Token k 0) v). destruct E as [->|[->|[->| ->]]]; (split; [cbn; auto 10|reflexivity]).
Qed.

Print Assumptions C132_sound.
Print Assumptions C132_nearest.
Print Assumptions C132_word.
Print Assumptions C132_all.
Print Assumptions C132_optional_nearest.
Print Assumptions C132_optional_all.
