(** A parse that returns leaves behind a sentential form for every beginning of its input. *)
From Coq Require Import String List Arith NArith Lia Bool.
From Verif.Model Require Import Ord BTree Outcome Utils Grammar StartGrammar Tokens Tree State Earley.
From Verif.Spec Require Import Reach Cfg BuildSpec NullSpec EarleySpec.
From Verif.Proofs Require Import OrdFacts BTreeFacts LoopFacts GrammarFacts StartFacts NullableFacts TreeFacts TreeHist EarleyItems EarleyRun EarleyParse EarleyMain.
Import ListNotations.

Section Main.
  Context {T NT AK AV V : Type} `{OrdEq T} `{OrdEq NT} `{OrdEq AK} `{OrdEq V}.
  Variable g : Grammar T NT AK AV.
  Hypothesis Bg : accepted g.
  Local Notation sg := (wrapg g).
  Local Notation P := (rhs_of g).
  Local Notation S0 := (start_nt g).
  Variable lay : layout (StartNonTerminal NT).
  Hypothesis Inj : lay_inj sg lay.
  Variable w : list (Token T V).
  Local Notation kw := (map tk_kind w).
  Variable t0 : Inner T AK V.
  Hypothesis T0 : TInv t0.

  Theorem parse_viable o t : runs_to (fun fuel => parse lay sg w t0 fuel) (Ret (o, t)) ->
    forall j, j <= length w -> viable P S0 (firstn j kw).
  Proof.
    intro R. destruct (start_step g Bg lay Inj w ulf ubr (ulab_fun g Bg w) t0 T0) as (r & Rr & Pr).
    set (fin := fun (sets : list (EarleyStateSet T NT AK AV)) (t2 : Inner T AK V) =>
      last <- expect (last (map Some sets) None) "called `Option::unwrap()` on a `None` value" ;; r <- get_final last ;; Ret (r, t2)).
    assert (E : forall n, parse lay sg w t0 n = ('(init_state, t1) <- (s <- new_start lay sg t0 ;; close_state lay sg [] s n) ;;
      ('(sets, t2) <- parse_tokens lay sg w [init_state] t1 n ;; fin sets t2))).
    { intro n. unfold parse, fin. destruct (new_start _ _ _) as [s|m|]; reflexivity. }
    apply (runs_to_ext _ _ _ E) in R.
    destruct r as [[s1 t1]|m|]; [| |destruct Pr].
    - destruct Pr as (lab1 & I1). destruct (tokens_step g Bg lay Inj w ulf ubr (ulab_fun g Bg w) t0 w 0 [s1] t1 lab1 I1 eq_refl eq_refl) as (r2 & R2 & P2).
      destruct r2 as [[sets t2]|m|]; [| |destruct P2].
      + destruct P2 as (lab & I). intros j Lj.
        destruct (nth_error sets j) as [s|] eqn:Es; [|apply nth_error_None in Es; rewrite (pi_len _ _ _ _ _ _ _ _ _ _ I) in Es; lia].
        destruct (pi_sets _ _ _ _ _ _ _ _ _ _ I j s Es) as [S Ne]. destruct s as [|[k v] s]; [congruence|].
        destruct (proj2 S k v (or_introl eq_refl)) as (ls & It & _).
        rewrite <- seg_0. apply (item_viable g Bg w ulf ubr j Lj). eauto.
      + exfalso. pose proof (runs_to_bind_panic _ (fun n '(sets, t2) => fin sets t2) m R2) as X.
        pose proof (runs_to_bind _ (fun n '(s, t1) => '(sets, t2) <- parse_tokens lay sg w [s] t1 n ;; fin sets t2) _ _ Rr X) as Y.
        pose proof (runs_to_fun _ _ _ R Y). discriminate.
    - exfalso. pose proof (runs_to_bind_panic _ (fun n '(s, t1) => '(sets, t2) <- parse_tokens lay sg w [s] t1 n ;; fin sets t2) m Rr) as Y.
      pose proof (runs_to_fun _ _ _ R Y). discriminate.
  Qed.
End Main.
