(** C126: a predictive parser written with the passes. *)
From Coq Require Import String List Arith NArith Lia.
From Verif.Model Require Import Ord BTree Outcome Utils Grammar StartGrammar Tokens Tree Nullable Firsts.
From Verif.Spec Require Import Reach Cfg BuildSpec NullSpec TreeSpec EarleySpec LL1Spec PredictSpec Examples.
From Verif.Proofs Require Import OrdFacts BTreeFacts LoopFacts GrammarFacts BuildMore CfgFacts NullableFacts NullableMore FirstsFacts FirstsMore
  EarleyItems EarleyMore LalrFacts LL1Facts ExampleFacts PredictFacts.
From Verif.Properties Require Import NullableProps FirstsProps.
Import ListNotations.
Local Open Scope list_scope.

Section Props.
  Context {T NT AK AV V : Type} `{OrdEq T} `{OrdEq NT}.
  Variable g : Grammar T NT AK AV.
  Variable lay : layout NT.
  Hypothesis Bg : built g.
  Hypothesis Lay : lay_inj g lay.
  Variable info : GrammarNullableInfo NT AK.
  Variable m : btmap NT (btset T).
  Hypothesis Ni : runs_to (calculate_nullables lay g) (Ret (Ok info)).
  Hypothesis Fi : runs_to (calculate_firsts lay g) (Ret (Ok m)).
  Local Notation P := (rhs_of g).
  Local Notation S0 := (start_nt g).

  Lemma nullable_fact A : is_nullable info A = true <-> derives_empty g A.
  Proof.
    destruct (C07_nullable_decides lay g Lay Bg) as (r & Rr & X). pose proof (runs_to_fun _ _ _ Ni Rr) as E; injection E as <-.
    exact (proj1 (X info eq_refl) A).
  Qed.
  Lemma prod_fact A i p : nth_prod g A i p -> (is_prod_nullable info (Build_Prod A i p) = true <-> body_derives_empty g p).
  Proof.
    destruct (C07_nullable_decides lay g Lay Bg) as (r & Rr & X). pose proof (runs_to_fun _ _ _ Ni Rr) as E; injection E as <-.
    exact (proj2 (proj2 (X info eq_refl)) A i p).
  Qed.
  Lemma firsts_fact A t : (exists s, firsts_get m A = Some s /\ In t s) <-> first_of P A t.
  Proof.
    destruct (C14_firsts lay g Lay Bg) as (r & Rr & X). pose proof (runs_to_fun _ _ _ Fi Rr) as E; injection E as <-. exact (proj2 X A t).
  Qed.
  Lemma one_empty : ~ null_ambiguous g.
  Proof. apply (proj1 (proj2 (C08_nullable_verdict lay g Lay Bg))). eauto. Qed.
  Lemma start_known : known g [NonTerm S0].
  Proof. intros A [[= <-]|[]]. apply (built_accepted g Bg). Qed.

  (** C126.  Whatever the program is told about what can follow: it does not panic, and what it returns is a derivation tree
      of the input. *)
  Theorem C126_sound (follows : NT -> T -> bool) (w : list (Token T V)) fuel :
    (forall msg, predict g info m follows fuel [NonTerm S0] w <> Panic msg) /\
    (forall cs, predict g info m follows fuel [NonTerm S0] w = Ret (Some cs) -> exists tr, cs = [tr] /\ dtree g (NonTerm S0) w tr).
  Proof.
    split.
    - exact (run_no_panic g Bg info m follows fuel _ w start_known).
    - intros cs R. pose proof (run_sound g Bg info m follows fuel _ w cs start_known R) as D.
      inversion D as [|e es ts us c cs0 D1 D2 E1 E2 E3]; subst. inversion D2; subst. exists c. rewrite app_nil_r. auto.
  Qed.
  (** C126.  If it knows everything that can follow where the empty word can stand, and two productions never fit, then it ends
      on every input: with the input's tree, which is the only one, or with [None] if the input is not a word. *)
  Theorem C126_right (follows : NT -> T -> bool) (w : list (Token T V)) :
    no_conflict g info m follows -> knows_follows g follows ->
    (exists tr, dtree g (NonTerm S0) w tr /\ (forall tr', dtree g (NonTerm S0) w tr' -> tr' = tr) /\
       runs_to (fun fuel => predict g info m follows fuel [NonTerm S0] w) (Ret (Some [tr]))) \/
    (~ lang P S0 (map tk_kind w) /\ runs_to (fun fuel => predict g info m follows fuel [NonTerm S0] w) (Ret None)).
  Proof.
    intros NC KF.
    assert (Vi : viable g [NonTerm S0]) by (exists S0, []; apply df_refl).
    assert (Rn : forall o, answers g info m follows [NonTerm S0] w o -> runs_to (fun fuel => predict g info m follows fuel [NonTerm S0] w) (Ret o)).
    { intros o (n & R). apply (runs_to_intro _ _ n); [discriminate|]. intros fuel L. rewrite (run_mono g info m follows n fuel _ w L); [exact R|congruence]. }
    assert (Cm : forall tr, dtree g (NonTerm S0) w tr -> answers g info m follows [NonTerm S0] w (Some [tr])).
    { intros tr D. pose proof (proj1 (complete g Bg info m follows nullable_fact prod_fact firsts_fact NC KF) _ _ _ D [] [] [] start_known Vi) as X.
      rewrite app_nil_r in X. apply X; [constructor|]. exists 1. reflexivity. }
    destruct (all_end (V := V) g Bg info m follows nullable_fact prod_fact firsts_fact NC KF w _ start_known Vi) as ([cs|] & n & R).
    - left. destruct (proj2 (C126_sound follows w n) cs R) as (tr & -> & D). exists tr. split; [exact D|]. split; [|apply Rn; exists n; exact R].
      intros tr' D'. pose proof (runs_to_fun _ _ _ (Rn _ (Cm _ D)) (Rn _ (Cm _ D'))) as X. congruence.
    - right. split; [|apply Rn; exists n; exact R]. intro L. destruct (gen_dtrees (V := V) g _ _ L w eq_refl) as (cs & D).
      inversion D as [|e es ts us c cs0 D1 D2 E1 E2 E3]; subst. inversion D2; subst. rewrite app_nil_r in *.
      pose proof (runs_to_fun _ _ _ (Rn _ (Cm _ D1)) (Rn _ (ex_intro _ n R))). discriminate.
  Qed.
  (** C126.  If the program knows exactly what can follow, its check decides whether the grammar is LL(1). *)
  Theorem C126_check_decides (follows : NT -> T -> bool) : knows_follows g follows -> only_follows g follows ->
    (no_conflict g info m follows <-> ll1_with_empty g).
  Proof.
    intros KF OF. split.
    - intro NC. split; [|split; [|exact one_empty]].
      + intros A i j p q t Np Nq Bp Bq. apply begins_first in Bp, Bq.
        exact (NC A i j p q (Some t) Np Nq (fit_start g info m follows nullable_fact firsts_fact _ _ _ _ Np Bp) (fit_start g info m follows nullable_fact firsts_fact _ _ _ _ Nq Bq)).
      + intros A B t D F. exact (disjoint g Bg info m follows nullable_fact prod_fact firsts_fact NC KF A t (proj1 (first_of_iff P A t) F) B D).
    - intros (L1 & L2 & L3) A i j p q next Np Nq Fp Fq.
      assert (De : forall k r, nth_prod g A k r -> body_derives_empty g r -> derives_empty g A).
      { intros k r N D. apply (lang_iff P). exists (body r). split; [exists r; split; [apply prod_of_nth; eauto|reflexivity]|exact D]. }
      assert (Be : forall k r t, nth_prod g A k r -> begins g (body r) t -> first_of P A t).
      { intros k r t N B. apply first_of_iff, firstR_iff. exists (body r). split; [exists r; split; [apply prod_of_nth; eauto|reflexivity]|].
        apply begins_first. exact B. }
      assert (Two : body_derives_empty g p -> body_derives_empty g q -> i = j).
      { intros Dp Dq. destruct (Nat.eq_dec i j) as [E|Ne]; [exact E|]. destruct L3. exists A, i, j, p, q. auto. }
      assert (Can : forall k r t, nth_prod g A k r -> can_start info m (elements (Build_Prod A k r)) t = true -> begins g (body r) t).
      { intros k r t N C. apply (can_iff g info m nullable_fact firsts_fact) in C. apply begins_first. exact C. }
      destruct next as [t|]; cbn [fits] in Fp, Fq.
      + apply Bool.orb_true_iff in Fp, Fq. rewrite Bool.andb_true_iff in Fp, Fq. cbn [p_head] in Fp, Fq.
        rewrite (prod_fact _ _ _ Np) in Fp. rewrite (prod_fact _ _ _ Nq) in Fq.
        destruct Fp as [Cp|[Dp Op]], Fq as [Cq|[Dq Oq]].
        * exact (L1 A i j p q t Np Nq (Can _ _ _ Np Cp) (Can _ _ _ Nq Cq)).
        * exfalso. destruct (OF A t (De _ _ Nq Dq) Oq) as (B & Fo). exact (L2 A B t (De _ _ Nq Dq) (Be _ _ _ Np (Can _ _ _ Np Cp)) Fo).
        * exfalso. destruct (OF A t (De _ _ Np Dp) Op) as (B & Fo). exact (L2 A B t (De _ _ Np Dp) (Be _ _ _ Nq (Can _ _ _ Nq Cq)) Fo).
        * exact (Two Dp Dq).
      + apply Two; [exact (proj1 (prod_fact _ _ _ Np) Fp)|exact (proj1 (prod_fact _ _ _ Nq) Fq)].
  Qed.
  (** C126.  The content of the Follows pass serves the purpose when no nonterminal that may be empty stands right after a
      nonterminal: then the check with it decides whether the grammar is LL(1), and the program it instructs is right. *)
  Theorem C126_with_follows_pass (fo : btmap NT (btset T)) : runs_to (calculate_follows lay g) (Ret (Ok fo)) ->
    (forall H pre Y X post, rhs_of g H (pre ++ NonTerm Y :: NonTerm X :: post) -> ~ derives_empty g X) ->
    (no_conflict g info m (by_pass fo) <-> ll1_with_empty g) /\
    (ll1_with_empty g -> forall w : list (Token T V),
      (exists tr, dtree g (NonTerm S0) w tr /\ (forall tr', dtree g (NonTerm S0) w tr' -> tr' = tr) /\
         runs_to (fun fuel => predict g info m (by_pass fo) fuel [NonTerm S0] w) (Ret (Some [tr]))) \/
      (~ lang P S0 (map tk_kind w) /\ runs_to (fun fuel => predict g info m (by_pass fo) fuel [NonTerm S0] w) (Ret None))).
  Proof.
    intros Fo NA.
    assert (By : forall A t, by_pass fo A t = true <-> exists s, bt_get A fo = Some s /\ In t s).
    { intros A t. unfold by_pass. destruct (bt_get A fo) as [s|] eqn:G.
      - rewrite bs_mem_In_iff. split; [eauto|]. intros (s' & [= <-] & I). exact I.
      - split; [discriminate|]. intros (s' & X & _). discriminate X. }
    assert (KF : knows_follows g (by_pass fo)).
    { intros A B t _ F. apply By. exact (C17_follows_complete_partial lay g fo B A t Lay Bg Fo NA F). }
    assert (OF : only_follows g (by_pass fo)).
    { intros A t _ F. apply By in F. destruct F as (s & G & I). destruct (C16_follows_sound lay g fo A t s Lay Bg Fo G I) as (B & _ & _ & F).
      exists B. exact F. }
    split; [exact (C126_check_decides _ KF OF)|]. intros L w. apply C126_right; [|exact KF]. apply (C126_check_decides _ KF OF). exact L.
  Qed.
  (** C126.  For LL(1) grammars nothing needs to be known about what follows: it is enough to take the empty production when
      nothing else begins with the token. *)
  Theorem C126_without_follows : ll1_with_empty g ->
    no_conflict g info m (otherwise info m) /\ knows_follows g (otherwise info m) /\
    forall w : list (Token T V),
    (exists tr, dtree g (NonTerm S0) w tr /\ (forall tr', dtree g (NonTerm S0) w tr' -> tr' = tr) /\
       runs_to (fun fuel => predict g info m (otherwise info m) fuel [NonTerm S0] w) (Ret (Some [tr]))) \/
    (~ lang P S0 (map tk_kind w) /\ runs_to (fun fuel => predict g info m (otherwise info m) fuel [NonTerm S0] w) (Ret None)).
  Proof.
    intros (L1 & L2 & L3).
    assert (KF : knows_follows g (otherwise info m)).
    { intros A B t D Fo. unfold otherwise. destruct (can_start info m [NonTerm A] t) eqn:C; [|reflexivity]. exfalso.
      apply (can_iff g info m nullable_fact firsts_fact), firstS_single in C. exact (L2 A B t D (proj2 (first_of_iff P A t) C) Fo). }
    assert (NC : no_conflict g info m (otherwise info m)).
    { intros A i j p q next Np Nq Fp Fq.
      assert (Two : body_derives_empty g p -> body_derives_empty g q -> i = j).
      { intros Dp Dq. destruct (Nat.eq_dec i j) as [E|Ne]; [exact E|]. destruct L3. exists A, i, j, p, q. auto. }
      assert (Can : forall k r t, nth_prod g A k r -> can_start info m (elements (Build_Prod A k r)) t = true -> begins g (body r) t).
      { intros k r t N C. apply (can_iff g info m nullable_fact firsts_fact) in C. apply begins_first. exact C. }
      assert (Cl : forall k r t, nth_prod g A k r -> can_start info m (elements (Build_Prod A k r)) t = true -> otherwise info m A t = true -> False).
      { intros k r t N C O. unfold otherwise in O. apply Bool.negb_true_iff in O.
        assert (X : can_start info m [NonTerm A] t = true); [|congruence]. apply (can_iff g info m nullable_fact firsts_fact), firstS_single. cbn.
        apply firstR_iff. exists (body r). split; [exists r; split; [apply prod_of_nth; eauto|reflexivity]|]. apply begins_first. exact (Can _ _ _ N C). }
      destruct next as [t|]; cbn [fits] in Fp, Fq.
      - apply Bool.orb_true_iff in Fp, Fq. rewrite Bool.andb_true_iff in Fp, Fq. cbn [p_head] in Fp, Fq.
        rewrite (prod_fact _ _ _ Np) in Fp. rewrite (prod_fact _ _ _ Nq) in Fq.
        destruct Fp as [Cp|[Dp Op]], Fq as [Cq|[Dq Oq]].
        + exact (L1 A i j p q t Np Nq (Can _ _ _ Np Cp) (Can _ _ _ Nq Cq)).
        + destruct (Cl _ _ _ Np Cp Oq).
        + destruct (Cl _ _ _ Nq Cq Op).
        + exact (Two Dp Dq).
      - apply Two; [exact (proj1 (prod_fact _ _ _ Np) Fp)|exact (proj1 (prod_fact _ _ _ Nq) Fq)]. }
    split; [exact NC|]. split; [exact KF|]. intro w. exact (C126_right _ w NC KF).
  Qed.
End Props.

(** The content of the Follows pass is not enough.  0 -> 1 2 "3"; 1 -> "1" | (empty); 2 -> "2" | (empty). *)
Definition ex_abc : list (gb_call nat nat nat nat) :=
  [AddRule 0 [AddProd 10 0 [AddNonterm 1; AddNonterm 2; AddTerm 3]];
   AddRule 1 [AddProd 11 0 [AddTerm 1]; AddProd 12 0 []];
   AddRule 2 [AddProd 13 0 [AddTerm 2]; AddProd 14 0 []]].
Definition ex_abc_g : Grammar nat nat nat nat := match build 0 ex_abc 20 with Ret (Ok g) => g | _ => Build_Grammar 0 [] end.
Lemma built_abc : built ex_abc_g.
Proof. exists 0, ex_abc. apply (build_vm _ _ 20); [vm_compute; reflexivity | discriminate]. Qed.
(** 0 -> 1 2 3; 1 -> 0 | (empty); 2 -> 4; 3 -> "7"; 4 -> (empty). *)
Definition ex_loop : list (gb_call nat nat nat nat) :=
  [AddRule 0 [AddProd 10 0 [AddNonterm 1; AddNonterm 2; AddNonterm 3]];
   AddRule 1 [AddProd 11 0 [AddNonterm 0]; AddProd 12 0 []];
   AddRule 2 [AddProd 13 0 [AddNonterm 4]]; AddRule 3 [AddProd 15 0 [AddTerm 7]]; AddRule 4 [AddProd 14 0 []]].
Definition ex_loop_g : Grammar nat nat nat nat := match build 0 ex_loop 20 with Ret (Ok g) => g | _ => Build_Grammar 0 [] end.
Lemma built_loop : built ex_loop_g.
Proof. exists 0, ex_loop. apply (build_vm _ _ 20); [vm_compute; reflexivity | discriminate]. Qed.
Definition ex_passes (g : Grammar nat nat nat nat) : GrammarNullableInfo nat nat * btmap nat (btset nat) * btmap nat (btset nat) :=
  match calculate_nullables ex_lay g 30, calculate_firsts ex_lay g 30, calculate_follows ex_lay g 30 with
  | Ret (Ok info), Ret (Ok m), Ret (Ok fo) => (info, m, fo)
  | _, _, _ => ([], [], [])
  end.
Definition abc_info := Eval vm_compute in fst (fst (ex_passes ex_abc_g)).
Definition abc_firsts := Eval vm_compute in snd (fst (ex_passes ex_abc_g)).
Definition abc_follows := Eval vm_compute in snd (ex_passes ex_abc_g).
Definition loop_info := Eval vm_compute in fst (fst (ex_passes ex_loop_g)).
Definition loop_firsts := Eval vm_compute in snd (fst (ex_passes ex_loop_g)).
Definition loop_follows := Eval vm_compute in snd (ex_passes ex_loop_g).
Lemma passes_abc : in_memory ex_abc_g ex_lay /\ lay_inj ex_abc_g ex_lay /\
  runs_to (calculate_nullables ex_lay ex_abc_g) (Ret (Ok abc_info)) /\ runs_to (calculate_firsts ex_lay ex_abc_g) (Ret (Ok abc_firsts)) /\
  runs_to (calculate_follows ex_lay ex_abc_g) (Ret (Ok abc_follows)).
Proof.
  split; [apply ex_lay_mem; vm_compute; reflexivity|]. split; [apply ex_lay_inj; vm_compute; reflexivity|].
  split; [apply (runs_to_mono _ 30); [apply calculate_nullables_mono|vm_compute; reflexivity|discriminate]|].
  split; [apply (runs_to_mono _ 30); [apply calculate_firsts_mono|vm_compute; reflexivity|discriminate]|].
  apply (runs_to_mono _ 30); [apply calculate_follows_mono|vm_compute; reflexivity|discriminate].
Qed.
Lemma passes_loop : in_memory ex_loop_g ex_lay /\ lay_inj ex_loop_g ex_lay /\
  runs_to (calculate_nullables ex_lay ex_loop_g) (Ret (Ok loop_info)) /\ runs_to (calculate_firsts ex_lay ex_loop_g) (Ret (Ok loop_firsts)) /\
  runs_to (calculate_follows ex_lay ex_loop_g) (Ret (Ok loop_follows)).
Proof.
  split; [apply ex_lay_mem; vm_compute; reflexivity|]. split; [apply ex_lay_inj; vm_compute; reflexivity|].
  split; [apply (runs_to_mono _ 30); [apply calculate_nullables_mono|vm_compute; reflexivity|discriminate]|].
  split; [apply (runs_to_mono _ 30); [apply calculate_firsts_mono|vm_compute; reflexivity|discriminate]|].
  apply (runs_to_mono _ 30); [apply calculate_follows_mono|vm_compute; reflexivity|discriminate].
Qed.
Ltac cases_of I := repeat match type of I with _ \/ _ => destruct I as [I|I] | False => destruct I end.
Ltac nths i J := first [discriminate J|destruct i as [|i]; cbn in J; [first [discriminate J|injection J as <-]|nths i J]].
Ltac no_conflicts t_cases := intros A i j p q next (r & I & J) (r' & I' & J') Fp Fq; vm_compute in I, I';
  cases_of I; injection I as <- <-; cases_of I'; try discriminate I'; injection I' as <-; cbn in J, J'; nths i J; nths j J'; try reflexivity; exfalso;
  (destruct next as [t|]; [t_cases t|]); vm_compute in Fp, Fq; first [discriminate Fp|discriminate Fq].
Ltac upto3 t := destruct t as [|[|[|[|t]]]].
Ltac upto7 t := destruct t as [|[|[|[|[|[|[|[|t]]]]]]]].
Lemma no_conflict_abc : no_conflict ex_abc_g abc_info abc_firsts (by_pass abc_follows).
Proof. no_conflicts upto3. Qed.
Lemma no_conflict_loop : no_conflict ex_loop_g loop_info loop_firsts (by_pass loop_follows).
Proof. no_conflicts upto7. Qed.
(** Finite sets of sentential forms that rewriting does not leave, checked by computation. *)
Definition form_dec : forall x y : list (Elem nat nat), {x = y} + {x <> y}.
Proof. apply list_eq_dec. intros x y. decide equality; apply Nat.eq_dec. Defined.
Fixpoint splits {A} (l : list A) : list (list A * A * list A) :=
  match l with [] => [] | e :: r => ([], e, r) :: map (fun '(a, x, b) => (e :: a, x, b)) (splits r) end.
Lemma splits_In {A} (pre : list A) e post : In (pre, e, post) (splits (pre ++ e :: post)).
Proof.
  induction pre as [|x pre IH]; [left; reflexivity|]. right. apply in_map_iff. exists (pre, e, post). auto.
Qed.
Definition forms_check (bodies : list (nat * list (Elem nat nat))) (forms : list (list (Elem nat nat))) : bool :=
  forallb (fun l => forallb (fun '(pre, e, post) => match e with
     | NonTerm A => forallb (fun '(B, rhs) => if Nat.eqb A B then if in_dec form_dec (pre ++ rhs ++ post) forms then true else false else true) bodies
     | Term _ => true end) (splits l)) forms.
Lemma forms_closed (P : nat -> list (Elem nat nat) -> Prop) bodies forms x y : (forall A rhs, P A rhs -> In (A, rhs) bodies) ->
  forms_check bodies forms = true -> derives_form P x y -> In x forms -> In y forms.
Proof.
  intros Pb Ck D Ix. induction D as [|y z D IH St]; [exact Ix|]. destruct St as [pre A rhs post Pr].
  unfold forms_check in Ck. rewrite forallb_forall in Ck. specialize (Ck _ IH). rewrite forallb_forall in Ck.
  specialize (Ck _ (splits_In pre (NonTerm A) post)). cbv beta iota in Ck. rewrite forallb_forall in Ck. specialize (Ck _ (Pb _ _ Pr)). cbv beta iota in Ck.
  rewrite Nat.eqb_refl in Ck. destruct (in_dec form_dec (pre ++ rhs ++ post) forms) as [I|]; [exact I|discriminate].
Qed.
Definition abc_bodies : list (nat * list (Elem nat nat)) := map (fun '(A, _, rhs) => (A, rhs)) (prod_list ex_abc_g).
Lemma abc_rhs A rhs : rhs_of ex_abc_g A rhs -> In (A, rhs) abc_bodies.
Proof. intro Pr. apply prod_list_rhs in Pr. destruct Pr as (k & Pr). apply in_map_iff. exists (A, k, rhs). auto. Qed.
Definition abc_forms : list (list (Elem nat nat)) :=
  [NonTerm 0] :: flat_map (fun a => flat_map (fun b => map (fun c => a ++ b ++ c) [[]; [Term 3]]) [[]; [NonTerm 2]; [Term 2]]) [[]; [NonTerm 1]; [Term 1]].
Lemma abc_follow B A t : follow_from (rhs_of ex_abc_g) B A t -> (A = 1 /\ t = 2) \/ (A = 1 /\ t = 3) \/ (A = 2 /\ t = 3).
Proof.
  intros (pre & post & D).
  assert (I : In (pre ++ NonTerm A :: Term t :: post) abc_forms \/ B > 2).
  { destruct (le_lt_dec B 2) as [L|L]; [left|right; exact L]. apply (forms_closed _ _ abc_forms _ _ abc_rhs ltac:(vm_compute; reflexivity) D).
    destruct B as [|[|[|B]]]; [..|lia]; vm_compute; auto 25. }
  destruct I as [I|G].
  - set (y := pre ++ NonTerm A :: Term t :: post) in *. assert (Ey : y = pre ++ NonTerm A :: Term t :: post) by reflexivity. clearbody y. clear D.
    vm_compute in I. repeat match type of I with _ \/ _ => destruct I as [I|I] | False => destruct I end; rewrite Ey in I; clear Ey;
      repeat (destruct pre as [|?e pre]; cbn in I; [first [discriminate I|injection I as <- <- _; auto]|first [discriminate I|injection I as _ I]]); discriminate I.
  - exfalso. remember [NonTerm B] as x eqn:Ex. assert (Z : forall y, derives_form (rhs_of ex_abc_g) [NonTerm B] y -> y = [NonTerm B]).
    { clear - G. intros y D. induction D as [|y z D IH St]; [reflexivity|].
      remember y as y0 eqn:H in St. destruct St as [pre A rhs post Pr]. rewrite IH in H. destruct pre as [|e pre]; [|destruct pre; discriminate]. cbn in H. injection H as -> ->.
      apply abc_rhs in Pr. vm_compute in Pr. repeat match type of Pr with _ \/ _ => destruct Pr as [Pr|Pr] | False => destruct Pr end; injection Pr as <- _; lia. }
    subst x. apply Z in D. destruct pre as [|e pre]; [discriminate|]. destruct pre; discriminate.
Qed.
Definition abc_knows (A t : nat) : bool := match A with 1 => orb (Nat.eqb t 2) (Nat.eqb t 3) | 2 => Nat.eqb t 3 | _ => false end.
Lemma abc_step pre A post rhs y : rhs_of ex_abc_g A rhs -> derives_form (rhs_of ex_abc_g) (pre ++ rhs ++ post) y ->
  derives_form (rhs_of ex_abc_g) (pre ++ NonTerm A :: post) y.
Proof. intros Pr D. refine (CfgFacts.df_trans _ _ _ _ (CfgFacts.df_step _ _ _ _) D). constructor. exact Pr. Qed.
Lemma abc_is A rhs : In (A, rhs) abc_bodies -> rhs_of ex_abc_g A rhs.
Proof. intro I. apply in_map_iff in I. destruct I as (((B & k) & r) & [= -> ->] & I). apply prod_list_rhs. eauto. Qed.
Lemma abc_knows_ok : knows_follows ex_abc_g abc_knows /\ only_follows ex_abc_g abc_knows.
Proof.
  split.
  - intros A B t _ Fo. apply abc_follow in Fo. destruct Fo as [[-> ->]|[[-> ->]|[-> ->]]]; reflexivity.
  - intros A t _ K. assert (C : (A = 1 /\ t = 2) \/ (A = 1 /\ t = 3) \/ (A = 2 /\ t = 3)).
    { unfold abc_knows in K. destruct A as [|[|[|A]]]; try discriminate.
      - apply Bool.orb_true_iff in K. rewrite !Nat.eqb_eq in K. intuition.
      - apply Nat.eqb_eq in K. auto. }
    assert (E0 : rhs_of ex_abc_g 0 [NonTerm 1; NonTerm 2; Term 3]) by (apply abc_is; vm_compute; auto 10).
    exists 0. destruct C as [[-> ->]|[[-> ->]|[-> ->]]].
    + exists [], [Term 3]. apply (abc_step [] 0 [] _ _ E0). apply (abc_step [NonTerm 1] 2 [Term 3] [Term 2]); [apply abc_is; vm_compute; auto 10|apply CfgFacts.df_refl].
    + exists [], []. apply (abc_step [] 0 [] _ _ E0). apply (abc_step [NonTerm 1] 2 [Term 3] []); [apply abc_is; vm_compute; auto 10|apply CfgFacts.df_refl].
    + exists [NonTerm 1], []. apply (abc_step [] 0 [] _ _ E0). apply CfgFacts.df_refl.
Qed.
Example no_conflict_knows : no_conflict ex_abc_g abc_info abc_firsts abc_knows.
Proof. no_conflicts upto3. Qed.
Lemma ll1_abc : ll1_with_empty ex_abc_g.
Proof.
  pose proof passes_abc as (_ & Li & Ps). pose proof no_conflict_knows as NC. destruct Ps as (Rn & Rf & _).
  exact (proj1 (C126_check_decides ex_abc_g ex_lay built_abc Li _ _ Rn Rf abc_knows (proj1 abc_knows_ok) (proj2 abc_knows_ok)) NC).
Qed.
Lemma abc_word : lang (rhs_of ex_abc_g) 0 [3].
Proof.
  apply (gen_iff_derives (rhs_of ex_abc_g)). apply (abc_step [] 0 [] [NonTerm 1; NonTerm 2; Term 3]); [apply abc_is; vm_compute; auto 10|].
  apply (abc_step [] 1 [NonTerm 2; Term 3] []); [apply abc_is; vm_compute; auto 10|].
  apply (abc_step [] 2 [Term 3] []); [apply abc_is; vm_compute; auto 10|]. apply CfgFacts.df_refl.
Qed.

(** C126, refuted: that the content of the Follows pass serves its purpose.  An LL(1) grammar with a word the program rejects;
    and a grammar that passes the check, and a word of it on which the program does not end. *)
Theorem C126_follows_pass_refuted :
  (exists (g : Grammar nat nat nat nat) lay info m fo (w : list (Token nat nat)), built g /\ in_memory g lay /\
     runs_to (calculate_nullables lay g) (Ret (Ok info)) /\ runs_to (calculate_firsts lay g) (Ret (Ok m)) /\ runs_to (calculate_follows lay g) (Ret (Ok fo)) /\
     ll1_with_empty g /\ no_conflict g info m (by_pass fo) /\ lang (rhs_of g) (start_nt g) (map tk_kind w) /\
     runs_to (fun fuel => predict g info m (by_pass fo) fuel [NonTerm (start_nt g)] w) (Ret None)) /\
  (exists (g : Grammar nat nat nat nat) lay info m fo (w : list (Token nat nat)), built g /\ in_memory g lay /\
     runs_to (calculate_nullables lay g) (Ret (Ok info)) /\ runs_to (calculate_firsts lay g) (Ret (Ok m)) /\ runs_to (calculate_follows lay g) (Ret (Ok fo)) /\
     no_conflict g info m (by_pass fo) /\ lang (rhs_of g) (start_nt g) (map tk_kind w) /\
     diverges (fun fuel => predict g info m (by_pass fo) fuel [NonTerm (start_nt g)] w)).
Proof.
  split.
  - pose proof passes_abc as (Me & _ & Ps). pose proof no_conflict_abc as NC. destruct Ps as (Rn & Rf & Ro).
    exists ex_abc_g, ex_lay, abc_info, abc_firsts, abc_follows, [ex_tok 3]. do 5 (split; [first [exact built_abc|assumption]|]). split; [exact ll1_abc|]. split; [exact NC|].
    split; [exact abc_word|]. apply (runs_to_intro _ _ 5); [discriminate|]. intros fuel L.
    do 5 (destruct fuel as [|fuel]; [lia|]). reflexivity.
  - pose proof passes_loop as (Me & _ & Ps). pose proof no_conflict_loop as NC. destruct Ps as (Rn & Rf & Ro).
    exists ex_loop_g, ex_lay, loop_info, loop_firsts, loop_follows, [ex_tok 7]. do 5 (split; [first [exact built_loop|assumption]|]). split; [exact NC|]. split.
    + assert (G : forall A rhs w, (exists k, In (A, k, rhs) (prod_list ex_loop_g)) -> gen (rhs_of ex_loop_g) rhs w -> lang (rhs_of ex_loop_g) A w).
      { intros A rhs w I D. apply lang_iff. exists rhs. split; [apply prod_list_rhs; exact I|exact D]. }
      assert (Ap : forall X rhs a b, lang (rhs_of ex_loop_g) X a -> gen (rhs_of ex_loop_g) rhs b -> gen (rhs_of ex_loop_g) (NonTerm X :: rhs) (a ++ b)).
      { intros X rhs a b L D. apply lang_iff in L. destruct L as (r0 & Pr & D0). exact (gen_nonterm _ X r0 _ _ _ Pr D0 D). }
      change (start_nt ex_loop_g) with 0. cbn [map tk_kind ex_tok]. apply (G 0 [NonTerm 1; NonTerm 2; NonTerm 3]); [exists 10; vm_compute; auto 10|].
      apply (Ap 1 _ [] [7]); [apply (G 1 []); [exists 12; vm_compute; auto 10|constructor]|].
      apply (Ap 2 _ [] [7]); [apply (G 2 [NonTerm 4]); [exists 13; vm_compute; auto 10|]; apply (Ap 4 [] [] []); [apply (G 4 []); [exists 14; vm_compute; auto 10|constructor]|constructor]|].
      apply (Ap 3 [] [7] []); [|constructor]. apply (G 3 [Term 7]); [exists 15; vm_compute; auto 10|repeat constructor].
    + change (start_nt ex_loop_g) with 0. intro fuel.
      match goal with |- predict ex_loop_g ?i ?f ?fo _ _ _ = _ => set (run := predict (V := nat) ex_loop_g i f fo) end.
      assert (X : forall n st, run n (NonTerm 0 :: st) [ex_tok 7] = NoFuel /\ run n (NonTerm 1 :: st) [ex_tok 7] = NoFuel); [|exact (proj1 (X fuel []))].
      induction n as [|n IH]; intro st; [split; reflexivity|]. split.
      * change (run (S n) (NonTerm 0 :: st) [ex_tok 7]) with (obind (run n (NonTerm 1 :: NonTerm 2 :: NonTerm 3 :: st) [ex_tok 7])
          (fun r => Ret (option_map (fun cs => PBranch 10 (firstn 3 cs) :: skipn 3 cs) r))). rewrite (proj2 (IH _)). reflexivity.
      * change (run (S n) (NonTerm 1 :: st) [ex_tok 7]) with (obind (run n (NonTerm 0 :: st) [ex_tok 7])
          (fun r => Ret (option_map (fun cs => PBranch 11 (firstn 1 cs) :: skipn 1 cs) r))). rewrite (proj1 (IH _)). reflexivity.
Qed.

(** C126 is not empty: the grammar above is LL(1) with empty words, and the program without Follows finds the tree of "3". *)
Example ex_abc_run : predict ex_abc_g abc_info abc_firsts (otherwise abc_info abc_firsts) 20 [NonTerm 0] [ex_tok 3] = Ret (Some [PBranch 10 [PBranch 12 []; PBranch 14 []; PLeaf 3 0]]) /\
  predict ex_abc_g abc_info abc_firsts (otherwise abc_info abc_firsts) 20 [NonTerm 0] [ex_tok 2; ex_tok 1; ex_tok 3] = Ret None /\
  predict ex_abc_g abc_info abc_firsts (otherwise abc_info abc_firsts) 20 [NonTerm 0] [ex_tok 1; ex_tok 2; ex_tok 3] =
    Ret (Some [PBranch 10 [PBranch 11 [PLeaf 1 0]; PBranch 13 [PLeaf 2 0]; PLeaf 3 0]]).
Proof. vm_compute. split; [reflexivity|split; reflexivity]. Qed.

(** The condition of [C126_with_follows_pass] is met with empty words: 0 -> 1 "3"; 1 -> "1" 1 "2" | (empty). *)
Definition ex_mid : list (gb_call nat nat nat nat) :=
  [AddRule 0 [AddProd 10 0 [AddNonterm 1; AddTerm 3]];
   AddRule 1 [AddProd 11 0 [AddTerm 1; AddNonterm 1; AddTerm 2]; AddProd 12 0 []]].
Definition ex_mid_g : Grammar nat nat nat nat := match build 0 ex_mid 20 with Ret (Ok g) => g | _ => Build_Grammar 0 [] end.
Definition mid_info := Eval vm_compute in fst (fst (ex_passes ex_mid_g)).
Definition mid_firsts := Eval vm_compute in snd (fst (ex_passes ex_mid_g)).
Definition mid_follows := Eval vm_compute in snd (ex_passes ex_mid_g).
Example with_follows_pass : built ex_mid_g /\ lay_inj ex_mid_g ex_lay /\
  runs_to (calculate_nullables ex_lay ex_mid_g) (Ret (Ok mid_info)) /\ runs_to (calculate_firsts ex_lay ex_mid_g) (Ret (Ok mid_firsts)) /\
  runs_to (calculate_follows ex_lay ex_mid_g) (Ret (Ok mid_follows)) /\ derives_empty ex_mid_g 1 /\
  (forall H pre Y X post, rhs_of ex_mid_g H (pre ++ NonTerm Y :: NonTerm X :: post) -> ~ derives_empty ex_mid_g X) /\
  no_conflict ex_mid_g mid_info mid_firsts (by_pass mid_follows) /\ ll1_with_empty ex_mid_g.
Proof.
  assert (Bm : built ex_mid_g) by (exists 0, ex_mid; apply (build_vm _ _ 20); [vm_compute; reflexivity|discriminate]).
  assert (Li : lay_inj ex_mid_g ex_lay) by (apply ex_lay_inj; vm_compute; reflexivity).
  assert (Rn : runs_to (calculate_nullables ex_lay ex_mid_g) (Ret (Ok mid_info)))
    by (apply (runs_to_mono _ 30); [apply calculate_nullables_mono|vm_compute; reflexivity|discriminate]).
  assert (Rf : runs_to (calculate_firsts ex_lay ex_mid_g) (Ret (Ok mid_firsts)))
    by (apply (runs_to_mono _ 30); [apply calculate_firsts_mono|vm_compute; reflexivity|discriminate]).
  assert (Ro : runs_to (calculate_follows ex_lay ex_mid_g) (Ret (Ok mid_follows)))
    by (apply (runs_to_mono _ 30); [apply calculate_follows_mono|vm_compute; reflexivity|discriminate]).
  assert (NA : forall H pre Y X post, rhs_of ex_mid_g H (pre ++ NonTerm Y :: NonTerm X :: post) -> ~ derives_empty ex_mid_g X).
  { intros H pre Y X post Pr. exfalso. apply prod_list_rhs in Pr. destruct Pr as (k & Pr). vm_compute in Pr. cases_of Pr; injection Pr as _ _ E;
      repeat (destruct pre as [|? pre]; [discriminate E|injection E as _ E]); destruct pre; discriminate E. }
  assert (NC : no_conflict ex_mid_g mid_info mid_firsts (by_pass mid_follows)) by no_conflicts upto3.
  do 5 (split; [assumption|]). split.
  { apply lang_iff. exists []. split; [apply prod_list_rhs; exists 12; vm_compute; auto 10|constructor]. }
  split; [exact NA|]. split; [exact NC|].
  exact (proj1 (proj1 (C126_with_follows_pass (V := nat) ex_mid_g ex_lay Bm Li _ _ Rn Rf _ Ro NA)) NC).
Qed.

Print Assumptions C126_sound.
Print Assumptions C126_right.
Print Assumptions C126_check_decides.
Print Assumptions C126_with_follows_pass.
Print Assumptions C126_without_follows.
Print Assumptions C126_follows_pass_refuted.
