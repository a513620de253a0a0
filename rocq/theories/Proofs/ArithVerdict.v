(** Where the parser gets stuck on an arithmetic expression: exactly at the end of the first operand that follows
    an operator. *)
From Coq Require Import String List Arith NArith Lia Bool.
From Verif.Model Require Import Ord BTree Outcome Utils Grammar StartGrammar Tokens Tree State Earley ExampleGrammars.
From Verif.Spec Require Import Reach Cfg BuildSpec NullSpec TreeSpec EarleySpec ExampleSpec.
From Verif.Proofs Require Import OrdFacts BTreeFacts LoopFacts GrammarFacts StartFacts BuildMore CfgFacts EarleyMore ExampleFacts ExampleLangs.
Import ListNotations.
Local Open Scope string_scope.
Local Open Scope list_scope.

Local Notation AP := (rhs_of g_arith).
Local Notation ex := (NonTerm "expr" : Elem name name).

(** Counting parentheses. *)
Local Notation cnt := (@count_occ name string_dec).
Lemma ops_no_paren op : In op ops -> op <> "(" /\ op <> ")".
Proof. intro I. split; intros ->; no_op. Qed.
Lemma cnt_op op r c : In op ops -> c = "(" \/ c = ")" -> cnt (op :: r) c = cnt r c.
Proof. intros I C. apply count_occ_cons_neq. intros ->. destruct C as [-> | ->]; no_op. Qed.
Lemma cnt_lp r : cnt ("(" :: r) ")" = cnt r ")".
Proof. apply count_occ_cons_neq. discriminate. Qed.
Lemma cnt_ll r : cnt ("(" :: r) "(" = S (cnt r "(").
Proof. apply count_occ_cons_eq. reflexivity. Qed.
Lemma arith_even u : arith u -> cnt u "(" = cnt u ")".
Proof.
  induction 1 as [|w H IH|w op v H IH I H' IH'].
  - reflexivity.
  - rewrite count_occ_cons_eq by reflexivity. rewrite cnt_lp.
    rewrite !count_occ_app, IH. simpl. lia.
  - rewrite !count_occ_app, !cnt_op by auto. lia.
Qed.
Lemma app_mid {A} (a b c d : list A) : a ++ b = c ++ d ->
  (exists m, c = a ++ m /\ b = m ++ d) \/ (exists m, m <> [] /\ a = c ++ m /\ d = m ++ b).
Proof.
  revert c. induction a as [|x a IH]; intros c E.
  - left. exists c. auto.
  - destruct c as [|y c].
    + right. exists (x :: a). simpl in *. split; [discriminate | auto].
    + simpl in E. injection E as -> E. destruct (IH c E) as [(m & -> & ->)|(m & N & -> & ->)].
      * left. exists m. auto.
      * right. exists m. auto.
Qed.
Lemma arith_suffix u : arith u -> forall r s, u = r ++ s -> cnt s "(" <= cnt s ")".
Proof.
  induction 1 as [|w H IH|w op v H IH I H' IH']; intros r s E.
  - destruct r as [|x r]; [simpl in E; subst s; simpl; lia|]. simpl in E. injection E as _ E. symmetry in E.
    apply app_eq_nil in E as [_ ->]. simpl. lia.
  - destruct r as [|x r].
    + simpl in E. subst s. rewrite (arith_even _ (ar_paren _ H)). lia.
    + simpl in E. injection E as _ E. apply app_mid in E as [(m & -> & E)|(m & _ & -> & ->)].
      * destruct m as [|y m].
        { simpl in E. subst s. simpl. lia. }
        simpl in E. injection E as <- E. symmetry in E. apply app_eq_nil in E as [-> ->]. simpl. lia.
      * rewrite !count_occ_app. pose proof (IH _ _ eq_refl). simpl. lia.
  - apply app_mid in E as [(m & -> & E)|(m & _ & -> & ->)].
    + destruct m as [|y m].
      * simpl in E. subst s. rewrite !cnt_op by auto. rewrite (arith_even _ H'). lia.
      * simpl in E. injection E as -> ->. exact (IH' _ _ eq_refl).
    + rewrite !count_occ_app, !cnt_op by auto. pose proof (IH _ _ eq_refl). pose proof (arith_even _ H'). lia.
Qed.
Lemma paren_prefix (q r s : list name) : arith q -> "(" :: q ++ [")"] = r ++ s -> r <> [] -> s <> [] -> cnt r ")" < cnt r "(".
Proof.
  intros H E Nr Ns. destruct (exists_last Ns) as (s' & c & ->). rewrite app_comm_cons, app_assoc in E.
  apply app_inj_tail in E as [E <-]. destruct r as [|x r]; [congruence|]. simpl in E. injection E as <- E.
  pose proof (arith_suffix q H r s' E) as L. pose proof (arith_even q H) as B. rewrite E, !count_occ_app in B.
  rewrite cnt_lp, cnt_ll. unfold name in *. lia.
Qed.

(** One operand: a number or a parenthesised expression. *)
Definition operand (y : list name) : Prop := y = ["num"] \/ exists q, y = "(" :: q ++ [")"] /\ arith q.
Lemma operand_arith y : operand y -> arith y.
Proof. intros [-> |(q & -> & H)]; constructor. exact H. Qed.
Lemma arith_operand y : arith y -> exists a b, y = a ++ b /\ operand a.
Proof.
  induction 1 as [|w H IH|w op v H (a & b & -> & O) I H' _].
  - exists ["num"], []. split; [reflexivity | left; reflexivity].
  - exists ("(" :: w ++ [")"]), []. split; [rewrite app_nil_r; reflexivity | right; eauto].
  - exists a, (b ++ op :: v). split; [apply app_assoc_reverse | exact O].
Qed.
Lemma operand_first y : operand y -> exists y', y = "num" :: y' \/ y = "(" :: y'.
Proof. intros [-> |(q & -> & _)]; eauto. Qed.
Lemma arith_last u : arith u -> forall op, In op ops -> forall x, u <> x ++ [op].
Proof.
  induction 1 as [|w H IH|w op' v H IH I' H' IH']; intros op I x E.
  - destruct x as [|a [|b x]]; [injection E as <-; no_op | discriminate E | discriminate E].
  - rewrite app_comm_cons in E. apply app_inj_tail in E as [_ <-]. no_op.
  - apply app_mid in E as [(m & -> & E)|(m & Nm & -> & E)].
    + destruct m as [|a m].
      * injection E as _ E. exact (arith_nonempty _ H' E).
      * injection E as _ E. exact (IH' op I m E).
    + destruct m as [|a [|b m]]; [congruence| |discriminate E]. injection E as _ E. discriminate.
Qed.
(** An operand cannot go past the end of a word it begins inside of. *)
Lemma operand_inside u r op v y z x : arith u -> u = x ++ r -> operand y -> In op ops -> r ++ op :: v = y ++ z -> r <> [] ->
  exists s, r = y ++ s /\ z = s ++ op :: v.
Proof.
  intros H E O I E' Nr. apply app_mid in E' as [(m & -> & E')|(m & _ & -> & E')]; [|eauto].
  destruct m as [|a m].
  { exists []. rewrite !app_nil_r. split; [reflexivity | symmetry; exact E']. }
  exfalso. simpl in E'. injection E' as <- _. destruct O as [O|(q & O & Hq)].
  - destruct r as [|b r]; [congruence|]. injection O as _ O. destruct r; discriminate.
  - pose proof (paren_prefix q r (op :: m) Hq (eq_sym O) Nr ltac:(discriminate)). pose proof (arith_suffix u H x r E). lia.
Qed.

(** An operand after an operator, in the beginning of a word: the derivation has an operator production there. *)
Lemma op_used u : arith u -> forall op x y z, In op ops -> operand y -> u = x ++ op :: y ++ z ->
  exists p a pre post, x = p ++ a /\ arith a /\ derives_form AP [ex] (pre ++ ex :: post) /\ gen AP pre p.
Proof.
  induction 1 as [|w H IH|w op1 v H IH I H' IH']; intros op x y z Io O E.
  - destruct x as [|a x]; [injection E as <- _; no_op|]. injection E as _ E. destruct x; discriminate.
  - destruct x as [|a x]; [injection E as <- _; no_op|]. simpl in E. injection E as <- E.
    destruct (exists_last (l := op :: y ++ z) ltac:(discriminate)) as (l & c & El). rewrite El in E.
    rewrite app_assoc in E. apply app_inj_tail in E as [E <-].
    destruct z as [|b z].
    + exfalso. rewrite app_nil_r in El. destruct l as [|b l].
      { injection El as _ El. destruct (operand_first y O) as (y' & [-> | ->]); discriminate. }
      injection El as <- El. subst y. pose proof (arith_even _ (operand_arith _ O)) as B. rewrite !count_occ_app in B. simpl in B.
      pose proof (arith_suffix w H (x ++ [op]) l) as L. rewrite <- app_assoc in L. specialize (L E). lia.
    + destruct (exists_last (l := b :: z) ltac:(discriminate)) as (z' & c & Ez). rewrite Ez in El.
      rewrite app_assoc, app_comm_cons in El. apply app_inj_tail in El as [<- ->].
      destruct (IH op x y z' Io O E) as (p & a & pre & post & -> & Ha & D & G).
      exists ("(" :: p), a, (Term "(" :: pre), (post ++ [Term ")"]). split; [reflexivity|]. split; [exact Ha|]. split.
      * eapply df_trans; [apply df_rule, arith_par|].
        pose proof (df_ctx AP [Term "("] _ _ [Term ")"] D) as D'. simpl in D'. rewrite <- app_assoc in D'. exact D'.
      * constructor. exact G.
  - apply app_mid in E as [(m & -> & E)|(m & Nm & -> & E)].
    + destruct m as [|b m].
      * exists [], w, [], []. rewrite app_nil_r. split; [reflexivity|]. split; [exact H|]. split; [apply df_refl | constructor].
      * simpl in E. injection E as <- ->. destruct (IH' op m y z Io O eq_refl) as (p & a & pre & post & -> & Ha & D & G).
        exists (w ++ op1 :: p), a, (ex :: Term op1 :: pre), post. split; [rewrite <- app_assoc; reflexivity|]. split; [exact Ha|].
        split.
        { eapply df_trans; [apply df_rule, (arith_op op1 I)|].
          pose proof (df_ctx AP [ex; Term op1] _ _ [] D) as D'. simpl in D'. rewrite !app_nil_r in D'. exact D'. }
        { apply gen_nt; [apply arith_to; exact H | constructor; exact G]. }
    + destruct m as [|b r]; [congruence|]. simpl in E. injection E as <- E.
      destruct r as [|b r].
      { destruct (arith_last _ H op Io x eq_refl). }
      destruct (operand_inside (x ++ op :: b :: r) (b :: r) op1 v y z (x ++ [op]) H ltac:(rewrite <- app_assoc; reflexivity) O I
        (eq_sym E) ltac:(discriminate)) as (s & Es & _).
      destruct (IH op x y s Io O ltac:(rewrite Es; reflexivity)) as (p & a & pre & post & -> & Ha & D & G).
      exists p, a, pre, (post ++ [Term op1; ex]). split; [reflexivity|]. split; [exact Ha|]. split; [|exact G].
      eapply df_trans; [apply df_rule, (arith_op op1 I)|].
      pose proof (df_ctx AP [] _ _ [Term op1; ex] D) as D'. simpl in D'. rewrite <- app_assoc in D'. exact D'.
Qed.

(** Conversely a production at two places has an operand after an operator. *)
Lemma two_operand w k : two_places AP "expr" w k -> exists x op y z, w = x ++ op :: y ++ z /\ In op ops /\ arith y.
Proof.
  intros (i & A & pre & mid & post & Pd & Pr & N & L1 & L2 & G1 & G2).
  assert (forall a op b, In op ops -> seg w i k = a ++ op :: b -> arith b -> exists x op y z, w = x ++ op :: y ++ z /\ In op ops /\ arith y) as Done.
  { intros a op b I E Hb. exists (firstn i w ++ a), op, b, (skipn (k - i) (skipn i w)). split; [|split; assumption].
    rewrite <- (firstn_skipn i w) at 1. rewrite <- (firstn_skipn (k - i) (skipn i w)) at 1.
    unfold seg in E. rewrite E. rewrite <- !app_assoc. reflexivity. }
  apply arith_rhs in Pr as [-> [Pr |[Pr |(op & I & Pr)]]].
  - destruct (split_one _ _ _ _ Pr N) as (-> & -> & ->). apply gen_nil_inv in G1. rewrite G1 in G2.
    apply gen_term_inv in G2 as (? & E & _). discriminate.
  - exfalso. destruct pre as [|e1 pre].
    { apply gen_nil_inv in G1. rewrite G1 in G2. destruct mid as [|e mid]; [congruence|]. simpl in Pr. injection Pr as -> _.
      simpl in G2. apply gen_term_inv in G2 as (? & E & _). discriminate. }
    simpl in Pr. injection Pr as -> Pr. apply gen_term_inv in G1 as (s & Es & G1). simpl in G2. rewrite Es in G2.
    apply gen_term_inv in G2 as (s' & E' & G2). injection E' as <-. destruct pre as [|e2 pre].
    { apply gen_nil_inv in G1 as ->. destruct mid as [|e mid]; [congruence|]. simpl in Pr. injection Pr as -> _.
      simpl in G2. apply gen_nt_inv in G2 as (x & y & E & L & _). symmetry in E. apply app_eq_nil in E as [-> _].
      apply arith_lang, arith_nonempty in L. congruence. }
    simpl in Pr. injection Pr as -> Pr. destruct (split_one _ _ _ _ Pr N) as (-> & -> & ->). simpl in G2.
    apply gen_nt_inv in G1 as (x & y & -> & L & G1). apply gen_nil_inv in G1 as ->. rewrite app_nil_r in *.
    apply gen_nt_inv in G2 as (x' & y & E & L' & G2). apply gen_term_inv in G2 as (? & -> & G2). apply gen_nil_inv in G2 as ->.
    apply arith_lang in L, L'. apply arith_even in L. apply arith_even in L'. rewrite E in L. rewrite !count_occ_app in L. simpl in L. lia.
  - destruct pre as [|e1 pre].
    { apply gen_nil_inv in G1. rewrite G1 in G2. destruct mid as [|e mid]; [congruence|]. simpl in Pr. injection Pr as -> _.
      simpl in G2. apply gen_nt_inv in G2 as (x & y & E & L & _). symmetry in E. apply app_eq_nil in E as [-> _].
      apply arith_lang, arith_nonempty in L. congruence. }
    simpl in Pr. injection Pr as -> Pr. simpl in G2. apply gen_nt_inv in G2 as (a & b & E2 & La & G2).
    destruct pre as [|e2 pre].
    + destruct mid as [|e mid]; [congruence|]. simpl in Pr. injection Pr as -> Pr. simpl in G2.
      apply gen_term_inv in G2 as (b' & -> & G2). destruct mid as [|e mid].
      * exfalso. apply gen_nil_inv in G2 as ->. apply arith_lang in G1. exact (arith_last _ G1 op I a E2).
      * simpl in Pr. injection Pr as -> Pr. apply app_eq_nil in Pr as [-> ->].
        apply gen_nt_inv in G2 as (c & d & -> & Lc & G2). apply gen_nil_inv in G2 as ->. rewrite app_nil_r in E2.
        apply (Done a op c I E2). apply arith_lang. exact Lc.
    + simpl in Pr. injection Pr as -> Pr. destruct (split_one _ _ _ _ Pr N) as (-> & -> & ->). simpl in G2.
      apply gen_term_inv in G2 as (b' & -> & G2). apply gen_nt_inv in G2 as (c & d & -> & Lc & G2). apply gen_nil_inv in G2 as ->.
      rewrite app_nil_r in E2. apply (Done a op c I E2). apply arith_lang. exact Lc.
Qed.

(** Whether a sequence is the beginning of an expression can be decided from left to right. *)
Fixpoint begins (wait : bool) (d : nat) (u : list name) : bool :=
  match u with
  | [] => true
  | t :: r =>
      if wait then
        if string_dec t "num" then begins false d r else if string_dec t "(" then begins true (S d) r else false
      else
        if in_dec string_dec t ops then begins true d r
        else if string_dec t ")" then match d with 0 => false | S d' => begins false d' r end
        else false
  end.
Lemma begins_pre u v : forall wait d, begins wait d (u ++ v) = true -> begins wait d u = true.
Proof.
  induction u as [|t u IH]; intros wait d B; [reflexivity|]. cbn [begins app] in *. destruct wait.
  - destruct (string_dec t "num"); [apply IH, B|]. destruct (string_dec t "("); [apply IH, B | discriminate].
  - destruct (in_dec string_dec t ops); [apply IH, B|]. destruct (string_dec t ")"); [|discriminate].
    destruct d; [discriminate | apply IH, B].
Qed.
Lemma begins_arith a : arith a -> forall d r, begins true d (a ++ r) = begins false d r.
Proof.
  induction 1 as [|w H IH|w op v H IH I H' IH']; intros d r.
  - reflexivity.
  - cbn [begins app]. destruct (string_dec "(" "num") as [E|_]; [discriminate E|]. destruct (string_dec "(" "(") as [_|E]; [|destruct (E eq_refl)].
    rewrite <- app_assoc, IH. cbn [begins app]. destruct (in_dec string_dec ")" ops) as [J|_]; [no_op|].
    destruct (string_dec ")" ")") as [_|E]; [reflexivity | destruct (E eq_refl)].
  - rewrite <- app_assoc, IH. cbn [begins app]. destruct (in_dec string_dec op ops) as [_|J]; [apply IH' | destruct (J I)].
Qed.
(** [opened d x]: [x] has [d] parentheses still open and waits for an operand. *)
Definition joined (y : list name) : Prop := y = [] \/ exists a op, y = a ++ [op] /\ arith a /\ In op ops.
Inductive opened : nat -> list name -> Prop :=
| op_zero y : joined y -> opened 0 y
| op_more d x y : opened d x -> joined y -> opened (S d) (x ++ "(" :: y).
Lemma joined_arith y a : joined y -> arith a -> arith (y ++ a).
Proof. intros [-> |(b & op & -> & Hb & I)] Ha; [exact Ha|]. rewrite <- app_assoc. constructor; assumption. Qed.
Lemma opened_close d : forall x a, opened d x -> arith a -> arith (x ++ a ++ repeat ")" d).
Proof.
  induction d as [|d IH]; intros x a O Ha; inversion O as [y J|? x' y O' J]; subst.
  - simpl. rewrite app_nil_r. apply joined_arith; assumption.
  - pose proof (IH x' _ O' (ar_paren _ (joined_arith y a J Ha))) as K.
    replace ((x' ++ "(" :: y) ++ a ++ repeat ")" (S d)) with (x' ++ ("(" :: (y ++ a) ++ [")"]) ++ repeat ")" d); [exact K|].
    simpl. rewrite <- !app_assoc. simpl. reflexivity.
Qed.
Lemma opened_op d x a op : opened d x -> arith a -> In op ops -> opened d (x ++ a ++ [op]).
Proof.
  assert (forall y, joined y -> arith a -> In op ops -> joined (y ++ a ++ [op])) as Jn.
  { intros y J Ha I. right. exists (y ++ a), op. rewrite <- app_assoc. split; [reflexivity|]. split; [|exact I]. apply joined_arith; assumption. }
  intros O Ha I. inversion O as [y J|d' x' y O' J]; subst.
  - constructor. auto.
  - rewrite <- app_assoc. simpl. constructor; auto.
Qed.
Lemma opened_out d x a : opened (S d) x -> arith a -> exists x' a', opened d x' /\ arith a' /\ x ++ a ++ [")"] = x' ++ a'.
Proof.
  intros O Ha. inversion O as [|d' x' y O' J]; subst. exists x', ("(" :: (y ++ a) ++ [")"]). split; [exact O'|].
  split; [constructor; apply joined_arith; assumption|]. simpl. rewrite <- !app_assoc. simpl. reflexivity.
Qed.
Lemma begins_complete u : forall wait d,
  (wait = true -> forall x, opened d x -> begins wait d u = true -> exists v, arith (x ++ u ++ v)) /\
  (wait = false -> forall x a, opened d x -> arith a -> begins wait d u = true -> exists v, arith (x ++ a ++ u ++ v)).
Proof.
  induction u as [|t u IH]; intros wait d; split; intros ->.
  - intros x O _. exists ("num" :: repeat ")" d). exact (opened_close d x ["num"] O ar_num).
  - intros x a O Ha _. exists (repeat ")" d). exact (opened_close d x a O Ha).
  - intros x O B. cbn [begins] in B. destruct (string_dec t "num") as [->|].
    + destruct (IH false d) as [_ K]. destruct (K eq_refl x ["num"] O ar_num B) as [v K']. exists v. exact K'.
    + destruct (string_dec t "(") as [->|]; [|discriminate]. destruct (IH true (S d)) as [K _].
      destruct (K eq_refl (x ++ ["("]) (op_more d x [] O (or_introl eq_refl)) B) as [v K']. exists v.
      rewrite <- app_assoc in K'. exact K'.
  - intros x a O Ha B. cbn [begins] in B. destruct (in_dec string_dec t ops) as [I|].
    + destruct (IH true d) as [K _]. destruct (K eq_refl _ (opened_op d x a t O Ha I) B) as [v K']. exists v.
      rewrite <- !app_assoc in K'. exact K'.
    + destruct (string_dec t ")") as [->|]; [|discriminate]. destruct d as [|d]; [discriminate|].
      destruct (opened_out d x a O Ha) as (x' & a' & O' & Ha' & E). destruct (IH false d) as [_ K].
      destruct (K eq_refl x' a' O' Ha' B) as [v K']. exists v. rewrite app_assoc, <- E in K'. rewrite <- !app_assoc in K'. exact K'.
Qed.
Lemma begins_iff u : begins true 0 u = true <-> exists v, arith (u ++ v).
Proof.
  split.
  - intro B. destruct (begins_complete u true 0) as [K _]. exact (K eq_refl [] (op_zero [] (or_introl eq_refl)) B).
  - intros [v Ar]. apply (begins_pre u v). rewrite <- (app_nil_r (u ++ v)), (begins_arith _ Ar). reflexivity.
Qed.
