(** The parenthesis and the arithmetic grammar of the repository. *)
From Coq Require Import String List Arith NArith Lia Bool.
From Verif.Model Require Import Ord BTree Outcome Utils Grammar StartGrammar Tokens Tree State Earley ExampleGrammars.
From Verif.Spec Require Import Reach Cfg BuildSpec NullSpec TreeSpec EarleySpec ExampleSpec.
From Verif.Proofs Require Import OrdFacts BTreeFacts LoopFacts GrammarFacts StartFacts BuildMore CfgFacts EarleyMore ExampleFacts.
Import ListNotations.
Local Open Scope string_scope.

(** *** make_paren *)
Local Notation PP := (rhs_of g_paren).
Local Notation dep := (depth_ends "LPAREN" "RPAREN").
Definition EL : Elem name name := NonTerm "expr_list".
Lemma expr_inv u : lang PP "expr" u -> exists x, u = "LPAREN" :: (x ++ ["RPAREN"])%list /\ lang PP "expr_list" x.
Proof.
  intro L. apply lang_inv in L as (rhs & Pr & G). prods Pr. apply gen_term_inv in G as (v & -> & G).
  apply gen_nt_inv in G as (x & y & -> & L & G). apply gen_term_inv in G as (z & -> & G). apply gen_nil_inv in G as ->.
  exists x. auto.
Qed.
Lemma expr_intro x : lang PP "expr_list" x -> lang PP "expr" ("LPAREN" :: (x ++ ["RPAREN"])%list).
Proof.
  intro L. apply (lang_intro _ _ [Term "LPAREN"; NonTerm "expr_list"; Term "RPAREN"]); [is_prod|]. constructor.
  apply gen_nt; [exact L | repeat constructor].
Qed.
Lemma list_inv u : lang PP "expr_list" u -> u = [] \/
  exists x y, u = "LPAREN" :: (x ++ "RPAREN" :: y)%list /\ lang PP "expr_list" x /\ lang PP "expr_list" y.
Proof.
  intro L. apply lang_inv in L as (rhs & Pr & G). prods Pr.
  - apply gen_nil_inv in G. auto.
  - right. apply gen_nt_inv in G as (a & b & -> & L & G). apply gen_nt_inv in G as (y & z & -> & L' & G).
    apply gen_nil_inv in G as ->. apply expr_inv in L as (x & -> & L). exists x, y. rewrite app_nil_r. simpl.
    rewrite <- app_assoc. auto.
Qed.
Lemma list_nil : lang PP "expr_list" [].
Proof. apply (lang_intro _ _ []); [is_prod | constructor]. Qed.
Lemma list_cons x y : lang PP "expr_list" x -> lang PP "expr_list" y ->
  lang PP "expr_list" ("LPAREN" :: (x ++ "RPAREN" :: y)%list).
Proof.
  intros L L'. apply (lang_intro _ _ [NonTerm "expr"; NonTerm "expr_list"]); [is_prod|].
  replace ("LPAREN" :: (x ++ "RPAREN" :: y)%list) with (("LPAREN" :: x ++ ["RPAREN"]) ++ y ++ [])%list
    by (simpl; rewrite <- app_assoc, app_nil_r; reflexivity).
  apply gen_nt; [apply expr_intro; exact L|]. apply gen_nt; [exact L' | constructor].
Qed.
Lemma start_inv u : lang PP "start" u <-> lang PP "expr" u.
Proof.
  split.
  - intro L. apply lang_inv in L as (rhs & Pr & G). prods Pr. apply gen_nt_inv in G as (x & y & -> & L & G).
    apply gen_nil_inv in G as ->. rewrite app_nil_r. exact L.
  - intro L. apply (lang_intro _ _ [NonTerm "expr"]); [is_prod|]. rewrite <- (app_nil_r u). apply gen_nt; [exact L | constructor].
Qed.
Lemma list_down n : forall u, length u <= n -> lang PP "expr_list" u -> forall d r, dep (S d) (u ++ r)%list = dep (S d) r.
Proof.
  induction n as [|n IH]; intros u Lu L d r.
  - destruct u; [reflexivity | simpl in Lu; lia].
  - apply list_inv in L as [-> | (x & y & -> & Lx & Ly)]; [reflexivity|].
    simpl in Lu. rewrite app_length in Lu. simpl in Lu. simpl. rewrite <- app_assoc.
    rewrite (IH x ltac:(unfold name; lia) Lx). simpl. apply IH; [unfold name; lia | exact Ly].
Qed.
(** [d] times: a list of expressions, then a closing parenthesis. *)
Fixpoint closings (d : nat) (u : list name) : Prop :=
  match d with
  | 0 => u = []
  | S d => exists x y, u = (x ++ "RPAREN" :: y)%list /\ lang PP "expr_list" x /\ closings d y
  end.
Lemma dep_closings u : forall d, dep (S d) u = true -> closings (S d) u.
Proof.
  induction u as [|t u IH]; intros d E; [discriminate|]. simpl in E.
  destruct (String.eqb_spec t "LPAREN") as [-> |_].
  - destruct (IH _ E) as (x & y & -> & Lx & (x' & y' & -> & Lx' & C)).
    exists ("LPAREN" :: (x ++ "RPAREN" :: x')%list), y'. split; [simpl; rewrite <- app_assoc; reflexivity|].
    split; [apply list_cons; assumption | exact C].
  - destruct (String.eqb_spec t "RPAREN") as [-> |_]; [|discriminate]. exists [], u. split; [reflexivity|].
    split; [apply list_nil|]. destruct d as [|d].
    + destruct u; [reflexivity | discriminate].
    + apply IH. exact E.
Qed.
Lemma paren_lang u : lang PP "start" u <-> u <> [] /\ dep 0 u = true.
Proof.
  rewrite start_inv. split.
  - intro L. apply expr_inv in L as (x & -> & L). split; [discriminate|]. simpl.
    rewrite (list_down _ x (le_n _) L). reflexivity.
  - intros (N & E). destruct u as [|t u]; [congruence|]. simpl in E. destruct (String.eqb_spec t "LPAREN") as [-> |_].
    + apply dep_closings in E as (x & y & -> & L & ->). apply expr_intro. exact L.
    + destruct (String.eqb t "RPAREN"); discriminate.
Qed.
Lemma paren_productive : productive PP "start".
Proof.
  intros A R. assert (A = "start" \/ A = "expr" \/ A = "expr_list") as C.
  { revert A R. apply reach_in; [auto|]. intros A B rhs Pr I. prods Pr; in_cases; auto. }
  pose proof (expr_intro _ list_nil) as E.
  destruct C as [-> |[-> | ->]]; [exists ["LPAREN"; "RPAREN"]; apply start_inv; exact E | exists ["LPAREN"; "RPAREN"]; exact E | exists []; apply list_nil].
Qed.

Lemma split_one {A} (pre mid post : list A) x : (pre ++ mid ++ post)%list = [x] -> mid <> [] -> pre = [] /\ mid = [x] /\ post = [].
Proof.
  destruct pre as [|a pre]; simpl.
  - destruct mid as [|b mid]; [congruence|]. simpl. intros [= -> E] _. apply app_eq_nil in E as [-> ->]. auto.
  - intros [= -> E] N. apply app_eq_nil in E as [_ E]. apply app_eq_nil in E as [E _]. congruence.
Qed.
Lemma paren_first t u : ~ (t = "LPAREN") -> ~ viable PP "start" (t :: u).
Proof.
  intros N V. destruct (viable_word _ _ _ paren_productive V) as [v L]. apply start_inv, expr_inv in L as (x & E & _).
  simpl in E. injection E as E _. congruence.
Qed.
Lemma paren_two w : two_places PP "start" ("LPAREN" :: w) 1.
Proof.
  exists 0, "expr", [Term "LPAREN"], [NonTerm "expr_list"], [Term "RPAREN"]. split; [|split; [|split; [|split; [|split; [|split]]]]].
  - apply (predicted_next _ _ _ 0 "start" [] "expr" [] 0); [constructor | is_prod | lia | simpl; lia | constructor].
  - is_prod.
  - discriminate.
  - lia.
  - simpl. lia.
  - constructor. constructor.
  - simpl. constructor. apply (gen_nt _ _ _ [] []); [apply list_nil | constructor].
Qed.
Lemma paren_start rhs : PP "start" rhs -> rhs = [NonTerm "expr"].
Proof. intro Pr. prods Pr. reflexivity. Qed.
Lemma paren_expr rhs : PP "expr" rhs -> rhs = [Term "LPAREN"; NonTerm "expr_list"; Term "RPAREN"].
Proof. intro Pr. prods Pr. reflexivity. Qed.
Lemma paren_predicted i A : predicted PP "start" [] i A -> i = 0 /\ (A = "start" \/ A = "expr").
Proof.
  induction 1 as [|i A pre B post k H IH Pr L1 L2 G]; [auto|]. destruct IH as [-> IH]. simpl in L2.
  assert (k = 0) as -> by lia. split; [reflexivity|]. unfold seg in G. simpl in G. destruct pre as [|e pre].
  - destruct IH as [-> | ->]; [apply paren_start in Pr | apply paren_expr in Pr]; simpl in Pr; [injection Pr as -> _; auto | discriminate].
  - destruct IH as [-> | ->]; [apply paren_start in Pr | apply paren_expr in Pr]; simpl in Pr.
    + destruct pre; discriminate.
    + injection Pr as -> _. apply gen_term_inv in G as (? & E & _). discriminate.
Qed.
Lemma paren_no_two k : ~ two_places PP "start" [] k.
Proof.
  intros (i & A & pre & mid & post & Pd & Pr & N & L1 & L2 & G1 & G2). apply paren_predicted in Pd as [-> C].
  simpl in L2. assert (k = 0) as -> by lia. unfold seg in *. simpl in *.
  destruct C as [-> | ->]; [apply paren_start in Pr as E | apply paren_expr in Pr as E].
  - destruct (split_one _ _ _ _ E N) as (-> & -> & ->). simpl in G2. apply expr_inv in G2 as (? & E' & _). discriminate.
  - destruct pre as [|e pre].
    + destruct mid as [|e mid]; [congruence|]. simpl in E. injection E as -> _. simpl in G2.
      apply gen_term_inv in G2 as (? & E' & _). discriminate.
    + simpl in E. injection E as -> _. apply gen_term_inv in G1 as (? & E' & _). discriminate.
Qed.

(** *** create_arithmetic_grammar *)
Ltac nlia := unfold name in *; lia.
Local Notation AP := (rhs_of g_arith).
Definition ops : list name := ["+"; "-"; "*"; "/"].
Ltac no_op := unfold ops in *; in_cases.
Local Notation ex := (NonTerm "expr" : Elem name name).

Lemma arith_rhs A rhs : AP A rhs -> A = "expr" /\
  (rhs = [Term "num"] \/ rhs = [Term "("; ex; Term ")"] \/ exists op, In op ops /\ rhs = [ex; Term op; ex]).
Proof.
  intro Pr. prods Pr; (split; [reflexivity|]); auto; right; right.
  - exists "+". split; [simpl; auto | reflexivity].
  - exists "-". split; [simpl; auto | reflexivity].
  - exists "*". split; [simpl; auto | reflexivity].
  - exists "/". split; [simpl; auto 6 | reflexivity].
Qed.
Lemma arith_num : AP "expr" [Term "num"].
Proof. is_prod. Qed.
Lemma arith_par : AP "expr" [Term "("; ex; Term ")"].
Proof. is_prod. Qed.
Lemma arith_op op : In op ops -> AP "expr" [ex; Term op; ex].
Proof. intros [<- |[<- |[<- |[<- |[]]]]]; is_prod. Qed.

Lemma arith_to u : arith u -> lang AP "expr" u.
Proof.
  induction 1 as [|w H IH|w op v H IH I H' IH'].
  - apply (lang_intro _ _ _ _ arith_num). repeat constructor.
  - apply (lang_intro _ _ _ _ arith_par). constructor. apply gen_nt; [exact IH | repeat constructor].
  - apply (lang_intro _ _ _ _ (arith_op op I)). apply gen_nt; [exact IH|]. constructor.
    rewrite <- (app_nil_r v). apply gen_nt; [exact IH' | constructor].
Qed.
Lemma arith_inv u : lang AP "expr" u -> u = ["num"] \/ (exists w, u = ("(" :: w ++ [")"])%list /\ lang AP "expr" w) \/
  exists w op v, In op ops /\ u = (w ++ op :: v)%list /\ lang AP "expr" w /\ lang AP "expr" v.
Proof.
  intro L. apply lang_inv in L as (rhs & Pr & G). apply arith_rhs in Pr as [_ [-> |[-> |(op & I & ->)]]].
  - apply gen_term_inv in G as (? & -> & G). apply gen_nil_inv in G as ->. auto.
  - right. left. apply gen_term_inv in G as (? & -> & G). apply gen_nt_inv in G as (w & ? & -> & L & G).
    apply gen_term_inv in G as (? & -> & G). apply gen_nil_inv in G as ->. eauto.
  - right. right. apply gen_nt_inv in G as (w & ? & -> & L & G). apply gen_term_inv in G as (? & -> & G).
    apply gen_nt_inv in G as (v & ? & -> & L' & G). apply gen_nil_inv in G as ->. exists w, op, v. rewrite app_nil_r. auto.
Qed.
Lemma arith_of n : forall u : list name, Datatypes.length u <= n -> lang AP "expr" u -> arith u.
Proof.
  induction n as [|n IH]; intros u Lu L; apply arith_inv in L as [-> |[(w & -> & L)|(w & op & v & I & -> & L & L')]].
  - simpl in Lu. nlia.
  - simpl in Lu. nlia.
  - rewrite app_length in Lu. simpl in Lu. nlia.
  - constructor.
  - constructor. apply IH; [|exact L]. simpl in Lu. rewrite app_length in Lu. simpl in Lu. nlia.
  - rewrite app_length in Lu. simpl in Lu. constructor; [|exact I|]; (apply IH; [nlia | assumption]).
Qed.
Lemma arith_lang u : lang AP "expr" u <-> arith u.
Proof. split; [apply (arith_of _ u (le_n _)) | apply arith_to]. Qed.
Lemma arith_nonempty u : arith u -> u <> [].
Proof. destruct 1; try discriminate. destruct w; discriminate. Qed.
Lemma arith_plain u : arith u -> (forall op, In op ops -> ~ In op u) -> exists n, u = nest "(" "num" ")" n.
Proof.
  induction 1 as [|w H IH|w op v H IH I H' IH']; intro N.
  - exists 0. reflexivity.
  - destruct IH as [n ->]; [intros op I J; apply (N op I); right; apply in_or_app; auto|]. exists (S n). rewrite nest_S. reflexivity.
  - destruct (N op I). apply in_or_app. right. left. reflexivity.
Qed.
Lemma nest_arith n : arith (nest "(" "num" ")" n).
Proof. induction n as [|n IH]; [constructor|]. rewrite nest_S. constructor. exact IH. Qed.
Lemma nest_plain n op : In op ops -> ~ In op (nest "(" "num" ")" n).
Proof.
  intros I J. unfold nest in J. apply in_app_or in J as [J|[J|J]].
  - apply repeat_spec in J as ->. no_op.
  - subst op. no_op.
  - apply repeat_spec in J as ->. no_op.
Qed.

Lemma gen_In {T NT} (P : NT -> list (Elem T NT) -> Prop) es u t : gen P es u -> In (Term t) es -> In t u.
Proof.
  induction 1 as [|t' es w G IH|A rhs es u w Pr G1 IH1 G2 IH2]; intros I.
  - destruct I.
  - destruct I as [[= ->]|I]; [left; reflexivity | right; auto].
  - destruct I as [I|I]; [discriminate|]. apply in_or_app. auto.
Qed.
Lemma seg_In {A} (w : list A) i k x : In x (seg w i k) -> In x w.
Proof.
  unfold seg. intro I. assert (In x (skipn i w)) as J.
  { rewrite <- (firstn_skipn (k - i) (skipn i w)). apply in_or_app. auto. }
  rewrite <- (firstn_skipn i w). apply in_or_app. auto.
Qed.
Lemma seg_length {A} (w : list A) i k : i <= k -> k <= Datatypes.length w -> Datatypes.length (seg w i k) = k - i.
Proof. intros L1 L2. unfold seg. rewrite firstn_length, skipn_length. nlia. Qed.

(** Inputs without operators: no production is at two places, and every piece is cut in one way. *)
Section Plain.
  Variable w : list name.
  Hypothesis plain : forall op, In op ops -> ~ In op w.
  Lemma seg_op op i k : In op ops -> ~ In op (seg w i k).
  Proof. intros I J. exact (plain op I (seg_In _ _ _ _ J)). Qed.
  Lemma seg_nest u i k a b : seg w i k = (a ++ u ++ b)%list -> lang AP "expr" u -> exists n, u = nest "(" "num" ")" n.
  Proof.
    intros E L. apply arith_lang in L. apply arith_plain; [exact L|]. intros op I J. apply (seg_op op i k I). rewrite E.
    apply in_or_app. right. apply in_or_app. auto.
  Qed.
  Lemma arith_no_two k : ~ two_places AP "expr" w k.
  Proof.
    intros (i & A & pre & mid & post & Pd & Pr & N & L1 & L2 & G1 & G2).
    apply arith_rhs in Pr as [-> [Pr |[Pr |(op & I & Pr)]]].
    - destruct (split_one _ _ _ _ Pr N) as (-> & -> & ->). apply gen_nil_inv in G1. rewrite G1 in G2.
      apply gen_term_inv in G2 as (? & E & _). discriminate.
    - destruct pre as [|e1 pre].
      { apply gen_nil_inv in G1. rewrite G1 in G2. destruct mid as [|e mid]; [congruence|]. simpl in Pr. injection Pr as -> _.
        simpl in G2. apply gen_term_inv in G2 as (? & E & _). discriminate. }
      simpl in Pr. injection Pr as -> Pr. apply gen_term_inv in G1 as (s & Es & G1). simpl in G2. rewrite Es in G2.
      apply gen_term_inv in G2 as (s' & E' & G2). injection E' as <-. destruct pre as [|e2 pre].
      { apply gen_nil_inv in G1 as ->. destruct mid as [|e mid]; [congruence|]. simpl in Pr. injection Pr as -> _.
        simpl in G2. apply gen_nt_inv in G2 as (x & y & E & L & _). symmetry in E. apply app_eq_nil in E as [-> _].
        apply arith_lang, arith_nonempty in L. congruence. }
      simpl in Pr. injection Pr as -> Pr. destruct (split_one _ _ _ _ Pr N) as (-> & -> & ->). simpl in G2.
      apply gen_nt_inv in G1 as (x & y & -> & L & G1). apply gen_nil_inv in G1 as ->. rewrite app_nil_r in *.
      apply gen_nt_inv in G2 as (x' & y & E & L' & G2). apply gen_term_inv in G2 as (? & -> & G2). apply gen_nil_inv in G2 as ->.
      destruct (seg_nest x i k ["("] []) as [n En]; [rewrite app_nil_r; exact Es | exact L|].
      destruct (seg_nest x' i k ["("] [")"]) as [m Em]; [rewrite Es, E; reflexivity | exact L'|].
      rewrite En, Em in E. symmetry in E. apply nest_prefix in E as [_ E]; discriminate.
    - destruct pre as [|e1 pre].
      { apply gen_nil_inv in G1. rewrite G1 in G2. destruct mid as [|e mid]; [congruence|]. simpl in Pr. injection Pr as -> _.
        simpl in G2. apply gen_nt_inv in G2 as (x & y & E & L & _). symmetry in E. apply app_eq_nil in E as [-> _].
        apply arith_lang, arith_nonempty in L. congruence. }
      apply (seg_op op i k I). apply (gen_In _ _ _ _ G2). simpl in Pr. injection Pr as -> Pr. simpl. right.
      destruct pre as [|e2 pre].
      + destruct mid as [|e mid]; [congruence|]. simpl in Pr. injection Pr as -> _. left. reflexivity.
      + simpl in Pr. injection Pr as -> _. left. reflexivity.
  Qed.
  Lemma cut_term t i j : i <= j -> j <= Datatypes.length w -> gen AP [Term t] (seg w i j) -> j = S i.
  Proof.
    intros L1 L2 G. apply gen_term_inv in G as (? & E & G). apply gen_nil_inv in G as ->.
    pose proof (seg_length w i j L1 L2) as K. rewrite E in K. simpl in K. nlia.
  Qed.
  Ltac cut H := inversion H; clear H; subst.
  Lemma arith_cuts : unique_cuts AP "expr" w.
  Proof.
    intros i A pre post k cs cs' Pd Pr C C'. apply arith_rhs in Pr as [-> [Pr |[Pr |(op & I & Pr)]]].
    - destruct pre as [|e1 pre]; [cut C; cut C'; reflexivity|]. simpl in Pr. injection Pr as -> Pr.
      apply app_eq_nil in Pr as [-> ->]. cut C. cut C'. match goal with H : cuts _ _ [] _ _ _ |- _ => cut H end.
      match goal with H : cuts _ _ [] _ _ _ |- _ => cut H end. reflexivity.
    - destruct pre as [|e1 pre]; [cut C; cut C'; reflexivity|]. simpl in Pr. injection Pr as -> Pr.
      inversion C as [|? ? ? j1 ? c1 A1 A2 A3 C1]; subst. inversion C' as [|? ? ? j2 ? c2 B1 B2 B3 C2]; subst.
      apply cut_term in A3 as ->; [|assumption..]. apply cut_term in B3 as ->; [|assumption..]. f_equal. clear C C'.
      destruct pre as [|e2 pre]; [cut C1; cut C2; reflexivity|]. simpl in Pr. injection Pr as -> Pr.
      inversion C1 as [|? ? ? j3 ? c3 D1 D2 D3 C3]; subst. inversion C2 as [|? ? ? j4 ? c4 F1 F2 F3 C4]; subst. clear C1 C2.
      destruct pre as [|e3 pre]; [cut C3; cut C4; reflexivity|]. simpl in Pr. injection Pr as -> Pr.
      apply app_eq_nil in Pr as [-> ->].
      inversion C3 as [|? ? ? j5 ? c5 I1 I2 I3 C5]; subst. inversion C4 as [|? ? ? j6 ? c6 J1 J2 J3 C6]; subst. clear C3 C4.
      cut C5. cut C6. apply cut_term in I3; [|assumption..]. apply cut_term in J3; [|assumption..]. f_equal. nlia.
    - destruct pre as [|e1 pre]; [cut C; cut C'; reflexivity|]. simpl in Pr. injection Pr as -> Pr.
      inversion C as [|? ? ? j1 ? c1 A1 A2 A3 C1]; subst. inversion C' as [|? ? ? j2 ? c2 B1 B2 B3 C2]; subst. clear C C'.
      destruct pre as [|e2 pre]; [cut C1; cut C2; reflexivity|]. simpl in Pr. injection Pr as -> Pr.
      inversion C1 as [|? ? ? j3 ? c3 D1 D2 D3 C3]; subst. destruct (seg_op op j1 j3 I).
      apply (gen_In _ _ _ _ D3). left. reflexivity.
  Qed.
End Plain.

(** Operators: some production is at two places. *)
Lemma seg_mid {A} (x u y : list A) : seg (x ++ u ++ y) (Datatypes.length x) (Datatypes.length x + Datatypes.length u) = u.
Proof.
  unfold seg. rewrite skipn_app, skipn_all, Nat.sub_diag. simpl. replace (_ + _ - _) with (Datatypes.length u) by nlia.
  rewrite firstn_app, Nat.sub_diag, firstn_all. simpl. apply app_nil_r.
Qed.
Lemma arith_two u : arith u -> forall op, In op ops -> In op u -> forall x y,
  predicted AP "expr" (x ++ u ++ y)%list (Datatypes.length x) "expr" ->
  exists k, k <= Datatypes.length (x ++ u ++ y)%list /\ two_places AP "expr" (x ++ u ++ y)%list k.
Proof.
  induction 1 as [|w H IH|w op v H IH I H' IH']; intros op' I' J x y Pd.
  - destruct J as [<-|[]]. no_op.
  - destruct J as [<-|J]; [no_op|]. apply in_app_or in J as [J|[<-|[]]]; [|no_op].
    specialize (IH op' I' J (x ++ ["("])%list (")" :: y)).
    assert (((x ++ ["("]) ++ w ++ ")" :: y)%list = (x ++ ("(" :: w ++ [")"]) ++ y)%list) as E
      by (rewrite <- !app_assoc; simpl; rewrite <- app_assoc; reflexivity).
    rewrite E in IH. apply IH. clear IH E.
    apply (predicted_next _ _ _ _ _ [Term "("] _ [Term ")"] _ Pd).
    + exact arith_par.
    + rewrite app_length. simpl. nlia.
    + rewrite !app_length. simpl. nlia.
    + match goal with |- gen _ _ ?s => assert (s = ["("]) as E end.
      { pose proof (seg_mid x ["("] (w ++ [")"] ++ y)%list) as K. rewrite app_length. simpl in *.
        rewrite <- app_assoc. exact K. }
      rewrite E. repeat constructor.
  - set (u := (w ++ op :: v)%list) in *. exists (Datatypes.length x + Datatypes.length u). split; [rewrite !app_length; nlia|].
    exists (Datatypes.length x), "expr", [ex], [Term op; ex], []. split; [exact Pd|]. split; [exact (arith_op op I)|].
    split; [discriminate|]. split; [nlia|]. split; [rewrite !app_length; nlia|]. rewrite !seg_mid. split.
    + apply arith_lang. subst u. constructor; assumption.
    + subst u. simpl. apply gen_nt; [apply arith_lang; exact H|]. constructor. rewrite <- (app_nil_r v).
      apply gen_nt; [apply arith_lang; exact H' | constructor].
Qed.

Lemma arith_dtree {V} (w : list (Token name V)) t : (forall op, In op ops -> ~ In op (map tk_kind w)) ->
  dtree g_arith (NonTerm "expr") w t <-> nest_tree "(" "num" ")" "Number" "Paren" w t.
Proof.
  intro N. split.
  - remember (Datatypes.length w) as n eqn:E. revert w t E N. induction n as [n IH] using lt_wf_ind. intros w t -> N D.
    apply dtree_inv in D as (k & rhs & cs & I & D & ->). tprods I; inv_d.
    + constructor.
    + constructor. eapply IH; [|reflexivity| |eassumption].
      * simpl. rewrite app_length. simpl. nlia.
      * intros op I J. apply (N op I). simpl. right. rewrite map_app. apply in_or_app. left. exact J.
    + destruct (N "+"); [simpl; auto | rewrite map_app; apply in_or_app; right; left; reflexivity].
    + destruct (N "-"); [simpl; auto | rewrite map_app; apply in_or_app; right; left; reflexivity].
    + destruct (N "*"); [simpl; auto | rewrite map_app; apply in_or_app; right; left; reflexivity].
    + destruct (N "/"); [simpl; auto 6 | rewrite map_app; apply in_or_app; right; left; reflexivity].
  - clear N. induction 1 as [v|a b w t H IH].
    + apply (dtree_intro _ _ _ [Term "num"]); [is_tprod|]. apply dtrees_term. constructor.
    + apply (dtree_intro _ _ _ [Term "("; NonTerm "expr"; Term ")"]); [is_tprod|]. apply dtrees_term.
      constructor; [exact IH|]. apply dtrees_term. constructor.
Qed.
