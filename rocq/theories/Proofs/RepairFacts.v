(** The programs that correct an input give nearest words. *)
From Coq Require Import String List Arith NArith Lia Bool.
From Verif.Model Require Import Ord BTree Outcome Utils Grammar StartGrammar Tokens Tree State Earley.
From Verif.Spec Require Import Reach Cfg BuildSpec NullSpec TreeSpec EarleySpec WalkSpec LL1Spec BlameSpec RepairSpec.
From Verif.Proofs Require Import OrdFacts BTreeFacts LoopFacts GrammarFacts StartFacts BuildMore CfgFacts TreeFacts TreeHist
  EarleyItems EarleyRun EarleyParse EarleyMain TreeLink EarleyMore PrefixFacts ExampleFacts Overlaps ViableRun WalkFacts BlameFacts.
From Verif.Properties Require Import EarleyProps.
Import ListNotations.

Section Near.
  Context {A : Type}.
  Lemma near_more n m (u v : list A) : near n u v -> n <= m -> near m u v.
  Proof.
    intro X. revert m. induction X; intros m L; try (destruct m as [|m]; [lia|]); constructor; apply IHX; lia.
  Qed.
  Lemma near_refl n (u : list A) : near n u u.
  Proof. induction u; constructor; assumption. Qed.
  Lemma near_trans a b (x y z : list A) : near a x y -> near b y z -> near (a + b) x z.
  Proof.
    intro X. revert b z. induction X as [n|n c x y X IH|n c x y X IH|n d x y X IH|n c d x y X IH]; intros b z Y.
    - apply (near_more b); [exact Y|lia].
    - remember (c :: y) as cy eqn:E. induction Y as [m|m e y' z Y IY|m e y' z Y IY|m e y' z Y IY|m e f y' z Y IY]; try discriminate.
      + injection E as -> ->. apply near_keep. apply IH. exact Y.
      + injection E as -> ->. rewrite Nat.add_succ_r. apply near_del. apply IH. exact Y.
      + rewrite Nat.add_succ_r. apply near_ins. apply IY. exact E.
      + injection E as -> ->. rewrite Nat.add_succ_r. apply near_sub. apply IH. exact Y.
    - cbn. apply near_del. apply IH. exact Y.
    - remember (d :: y) as cy eqn:E. induction Y as [m|m e y' z Y IY|m e y' z Y IY|m e y' z Y IY|m e f y' z Y IY]; try discriminate.
      + injection E as -> ->. cbn. apply near_ins. apply IH. exact Y.
      + injection E as -> ->. apply (near_more (n + m)); [apply IH; exact Y|lia].
      + rewrite Nat.add_succ_r. apply near_ins. apply IY. exact E.
      + injection E as -> ->. cbn. apply near_ins. apply (near_more (n + m)); [apply IH; exact Y|lia].
    - remember (d :: y) as cy eqn:E. induction Y as [m|m e y' z Y IY|m e y' z Y IY|m e y' z Y IY|m e f y' z Y IY]; try discriminate.
      + injection E as -> ->. cbn. apply near_sub. apply IH. exact Y.
      + injection E as -> ->. cbn. apply near_del. apply (near_more (n + m)); [apply IH; exact Y|lia].
      + rewrite Nat.add_succ_r. apply near_ins. apply IY. exact E.
      + injection E as -> ->. cbn. apply near_sub. apply (near_more (n + m)); [apply IH; exact Y|lia].
  Qed.
  Lemma near_all (u v : list A) : near (length u + length v) u v.
  Proof.
    induction u as [|x u IH]; cbn.
    - induction v as [|y v IH]; cbn; constructor; exact IH.
    - apply near_del. exact IH.
  Qed.
  Lemma near_0 (u v : list A) : near 0 u v -> u = v.
  Proof. remember 0 as n eqn:E. induction 1; try discriminate; [reflexivity|f_equal; auto]. Qed.
End Near.
Lemma near_map {A B} (f : A -> B) n u v : near n u v -> near n (map f u) (map f v).
Proof. induction 1; cbn; constructor; assumption. Qed.

Section Edits.
  Context {T NT AK AV V : Type} `{OrdEq T} `{OrdEq NT} `{OrdEq AK} `{OrdEq V}.
  Variable g : Grammar T NT AK AV.
  Variable value : T -> V.
  Local Notation token := (Token T V).
  Local Notation ed := (edits g value).

  Lemma edits_near (w u : list token) : In u (ed w) -> near 1 w u.
  Proof.
    revert u. induction w as [|x w IH]; intros u I; cbn [edits] in I; apply in_app_or in I; destruct I as [I|I].
    - apply in_map_iff in I as (k & <- & _). apply near_ins. apply near_refl.
    - destruct I.
    - apply in_map_iff in I as (k & <- & _). apply near_ins. apply near_refl.
    - destruct I as [<-|I]; [apply near_del; apply near_refl|]. apply in_app_or in I. destruct I as [I|I].
      + apply in_map_iff in I as (k & <- & _). apply near_sub. apply near_refl.
      + apply in_map_iff in I as (u' & <- & I). apply near_keep. exact (IH u' I).
  Qed.
  Lemma edit_ins (w : list token) k : In k (terminals g) -> In (Build_Token k (value k) :: w) (ed w).
  Proof. intro I. destruct w; cbn [edits]; apply in_or_app; left; apply in_map_iff; exists k; auto. Qed.
  Lemma edit_del x (w : list token) : In w (ed (x :: w)).
  Proof. cbn [edits]. apply in_or_app. right. left. reflexivity. Qed.
  Lemma edit_sub x (w : list token) k : In k (terminals g) -> In (Build_Token k (value k) :: w) (ed (x :: w)).
  Proof. intro I. cbn [edits]. apply in_or_app. right. right. apply in_or_app. left. apply in_map_iff. exists k. auto. Qed.
  Lemma edit_cons x (w u : list token) : In u (ed w) -> In (x :: u) (ed (x :: w)).
  Proof. intro I. cbn [edits]. apply in_or_app. right. right. apply in_or_app. right. apply in_map. exact I. Qed.

  Inductive path : nat -> list token -> list token -> Prop :=
  | path_0 w : path 0 w w
  | path_S n w u v : In u (ed w) -> path n u v -> path (S n) w v.
  Lemma path_cons n x w u : path n w u -> path n (x :: w) (x :: u).
  Proof. induction 1 as [w|n w u v I P IH]; [constructor|]. apply (path_S n _ (x :: u)); [apply edit_cons; exact I|exact IH]. Qed.
  Lemma path_near n w u : path n w u -> near n w u.
  Proof. induction 1 as [w|n w u v I P IH]; [apply near_refl|]. apply (near_trans 1 n w u v); [apply edits_near; exact I|exact IH]. Qed.
  (** Few edits to a sequence of the grammar's tokens are few steps. *)
  Lemma near_path n : forall (w : list token) v, near n (map tk_kind w) v -> (forall k, In k v -> In k (terminals g)) ->
    exists m u, m <= n /\ path m w u /\ map tk_kind u = v.
  Proof.
    intros w v X. remember (map tk_kind w) as kw eqn:E. revert w E. induction X as [n|n x u v X IH|n x u v X IH|n x u v X IH|n x y u v X IH]; intros w E Tm.
    - destruct w; [|discriminate]. exists 0, []. split; [lia|]. split; [constructor|reflexivity].
    - destruct w as [|t w]; [discriminate|]. injection E as -> ->.
      destruct (IH w eq_refl) as (m & u' & L & P & Q); [intros k I; apply Tm; right; exact I|].
      exists m, (t :: u'). split; [exact L|]. split; [apply path_cons; exact P|cbn; congruence].
    - destruct w as [|t w]; [discriminate|]. injection E as -> ->.
      destruct (IH w eq_refl Tm) as (m & u' & L & P & Q).
      exists (S m), u'. split; [lia|]. split; [apply (path_S m _ w); [apply edit_del|exact P]|exact Q].
    - destruct (IH w E) as (m & u' & L & P & Q); [intros k I; apply Tm; right; exact I|].
      exists (S m), (Build_Token x (value x) :: u'). split; [lia|]. split; [|cbn; congruence].
      apply (path_S m _ (Build_Token x (value x) :: w)); [apply edit_ins; apply Tm; left; reflexivity|apply path_cons; exact P].
    - destruct w as [|t w]; [discriminate|]. injection E as -> ->.
      destruct (IH w eq_refl) as (m & u' & L & P & Q); [intros k I; apply Tm; right; exact I|].
      exists (S m), (Build_Token y (value y) :: u'). split; [lia|]. split; [|cbn; congruence].
      apply (path_S m _ (Build_Token y (value y) :: w)); [apply edit_sub; apply Tm; left; reflexivity|apply path_cons; exact P].
  Qed.
  (** The front after [n] steps. *)
  Definition reached n (w : list token) (front : list (list token)) : Prop := forall u, In u front <-> path n w u.
  Lemma path_last n w u v : path n w u -> In v (ed u) -> path (S n) w v.
  Proof. induction 1 as [w|n w u v' I P IH]; intro J; [apply (path_S 0 w v); [exact J|constructor]|]. apply (path_S _ w u); [exact I|exact (IH J)]. Qed.
  Lemma path_split n w v : path (S n) w v -> exists u, path n w u /\ In v (ed u).
  Proof.
    revert w v. induction n as [|n IH]; intros w v X; inversion X as [|n' w' u v' I P]; subst.
    - inversion P; subst. exists w. split; [constructor|exact I].
    - destruct (IH _ _ P) as (u' & P' & J). exists u'. split; [apply (path_S n w u); assumption|exact J].
  Qed.
  Lemma reached_0 w : reached 0 w [w].
  Proof. intro u. split; [intros [<-|[]]; constructor|]. intro X. inversion X. left. reflexivity. Qed.
  Lemma reached_S n w front : reached n w front -> reached (S n) w (flat_map ed front).
  Proof.
    intros R v. rewrite in_flat_map. split.
    - intros (u & I & J). apply (path_last n w u v); [apply R; exact I|exact J].
    - intro X. destruct (path_split n w v X) as (u & P & J). exists u. split; [apply R; exact P|exact J].
  Qed.
End Edits.

Section Facts.
  Context {T NT AK AV V : Type} `{OrdEq T} `{OrdEq NT} `{OrdEq AK} `{OrdEq V}.
  Variable g : Grammar T NT AK AV.
  Variable sg : StartGrammar T NT AK AV.
  Variable lay : layout (StartNonTerminal NT).
  Hypothesis Bg : built g.
  Hypothesis Wr : runs_to (wrap_grammar_with_start g) (Ret (Ok sg)).
  Hypothesis Lay : lay_inj sg lay.
  Local Notation P := (rhs_of g).
  Local Notation S0 := (start_nt g).
  Local Notation token := (Token T V).
  Hypothesis Pd : productive P S0.
  Variable value : T -> V.
  Local Notation path := (path g value).
  Local Notation reached := (reached g value).

  (** For every grammar, only words are given. *)
  Lemma words_sound (front : list (list token)) : exists us, runs_to (fun fuel => words lay sg fuel front) (Ret us) /\
    forall u, In u us -> In u front /\ lang P S0 (map tk_kind u).
  Proof.
    destruct (each_runs (fun fuel u => v <- attempt lay sg fuel u ;; Ret (u, v))
      (fun u uv => fst uv = u /\ (is_word (snd uv) = true -> lang P S0 (map tk_kind u))) front) as (vs & Rs & Fs).
    - intros u _. destruct (attempt_spec g sg lay Bg Wr Lay Pd u) as (v & Rv & Pv). exists (u, v). split; [|split; [reflexivity|]].
      + exact (runs_to_bind _ (fun _ v => Ret (u, v)) _ _ Rv (runs_to_ret _)).
      + cbv zeta in Pv. cbn [snd]. destruct v; cbn [is_word]; intro F; try discriminate. exact (proj1 Pv).
    - exists (map fst (filter (fun uv => is_word (snd uv)) vs)). split.
      + exact (runs_to_bind _ (fun _ vs => Ret (map fst (filter (fun uv => is_word (snd uv)) vs))) _ _ Rs (runs_to_ret _)).
      + clear Rs. induction Fs as [|u [u' v] l vs [E Pv] Fs IH]; cbn [filter map]; intros x I; [destruct I|]. cbn [fst snd] in *. subst u'.
        destruct (is_word v).
        * destruct I as [<-|I]; [split; [left; reflexivity|exact (Pv eq_refl)]|]. destruct (IH x I) as [J L]. split; [right; exact J|exact L].
        * destruct (IH x I) as [J L]. split; [right; exact J|exact L].
  Qed.
  Lemma corrections_sound : forall n m (w : list token) front, reached m w front ->
    exists us, runs_to (fun fuel => corrections lay sg g value n fuel front) (Ret us) /\
      forall u, In u us -> near (n + m) w u /\ lang P S0 (map tk_kind u).
  Proof.
    induction n as [|n IH]; intros m w front F; destruct (words_sound front) as (us & Rs & Ps).
    - exists us. split; [exact (runs_to_bind _ (fun _ us => Ret us) _ _ Rs (runs_to_ret _))|]. intros u I. destruct (Ps u I) as [J L].
      split; [apply (path_near g value); apply F; exact J|exact L].
    - destruct (IH (S m) w _ (reached_S g value m w front F)) as (us' & Rs' & Ps'). exists (us ++ us'). split.
      + apply (runs_to_bind _ (fun fuel us => us' <- corrections lay sg g value n fuel (flat_map (edits g value) front) ;; Ret (us ++ us')) _ _ Rs).
        exact (runs_to_bind _ (fun _ us' => Ret (us ++ us')) _ _ Rs' (runs_to_ret _)).
      + intros u I. apply in_app_or in I. destruct I as [I|I].
        * destruct (Ps u I) as [J L]. split; [|exact L]. apply (near_more m); [apply (path_near g value); apply F; exact J|lia].
        * destruct (Ps' u I) as [J L]. split; [|exact L]. replace (S n + m) with (n + S m) by lia. exact J.
  Qed.

  Section Clear.
    Hypothesis N : ~ lang P S0 [].
    Hypothesis O : no_overlap P S0.

    Lemma words_spec (front : list (list token)) : exists us, runs_to (fun fuel => words lay sg fuel front) (Ret us) /\
      forall u, In u us <-> In u front /\ lang P S0 (map tk_kind u).
    Proof.
      destruct (all_attempts g sg lay Bg Wr Lay Pd N O (fun u => u) front) as (vs & Rs & W & _).
      exists (map fst (filter (fun uv => is_word (snd uv)) vs)). split; [|exact W].
      exact (runs_to_bind _ (fun _ vs => Ret (map fst (filter (fun uv => is_word (snd uv)) vs))) _ _ Rs (runs_to_ret _)).
    Qed.
    Lemma lang_all v : lang P S0 v -> forall k, In k v -> In k (terminals g).
    Proof. intros L k. exact (lang_terminals g S0 v k L). Qed.

    Lemma correct_spec (w : list token) : forall d n front, reached n w front ->
      (forall m v, m < n -> near m (map tk_kind w) v -> ~ lang P S0 v) ->
      (exists u, path (n + d) w u /\ lang P S0 (map tk_kind u)) ->
      exists u m fuel0, lang P S0 (map tk_kind u) /\ near m w u /\
        (forall m' v, near m' (map tk_kind w) v -> lang P S0 v -> m <= m') /\
        forall steps fuel, d < steps -> fuel0 <= fuel -> correct lay sg g value steps fuel front = Ret u.
    Proof.
      assert (Hit : forall n front u0 us d, reached n w front -> (forall m v, m < n -> near m (map tk_kind w) v -> ~ lang P S0 v) ->
        runs_to (fun fuel => words lay sg fuel front) (Ret (u0 :: us)) -> (forall u, In u (u0 :: us) <-> In u front /\ lang P S0 (map tk_kind u)) ->
        exists u m fuel0, lang P S0 (map tk_kind u) /\ near m w u /\ (forall m' v, near m' (map tk_kind w) v -> lang P S0 v -> m <= m') /\
        forall steps fuel, d < steps -> fuel0 <= fuel -> correct lay sg g value steps fuel front = Ret u).
      { intros n front u0 us d F Mn [_ (fuel0 & Rs)] Ps. destruct (proj1 (Ps u0) (or_introl eq_refl)) as [I0 L0].
        exists u0, n, fuel0. split; [exact L0|]. split; [apply (path_near g value); apply F; exact I0|]. split.
        - intros m' v Nv Lv. destruct (Nat.le_gt_cases n m') as [X|X]; [exact X|destruct (Mn m' v X Nv Lv)].
        - intros [|steps] fuel Ls Lf; [lia|]. cbn [correct]. rewrite (Rs fuel Lf). reflexivity. }
      induction d as [|d IH]; intros n front F Mn (u & Pu & L); destruct (words_spec front) as ([|u0 us] & Rs & Ps);
        try exact (Hit n front u0 us _ F Mn Rs Ps).
      - rewrite Nat.add_0_r in Pu. apply F in Pu. destruct (proj2 (Ps u) (conj Pu L)).
      - destruct (IH (S n) _ (reached_S g value n w front F)) as (u1 & m1 & fuel1 & L1 & N1 & M1 & R1).
        + intros m v Lm Nv Lv. destruct (near_path g value m w v Nv (lang_all v Lv)) as (m' & u' & Lm' & P' & E).
          destruct (Nat.eq_dec m' n) as [->|Ne].
          * destruct (proj2 (Ps u')). split; [apply F; exact P'|rewrite E; exact Lv].
          * apply (Mn m' v); [lia| |exact Lv]. rewrite <- E. apply near_map. apply (path_near g value). exact P'.
        + exists u. split; [|exact L]. replace (S n + d) with (n + S d) by lia. exact Pu.
        + destruct Rs as [_ (fuel0 & Rs)]. exists u1, m1, (fuel0 + fuel1). split; [exact L1|]. split; [exact N1|]. split; [exact M1|].
          intros [|steps] fuel Ls Lf; [lia|]. cbn [correct]. rewrite (Rs fuel) by lia. cbn [obind]. apply R1; lia.
    Qed.
    Lemma correct_total (w : list token) : exists u m, runs_to (fun fuel => correct lay sg g value fuel fuel [w]) (Ret u) /\
      lang P S0 (map tk_kind u) /\ near m w u /\ forall m' v, near m' (map tk_kind w) v -> lang P S0 v -> m <= m'.
    Proof.
      destruct (goes_nil g Pd) as (v & Lv). cbn in Lv.
      destruct (near_path g value _ w v (near_all _ _) (lang_all v Lv)) as (d & u & _ & P' & E).
      destruct (correct_spec w d 0 [w] (reached_0 g value w)) as (u1 & m1 & fuel1 & L1 & N1 & M1 & R1); [intros; lia| |].
      - exists u. split; [exact P'|rewrite E; exact Lv].
      - exists u1, m1. split; [|auto]. apply (runs_to_intro _ _ (S d + fuel1)); [discriminate|]. intros fuel Lf. apply R1; lia.
    Qed.
    Lemma corrections_spec : forall n m (w : list token) front, reached m w front ->
      exists us, runs_to (fun fuel => corrections lay sg g value n fuel front) (Ret us) /\
        (forall u, In u us -> near (n + m) w u /\ lang P S0 (map tk_kind u)) /\
        forall k u, m <= k <= n + m -> path k w u -> lang P S0 (map tk_kind u) -> In u us.
    Proof.
      induction n as [|n IH]; intros m w front F; destruct (words_spec front) as (us & Rs & Ps).
      - exists us. split; [exact (runs_to_bind _ (fun _ us => Ret us) _ _ Rs (runs_to_ret _))|]. split.
        + intros u I. apply Ps in I. destruct I as [J L]. split; [apply (path_near g value); apply F; exact J|exact L].
        + intros k u Lk P' L. apply Ps. split; [|exact L]. apply F. replace m with k by lia. exact P'.
      - destruct (IH (S m) w _ (reached_S g value m w front F)) as (us' & Rs' & Ps' & Cs). exists (us ++ us'). split; [|split].
        + apply (runs_to_bind _ (fun fuel us => us' <- corrections lay sg g value n fuel (flat_map (edits g value) front) ;; Ret (us ++ us')) _ _ Rs).
          exact (runs_to_bind _ (fun _ us' => Ret (us ++ us')) _ _ Rs' (runs_to_ret _)).
        + intros u I. apply in_app_or in I. destruct I as [I|I].
          * apply Ps in I. destruct I as [J L]. split; [|exact L]. apply (near_more m); [apply (path_near g value); apply F; exact J|lia].
          * destruct (Ps' u I) as [J L]. split; [|exact L]. replace (S n + m) with (n + S m) by lia. exact J.
        + intros k u Lk P' L. apply in_or_app. destruct (Nat.eq_dec k m) as [->|Ne].
          * left. apply Ps. split; [apply F; exact P'|exact L].
          * right. apply (Cs k u); [lia|exact P'|exact L].
    Qed.
  End Clear.
End Facts.
