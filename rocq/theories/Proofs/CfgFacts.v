(** Facts about [Spec/Cfg.v]: sentential forms, FIRST, FOLLOW. *)
From Coq Require Import List Arith Lia.
From Verif.Model Require Import Grammar.
From Verif.Spec Require Import Reach Cfg.
From Verif.Proofs Require Import UtilsFacts NullableFacts.
Import ListNotations.

Section Forms.
  Context {T NT : Type}.
  Variable P : NT -> list (Elem T NT) -> Prop.

  Lemma df_refl es : derives_form P es es.
  Proof. constructor. Qed.
  Lemma df_trans a b c : derives_form P a b -> derives_form P b c -> derives_form P a c.
  Proof. apply star_trans. Qed.
  Lemma df_step a b : sstep P a b -> derives_form P a b.
  Proof. apply star_one. Qed.
  Lemma sstep_ctx a es es' b : sstep P es es' -> sstep P (a ++ es ++ b) (a ++ es' ++ b).
  Proof.
    intros [pre A rhs post Pr].
    replace (a ++ (pre ++ NonTerm A :: post) ++ b) with ((a ++ pre) ++ NonTerm A :: (post ++ b))
      by (rewrite <- !app_assoc; reflexivity).
    replace (a ++ (pre ++ rhs ++ post) ++ b) with ((a ++ pre) ++ rhs ++ (post ++ b))
      by (rewrite <- !app_assoc; reflexivity).
    constructor. exact Pr.
  Qed.
  Lemma df_ctx a es es' b : derives_form P es es' -> derives_form P (a ++ es ++ b) (a ++ es' ++ b).
  Proof.
    intro D. induction D as [|es1 es2 _ IH S]; [constructor|].
    econstructor; [exact IH|apply sstep_ctx; exact S].
  Qed.
  Lemma df_app a a' b b' : derives_form P a a' -> derives_form P b b' -> derives_form P (a ++ b) (a' ++ b').
  Proof.
    intros D1 D2. apply (df_trans _ (a' ++ b)).
    - exact (df_ctx [] a a' b D1).
    - pose proof (df_ctx a' b b' [] D2) as X. rewrite !app_nil_r in X. exact X.
  Qed.
  Lemma df_rule A rhs : P A rhs -> derives_form P [NonTerm A] rhs.
  Proof.
    intro Pr. apply df_step. pose proof (sstep_intro P [] A rhs [] Pr) as S. simpl in S.
    rewrite app_nil_r in S. exact S.
  Qed.

  Lemma gen_derives es w : gen P es w -> derives_form P es (map Term w).
  Proof.
    intro G. induction G as [|t es w _ IH|A rhs es u w Pr _ IH1 _ IH2].
    - constructor.
    - exact (df_app [Term t] [Term t] _ _ (df_refl _) IH).
    - rewrite map_app. apply (df_app [NonTerm A]); [|exact IH2].
      exact (df_trans _ _ _ (df_rule A rhs Pr) IH1).
  Qed.

  Lemma gen_terms w : gen P (map Term w) w.
  Proof. induction w as [|t w IH]; simpl; constructor. exact IH. Qed.

  Lemma sstep_gen es es' w : sstep P es es' -> gen P es' w -> gen P es w.
  Proof.
    intros [pre A rhs post Pr] G. apply gen_app_inv in G. destruct G as (w1 & w2 & -> & G1 & G2).
    apply gen_app_inv in G2. destruct G2 as (w2' & w3 & -> & G2 & G3).
    apply gen_app; [exact G1|]. econstructor; eassumption.
  Qed.
  Lemma derives_gen es es' w : derives_form P es es' -> gen P es' w -> gen P es w.
  Proof.
    intros D G. revert es D. apply star_ind_l; [exact G|]. intros a b S _ Gb. exact (sstep_gen _ _ _ S Gb).
  Qed.
  (** [gen] is derivability by rewriting. *)
  Lemma gen_iff_derives es w : gen P es w <-> derives_form P es (map Term w).
  Proof.
    split; [apply gen_derives|]. intro D. exact (derives_gen _ _ _ D (gen_terms w)).
  Qed.

  (** FIRST by rules. *)
  Inductive firstR : NT -> T -> Prop :=
  | firstR_t A pre t post : P A (pre ++ Term t :: post) -> gen P pre [] -> firstR A t
  | firstR_nt A pre B post t : P A (pre ++ NonTerm B :: post) -> gen P pre [] -> firstR B t -> firstR A t.

  Definition firstE (e : Elem T NT) (t : T) : Prop :=
    match e with Term t' => t' = t | NonTerm B => firstR B t end.
  Definition firstS (es : list (Elem T NT)) (t : T) : Prop :=
    exists pre e post, es = pre ++ e :: post /\ gen P pre [] /\ firstE e t.

  Lemma firstR_iff A t : firstR A t <-> exists rhs, P A rhs /\ firstS rhs t.
  Proof.
    split.
    - intros [A' pre t' post Pr G|A' pre B post t' Pr G F].
      + eexists. split; [exact Pr|]. exists pre, (Term t'), post. split; [reflexivity|]. split; [exact G|reflexivity].
      + eexists. split; [exact Pr|]. exists pre, (NonTerm B), post. auto.
    - intros (rhs & Pr & pre & e & post & -> & G & F). destruct e as [t'|B]; simpl in F.
      + subst t'. econstructor; eassumption.
      + eapply firstR_nt; eassumption.
  Qed.
  Lemma firstS_nil t : ~ firstS [] t.
  Proof. intros (pre & e & post & E & _). destruct pre; discriminate. Qed.
  Lemma firstS_cons e es t : firstS (e :: es) t <-> firstE e t \/ (gen P [e] [] /\ firstS es t).
  Proof.
    split.
    - intros (pre & e' & post & E & G & F). destruct pre as [|x pre]; simpl in E; injection E as -> ->.
      + left. exact F.
      + right. apply (gen_app_inv P [x] pre) in G. destruct G as (w1 & w2 & E & G1 & G2).
        symmetry in E. apply app_eq_nil in E. destruct E as [-> ->].
        split; [exact G1|]. exists pre, e', post. auto.
    - intros [F|(G & pre & e' & post & -> & G' & F)].
      + exists [], e, es. split; [reflexivity|]. split; [constructor|exact F].
      + exists (e :: pre), e', post. split; [reflexivity|]. split; [|exact F].
        exact (gen_app P [e] pre [] [] G G').
  Qed.
  Lemma firstS_app a b t : firstS (a ++ b) t <-> firstS a t \/ (gen P a [] /\ firstS b t).
  Proof.
    induction a as [|e a IH]; simpl.
    - split; [intro F; right; split; [constructor|exact F]|]. intros [F|[_ F]]; [|exact F].
      destruct (firstS_nil _ F).
    - rewrite !firstS_cons, IH. split.
      + intros [F|[G [F|[G' F]]]]; auto. right. split; [|exact F]. exact (gen_app P [e] a [] [] G G').
      + intros [[F|[G F]]|[G F]]; auto.
        apply (gen_app_inv P [e] a) in G. destruct G as (w1 & w2 & E & G1 & G2).
        symmetry in E. apply app_eq_nil in E. destruct E as [-> ->]. auto.
  Qed.
  Lemma firstS_single e t : firstS [e] t <-> firstE e t.
  Proof.
    rewrite firstS_cons. split; [|auto]. intros [F|[_ F]]; [exact F|]. destruct (firstS_nil _ F).
  Qed.

  Lemma firstS_sstep es es' t : sstep P es es' -> firstS es' t -> firstS es t.
  Proof.
    intros [pre A rhs post Pr] F. rewrite firstS_app in F. rewrite firstS_app.
    destruct F as [F|[G F]]; [auto|]. right. split; [exact G|].
    rewrite firstS_app in F. rewrite firstS_cons. destruct F as [F|[G' F]].
    - left. simpl. apply firstR_iff. exists rhs. auto.
    - right. split; [|exact F]. change (lang P A []). apply lang_iff. exists rhs. auto.
  Qed.
  Lemma firstS_derives es es' t : derives_form P es es' -> firstS es' t -> firstS es t.
  Proof.
    intros D F. revert es D. apply star_ind_l; [exact F|]. intros a b S _ Gb. exact (firstS_sstep _ _ _ S Gb).
  Qed.

  Lemma firstR_sound A t : firstR A t -> exists rest, derives_form P [NonTerm A] (Term t :: rest).
  Proof.
    intro F. induction F as [A pre t post Pr G|A pre B post t Pr G _ (rest & IH)].
    - exists post. apply (df_trans _ _ _ (df_rule _ _ Pr)).
      exact (df_app pre [] _ _ (gen_derives _ _ G) (df_refl (Term t :: post))).
    - exists (rest ++ post). apply (df_trans _ _ _ (df_rule _ _ Pr)).
      apply (df_app pre [] _ _ (gen_derives _ _ G)).
      exact (df_app [NonTerm B] (Term t :: rest) post post IH (df_refl post)).
  Qed.
  Theorem first_of_iff A t : first_of P A t <-> firstR A t.
  Proof.
    split; [|apply firstR_sound]. intros (rest & D). apply (firstS_single (NonTerm A)).
    apply (firstS_derives _ _ _ D). apply firstS_cons. left. reflexivity.
  Qed.
  Lemma firstS_sound es t : firstS es t -> exists rest, derives_form P es (Term t :: rest).
  Proof.
    intros (pre & e & post & -> & G & F).
    assert (E : exists r, derives_form P [e] (Term t :: r)).
    { destruct e as [t'|B]; simpl in F; [subst; exists []; apply df_refl|apply firstR_sound; exact F]. }
    destruct E as (r & E). exists (r ++ post).
    apply (df_app pre [] _ _ (gen_derives _ _ G)).
    exact (df_app [e] (Term t :: r) post post E (df_refl post)).
  Qed.

  (** FOLLOW restricted to adjacent symbols and last positions (what the pass computes). *)
  Inductive folR : NT -> T -> Prop :=
  | folR_adj H pre A e post t : P H (pre ++ NonTerm A :: e :: post) -> firstE e t -> folR A t
  | folR_last H pre A t : P H (pre ++ [NonTerm A]) -> folR H t -> folR A t.

  Lemma folR_sound A t : folR A t -> exists H rhs, P H rhs /\ follow_from P H A t.
  Proof.
    intro F. induction F as [H pre A e post t Pr F|H pre A t Pr _ (H0 & rhs & Pr0 & pre0 & post0 & D)].
    - exists H. eexists. split; [exact Pr|].
      destruct (proj2 (firstS_single e t) F) as (p1 & e1 & p2 & Es & G & Fe).
      destruct (firstS_sound [e] t (ex_intro _ p1 (ex_intro _ e1 (ex_intro _ p2 (conj Es (conj G Fe)))))) as (rest & D).
      exists pre, (rest ++ post). apply (df_trans _ _ _ (df_rule _ _ Pr)).
      apply (df_app pre pre); [apply df_refl|].
      apply (df_app [NonTerm A] [NonTerm A] (e :: post)); [apply df_refl|].
      exact (df_app [e] (Term t :: rest) post post D (df_refl post)).
    - exists H0, rhs. split; [exact Pr0|]. exists (pre0 ++ pre), post0. apply (df_trans _ _ _ D).
      rewrite <- app_assoc. apply (df_app pre0 pre0); [apply df_refl|].
      replace (pre ++ NonTerm A :: Term t :: post0) with ((pre ++ [NonTerm A]) ++ Term t :: post0)
        by (rewrite <- app_assoc; reflexivity).
      exact (df_app [NonTerm H] (pre ++ [NonTerm A]) _ _ (df_rule _ _ Pr) (df_refl _)).
  Qed.

  Section NullFree.
    Hypothesis NF : forall A, ~ lang P A [].
    Lemma nullfree_gen es : gen P es [] -> es = [].
    Proof.
      destruct es as [|e es]; [reflexivity|]. intro G.
      destruct (proj1 (gen_empty P _) G e (or_introl eq_refl)) as (A & -> & L). destruct (NF A L).
    Qed.
    Lemma nullfree_first es t : firstS es t -> exists e es', es = e :: es' /\ firstE e t.
    Proof.
      intros (pre & e & post & -> & G & F). apply nullfree_gen in G. subst pre. exists e, post. auto.
    Qed.

    (** [A] is the last symbol of a right-most chain from [X]. *)
    Definition lastR : NT -> NT -> Prop := star (fun X Y => exists pre, P X (pre ++ [NonTerm Y])).
    Definition folS (es : list (Elem T NT)) (A : NT) (t : T) : Prop :=
      folR A t \/ exists X pre post, es = pre ++ NonTerm X :: post /\ firstS post t /\ lastR X A.

    Lemma folR_chain X A t : lastR X A -> folR X t -> folR A t.
    Proof.
      intros L F. induction L as [|Y A _ IH (pre & Pr)]; [auto|]. eapply folR_last; eassumption.
    Qed.

    Lemma app_cons_cases {B} (a b : list B) x c d : a ++ b = c ++ x :: d ->
      (exists m, a = c ++ x :: m /\ d = m ++ b) \/ (exists m, c = a ++ m /\ b = m ++ x :: d).
    Proof.
      revert c. induction a as [|y a IH]; simpl; intros c E.
      - right. exists c. auto.
      - destruct c as [|z c]; simpl in E; injection E as -> E.
        + left. exists a. auto.
        + destruct (IH c E) as [(m & -> & ->)|(m & -> & ->)]; [left|right]; exists m; auto.
    Qed.

    Lemma folS_sstep es es' A t : sstep P es es' -> folS es' A t -> folS es A t.
    Proof.
      intros [pre X rhs post Pr] [F|(Y & p & q & E & F & L)]; [left; exact F|].
      destruct (app_cons_cases _ _ _ _ _ E) as [(m & -> & ->)|(m & -> & E2)].
      - (* Y in pre *) right. exists Y, p, (m ++ NonTerm X :: post). split; [rewrite <- app_assoc; reflexivity|].
        split; [|exact L]. apply (firstS_sstep _ (m ++ rhs ++ post)); [constructor; exact Pr|exact F].
      - destruct (app_cons_cases _ _ _ _ _ E2) as [(m2 & -> & ->)|(m2 & -> & ->)].
        + (* Y in rhs *) rewrite firstS_app in F. destruct F as [F|[G F]].
          * left. apply (folR_chain Y); [exact L|]. destruct (nullfree_first _ _ F) as (e & m3 & -> & Fe).
            eapply folR_adj; eassumption.
          * right. exists X, pre, post. split; [reflexivity|]. split; [exact F|].
            apply nullfree_gen in G. subst m2. exact (star_left _ X Y A (ex_intro _ m Pr) L).
        + (* Y in post *) right. exists Y, (pre ++ NonTerm X :: m2), q.
          split; [rewrite <- app_assoc; reflexivity|]. auto.
    Qed.

    Lemma folR_complete H A t : follow_from P H A t -> folR A t.
    Proof.
      intros (pre & post & D).
      assert (F : folS [NonTerm H] A t).
      { remember (pre ++ NonTerm A :: Term t :: post) as es eqn:Ee.
        revert D. generalize [NonTerm (T := T) H] as hs. apply star_ind_l.
        - right. exists A, pre, (Term t :: post). split; [exact Ee|]. split; [|constructor].
          apply firstS_cons. left. reflexivity.
        - intros a b S _ Fb. exact (folS_sstep _ _ _ _ S Fb). }
      destruct F as [F|(X & p & q & E & F & _)]; [exact F|].
      destruct p as [|x [|y p]]; simpl in E; try discriminate. injection E as -> <-.
      destruct (firstS_nil _ F).
    Qed.
  End NullFree.
End Forms.
