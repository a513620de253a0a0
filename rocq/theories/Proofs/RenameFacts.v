(** Renaming symbols and actions: the builder, derivations, and the passes. *)
From Coq Require Import List Lia Arith Sorted.
From Verif.Model Require Import Ord BTree Outcome Utils Grammar Nullable Firsts NonNull.
From Verif.Spec Require Import Reach Cfg BuildSpec NullSpec NonNullSpec OrderSpec RenameSpec.
From Verif.Proofs Require Import OrdFacts BTreeFacts LoopFacts UtilsFacts GrammarFacts BuildMore CfgFacts NullableFacts NullableMore FirstsMore
  NonNullMore OrderFacts DebugFacts.
Import ListNotations.

Lemma option_ext {A} (a b : option A) : (forall x, a = Some x <-> b = Some x) -> a = b.
Proof. intro E. destruct a as [x|]; [symmetry; now apply E|]. destruct b as [x|]; [now apply E|reflexivity]. Qed.

Section S.
  Context {T NT AK AV T' NT' AK' AV' : Type} `{OrdEq NT} `{OrdEq NT'}.
  Variables (fT : T -> T') (fN : NT -> NT') (fK : AK -> AK') (fV : AV -> AV').
  Hypothesis JN : forall A B, fN A = fN B -> A = B.

  Lemma ren_map_get {X Y} (f : X -> Y) (m : btmap NT X) A' y : msorted m ->
    (bt_get A' (ren_map fN f m) = Some y <-> exists A x, A' = fN A /\ y = f x /\ bt_get A m = Some x).
  Proof.
    intro S. assert (Nd : NoDup (map fst (map (fun kv => (fN (fst kv), f (snd kv))) m))).
    { rewrite map_map. cbn [fst]. apply sorted_NoDup in S. clear -S JN. unfold bt_keys in S. induction m as [|[k v] m IH]; [constructor|].
      cbn [map fst] in *. inversion S as [|? ? N S']; subst. constructor; [|now apply IH].
      intro I. apply in_map_iff in I. destruct I as ([k' v'] & E & I). apply JN in E. cbn in E. subst k'. apply N. apply in_map_iff. exists (k, v'). auto. }
    unfold ren_map. rewrite bt_get_iff by apply bt_of_list_sorted.
    transitivity (In (A', y) (map (fun kv => (fN (fst kv), f (snd kv))) m)).
    - generalize dependent (map (fun kv => (fN (fst kv), f (snd kv))) m). intros l Nd. rewrite <- bt_get_iff by apply bt_of_list_sorted.
      rewrite bt_of_list_get. rewrite <- (rev_involutive l) in *. generalize (rev l) Nd. clear l Nd. intros l Nd.
      induction l as [|[k v] l IH]; [cbn; split; [discriminate|tauto]|]. cbn [rev] in *. rewrite fold_left_app. cbn [fold_left fst snd].
      rewrite map_app in Nd. cbn [map fst] in Nd. assert (Nd' : NoDup (map fst (rev l))) by (apply NoDup_remove_1 in Nd; now rewrite app_nil_r in Nd).
      assert (Nk : ~ In k (map fst (rev l))) by (apply NoDup_remove_2 in Nd; now rewrite app_nil_r in Nd).
      rewrite in_app_iff. destruct (eqb A' k) eqn:E.
      + pose proof (proj1 (eqb_true_iff A' k) E) as Q. subst A'. split.
        * intro Q. injection Q as ->. right. now left.
        * intros [I|[I|[]]]; [exfalso; apply Nk; apply in_map_iff; exists (k, y); auto|]. injection I as ->. reflexivity.
      + rewrite (IH Nd'). split; [auto|]. intros [I|[I|[]]]; [exact I|]. injection I as -> ->. exfalso.
        assert (X1 : eqb A' A' = true) by apply eqb_refl. congruence.
    - rewrite in_map_iff. split.
      + intros ([k v] & E & I). cbn [fst snd] in E. injection E as <- <-. exists k, v. rewrite bt_get_iff by exact S. auto.
      + intros (A & x & -> & -> & G). exists (A, x). split; [reflexivity|]. now rewrite <- bt_get_iff by exact S.
  Qed.
  Lemma ren_map_sorted {X Y} (f : X -> Y) (m : btmap NT X) : msorted (ren_map fN f m).
  Proof. apply bt_of_list_sorted. Qed.
  Lemma ren_map_get_f {X Y} (f : X -> Y) (m : btmap NT X) A : msorted m -> bt_get (fN A) (ren_map fN f m) = option_map f (bt_get A m).
  Proof.
    intro S. apply option_ext. intro y. rewrite ren_map_get by exact S. split.
    - intros (B & x & E & -> & G). apply JN in E. subst B. rewrite G. reflexivity.
    - destruct (bt_get A m) as [x|] eqn:G; [|discriminate]. intro E. injection E as <-. exists A, x. auto.
  Qed.
  Lemma ren_set_In s A' : In A' (bs_of_list (map fN s)) <-> exists A, A' = fN A /\ In A s.
  Proof. rewrite bs_of_list_In, in_map_iff. split; intros (A & E & I); exists A; auto. Qed.

  (** ** The builder *)
  Notation rel := (ren_elem fT fN).
  Notation rpe := (ren_pe fT fN).
  Notation rprod := (ren_prod fT fN fK fV).
  Notation rgb := (ren_gb fT fN fK fV).
  Notation rrb := (ren_rb fT fN fK fV).
  Notation rrule := (ren_rule fT fN fK fV).
  Notation rg := (ren_grammar fT fN fK fV).

  Lemma ren_spec_prod c : spec_prod (rrb c) = rprod (spec_prod c).
  Proof.
    destruct c as [k v cs|k v es]; [|reflexivity]. unfold ren_prod. cbn. f_equal. rewrite !map_map. apply map_ext. intros []; reflexivity.
  Qed.
  Lemma ren_elems (p : ProdInner T NT AK AV) : map pe_elem (pi_elements (rprod p)) = map rel (map pe_elem (pi_elements p)).
  Proof. cbn. rewrite !map_map. reflexivity. Qed.
  Lemma ren_last calls A' rcs' : last_rule (map rgb calls) A' rcs' <-> exists A rcs, A' = fN A /\ rcs' = map rrb rcs /\ last_rule calls A rcs.
  Proof.
    split.
    - intros (pre & post & E & F). apply map_eq_app in E. destruct E as (p1 & p2 & -> & <- & E). destruct p2 as [|[A rcs] p2]; [discriminate|].
      cbn in E. injection E as <- <- <-. exists A, rcs. split; [reflexivity|]. split; [reflexivity|]. exists p1, p2. split; [reflexivity|].
      intros rcs' I. apply (F (map rrb rcs')). change (In (rgb (AddRule A rcs')) (map rgb p2)). now apply in_map.
    - intros (A & rcs & -> & -> & pre & post & -> & F). exists (map rgb pre), (map rgb post). split; [rewrite map_app; reflexivity|].
      intros rcs' I. apply in_map_iff in I. destruct I as ([B r] & E & I). cbn in E. injection E as E _. apply JN in E. subst B. exact (F r I).
  Qed.
  Lemma In_rel_nt es B' : In (NonTerm B') (map rel es) <-> exists B, B' = fN B /\ In (NonTerm B) es.
  Proof.
    rewrite in_map_iff. split.
    - intros ([t|B] & E & I); [discriminate|]. injection E as <-. eauto.
    - intros (B & -> & I). exists (NonTerm B). auto.
  Qed.
  Lemma ren_mentions calls A' B' : mentions (map rgb calls) A' B' <-> exists A B, A' = fN A /\ B' = fN B /\ mentions calls A B.
  Proof.
    split.
    - intros (rcs & c & L & I & M). apply ren_last in L. destruct L as (A & rcs0 & -> & -> & L). apply in_map_iff in I. destruct I as (c0 & <- & I).
      rewrite ren_spec_prod, ren_elems in M. apply In_rel_nt in M. destruct M as (B & -> & M). exists A, B. split; [reflexivity|]. split; [reflexivity|]. exists rcs0, c0. auto.
    - intros (A & B & -> & -> & rcs & c & L & I & M). exists (map rrb rcs), (rrb c). split; [apply ren_last; eauto|]. split; [now apply in_map|].
      rewrite ren_spec_prod, ren_elems. apply In_rel_nt. eauto.
  Qed.
  Lemma ren_defined calls A' : defined (map rgb calls) A' <-> exists A, A' = fN A /\ defined calls A.
  Proof.
    split.
    - intros (rcs & L). apply ren_last in L. destruct L as (A & rcs0 & -> & _ & L). exists A. split; [reflexivity|]. exists rcs0. exact L.
    - intros (A & -> & rcs & L). exists (map rrb rcs). apply ren_last. eauto.
  Qed.
  Lemma star_ren (R : NT -> NT -> Prop) (R' : NT' -> NT' -> Prop) : (forall A' B', R' A' B' <-> exists A B, A' = fN A /\ B' = fN B /\ R A B) ->
    forall A B', star R' (fN A) B' <-> exists B, B' = fN B /\ star R A B.
  Proof.
    intros E A B'. split.
    - intro S. induction S as [|y z S (B & -> & S') Ryz]; [exists A; split; [reflexivity|constructor]|].
      apply E in Ryz. destruct Ryz as (B0 & C & E0 & -> & Ryz). apply JN in E0. subst B0.
      exists C. split; [reflexivity|]. econstructor; eassumption.
    - intros (B & -> & S). induction S as [|y z S IH Ryz]; [constructor|]. econstructor; [exact IH|]. apply E. eauto.
  Qed.
  Lemma plus_ren (R : NT -> NT -> Prop) (R' : NT' -> NT' -> Prop) : (forall A' B', R' A' B' <-> exists A B, A' = fN A /\ B' = fN B /\ R A B) ->
    forall A B', plus R' (fN A) B' <-> exists B, B' = fN B /\ plus R A B.
  Proof.
    intros E A B'. split.
    - intros (y & S & Ryz). apply (star_ren R R' E) in S. destruct S as (B & -> & S). apply E in Ryz. destruct Ryz as (B0 & C & E0 & -> & Ryz).
      apply JN in E0. subst B0. exists C. split; [reflexivity|]. exists B. auto.
    - intros (B & -> & y & S & Ryz). exists (fN y). split; [apply (star_ren R R' E); eauto|]. apply E. eauto.
  Qed.

  Lemma ren_calls_get start start' calls A' : bt_get A' (rule_set (calls_grammar start' (map rgb calls))) = bt_get A' (rule_set (rg (calls_grammar start calls))).
  Proof.
    apply option_ext. intro r'. rewrite calls_get. unfold ren_grammar. cbn [rule_set]. rewrite (ren_map_get rrule) by apply (calls_rs_wf start calls). split.
    - intros (rcs' & L & ->). apply ren_last in L. destruct L as (A & rcs & -> & -> & L). exists A, (Build_RuleInner A (map spec_prod rcs)).
      split; [reflexivity|]. split; [unfold ren_rule; cbn; f_equal; rewrite !map_map; apply map_ext; apply ren_spec_prod|]. apply (calls_get start). eauto.
    - intros (A & r & -> & -> & G). apply (calls_get start) in G. destruct G as (rcs & L & ->). exists (map rrb rcs). split; [apply ren_last; eauto|].
      unfold ren_rule. cbn. f_equal. rewrite !map_map. apply map_ext. intro c. symmetry. apply ren_spec_prod.
  Qed.
  Lemma ren_calls_grammar start calls : calls_grammar (fN start) (map rgb calls) = rg (calls_grammar start calls).
  Proof.
    unfold calls_grammar at 1, ren_grammar. f_equal. apply msorted_ext; [apply (calls_rs_wf (fN start) (map rgb calls))|apply ren_map_sorted|].
    intro k. exact (ren_calls_get start (fN start) calls k).
  Qed.

  Lemma ren_sset (P : NT -> Prop) (P' : NT' -> Prop) U U' : (forall B', P' B' <-> exists B, B' = fN B /\ P B) ->
    (sorted U /\ forall B, In B U <-> P B) -> (sorted U' /\ forall B, In B U' <-> P' B) -> U' = bs_of_list (map fN U).
  Proof.
    intros E [S I] [S' I']. apply sorted_ext; [exact S'|apply bs_of_list_sorted|]. intro x. rewrite I', E, ren_set_In. split; intros (B & -> & Q); exists B; (split; [reflexivity|now apply I]).
  Qed.
  Lemma map_bs_nil U : bs_of_list (map fN U) = [] <-> U = [].
  Proof.
    split; [|intros ->; reflexivity]. intro E. destruct U as [|a U]; [reflexivity|]. exfalso.
    assert (I : In (fN a) (bs_of_list (map fN (a :: U)))) by (apply ren_set_In; exists a; split; [reflexivity|now left]). rewrite E in I. destruct I.
  Qed.

  Lemma ren_build start calls r : runs_to (build start calls) r ->
    match r with
    | Ret (Ok g) => runs_to (build (fN start) (map rgb calls)) (Ret (Ok (rg g)))
    | Ret (Err e) => runs_to (build (fN start) (map rgb calls)) (Ret (Err (ren_errors fN e)))
    | Panic _ => exists m, runs_to (build (fN start) (map rgb calls)) (Panic m)
    | NoFuel => False
    end.
  Proof.
    intro R. pose proof (ren_mentions calls) as M. pose proof (star_ren _ _ M) as St. pose proof (plus_ren _ _ M) as Pl.
    assert (Me : forall B', is_mentioned (map rgb calls) B' <-> exists B, B' = fN B /\ is_mentioned calls B).
    { intro B'. split.
      - intros (A' & Q). apply M in Q. destruct Q as (A & B & -> & -> & Q). exists B. split; [reflexivity|]. exists A. exact Q.
      - intros (B & -> & A & Q). exists (fN A). apply M. eauto. }
    destruct (build_verdict start calls) as [[(A & Sa & Na) (m & R1)]|(Cl & U & D & N & HU & HD & HN & V)];
    destruct (build_verdict (fN start) (map rgb calls)) as [[(A' & Sa' & Na') (m' & R1')]|(Cl' & U' & D' & N' & HU' & HD' & HN' & V')].
    - rewrite (runs_to_fun _ _ _ R R1). eauto.
    - exfalso. assert (X : defined (map rgb calls) (fN A)) by (apply Cl'; apply St; eauto). apply ren_defined in X. destruct X as (B & E & X).
      apply JN in E. subst B. exact (Na X).
    - exfalso. apply St in Sa'. destruct Sa' as (B & -> & Sb). apply Na'. apply ren_defined. eauto.
    - assert (EU : U' = bs_of_list (map fN U)).
      { apply (ren_sset (err_unreachable calls start) (err_unreachable (map rgb calls) (fN start))); [|exact HU|exact HU'].
        intro B'. unfold err_unreachable. rewrite Me. split.
        - intros [(B & -> & Q) Np]. exists B. split; [reflexivity|]. split; [exact Q|]. intro Q'. apply Np. apply Pl. eauto.
        - intros (B & -> & Q & Np). split; [eauto|]. intro Q'. apply Pl in Q'. destruct Q' as (C & E & Q'). apply JN in E. subst C. exact (Np Q'). }
      assert (ED : D' = bs_of_list (map fN D)).
      { apply (ren_sset (err_undefined calls) (err_undefined (map rgb calls))); [|exact HD|exact HD'].
        intro B'. unfold err_undefined. rewrite Me, ren_defined. split.
        - intros [(B & -> & Q) Np]. exists B. split; [reflexivity|]. split; [exact Q|]. intro Q'. apply Np. eauto.
        - intros (B & -> & Q & Np). split; [eauto|]. intros (C & E & Q'). apply JN in E. subst C. exact (Np Q'). }
      assert (EN : N' = bs_of_list (map fN N)).
      { apply (ren_sset (err_no_prods calls) (err_no_prods (map rgb calls))); [|exact HN|exact HN'].
        intro B'. unfold err_no_prods. rewrite ren_last. split.
        - intros (A & rcs & -> & E & L). destruct rcs; [|discriminate]. eauto.
        - intros (B & -> & L). exists B, []. auto. }
      subst U' D' N'. rewrite !map_bs_nil in V'. destruct V as [(-> & -> & -> & g & R1)|[Nn R1]].
      + rewrite (runs_to_fun _ _ _ R R1). destruct V' as [(_ & _ & _ & g' & R1')|[Nn' _]]; [|exfalso; apply Nn'; auto].
        destruct (build_Ok_inv _ _ _ R1) as (-> & _). destruct (build_Ok_inv _ _ _ R1') as (E & _). rewrite <- ren_calls_grammar, <- E. exact R1'.
      + rewrite (runs_to_fun _ _ _ R R1). destruct V' as [(E1 & E2 & E3 & _)|[_ R1']]; [exfalso; apply Nn; auto|]. exact R1'.
  Qed.

  (** ** Derivations *)
  Section Deriv.
    Variable P : NT -> list (Elem T NT) -> Prop.
    Variable P' : NT' -> list (Elem T' NT') -> Prop.
    Hypothesis E : forall A' rhs', P' A' rhs' <-> exists A rhs, A' = fN A /\ rhs' = map rel rhs /\ P A rhs.

    Lemma P_ren A rhs : P A rhs -> P' (fN A) (map rel rhs).
    Proof. intro Q. apply E. eauto. Qed.
    Lemma P_ren_inv A rhs' : P' (fN A) rhs' -> exists rhs, rhs' = map rel rhs /\ P A rhs.
    Proof. intro Q. apply E in Q. destruct Q as (B & rhs & EB & -> & Q). apply JN in EB. subst B. eauto. Qed.
    Lemma gen_ren_r es w : gen P es w -> gen P' (map rel es) (map fT w).
    Proof.
      induction 1 as [|t es w G IH|A rhs es u w Pr G1 IH1 G2 IH2]; cbn [map ren_elem]; [constructor|constructor; exact IH|].
      rewrite map_app. econstructor; [apply P_ren; exact Pr|exact IH1|exact IH2].
    Qed.
    Lemma gen_ren es w' : gen P' (map rel es) w' <-> exists w, w' = map fT w /\ gen P es w.
    Proof.
      split; [|intros (w & -> & G); now apply gen_ren_r].
      intro G. remember (map rel es) as es' eqn:Es. revert es Es. induction G as [|t' es' w' G IH|A' rhs' es' u' w' Pr G1 IH1 G2 IH2]; intros es Es.
      - destruct es; [|discriminate]. exists []. split; [reflexivity|constructor].
      - destruct es as [|[t|A] es]; [discriminate| |discriminate]. cbn in Es. injection Es as -> ->. destruct (IH es eq_refl) as (w & -> & Gw).
        exists (t :: w). split; [reflexivity|now constructor].
      - destruct es as [|[t|A] es]; [discriminate|discriminate|]. cbn in Es. injection Es as -> ->. apply P_ren_inv in Pr. destruct Pr as (rhs & -> & Pr).
        destruct (IH1 rhs eq_refl) as (u & -> & Gu). destruct (IH2 es eq_refl) as (w & -> & Gw). exists (u ++ w). split; [now rewrite map_app|].
        econstructor; eassumption.
    Qed.
    Lemma lang_ren A w' : lang P' (fN A) w' <-> exists w, w' = map fT w /\ lang P A w.
    Proof. exact (gen_ren [NonTerm A] w'). Qed.
    Lemma lang_ren_img A' w' : lang P' A' w' -> exists A, A' = fN A.
    Proof. intro L. apply lang_iff in L. destruct L as (rhs & Pr & _). apply E in Pr. destruct Pr as (A & _ & -> & _). eauto. Qed.
    Lemma gen_ren_nil es : gen P' (map rel es) [] <-> gen P es [].
    Proof.
      rewrite gen_ren. split; [|intro G; exists []; auto]. intros (w & E0 & G). destruct w; [exact G|discriminate].
    Qed.
    Lemma map_rel_app es a b : map rel es = a ++ b -> exists x y, es = x ++ y /\ a = map rel x /\ b = map rel y.
    Proof. intro Q. apply map_eq_app in Q. destruct Q as (x & y & -> & <- & <-). eauto. Qed.
    Lemma df_ren a b' : derives_form P' (map rel a) b' <-> exists b, b' = map rel b /\ derives_form P a b.
    Proof.
      split.
      - intro D. induction D as [|y' z' D (y & -> & Dy) St]; [exists a; split; [reflexivity|constructor]|].
        inversion St as [pre A' rhs' post Pr E1 E2]. subst z'. symmetry in E1. apply map_rel_app in E1. destruct E1 as (x1 & y1 & -> & -> & E1).
        destruct y1 as [|[t|A] y1]; [discriminate|discriminate|]. cbn in E1. injection E1 as -> ->. apply P_ren_inv in Pr. destruct Pr as (rhs & -> & Pr).
        exists (x1 ++ rhs ++ y1). split; [now rewrite !map_app|]. econstructor; [exact Dy|]. now constructor.
      - intros (b & -> & D). induction D as [|y z D IH St]; [constructor|]. econstructor; [exact IH|]. inversion St as [pre A rhs post Pr E1 E2]. subst.
        rewrite !map_app. cbn [map ren_elem]. constructor. now apply P_ren.
    Qed.
    Lemma first_ren A t' : first_of P' (fN A) t' <-> exists t, t' = fT t /\ first_of P A t.
    Proof.
      unfold first_of. split.
      - intros (rest & D). apply (df_ren [NonTerm A]) in D. destruct D as (b & Eb & D). destruct b as [|[t|B] b]; [discriminate| |discriminate].
        cbn in Eb. injection Eb as -> ->. eauto.
      - intros (t & -> & rest & D). exists (map rel rest). apply (df_ren [NonTerm A]). exists (Term t :: rest). auto.
    Qed.
    Lemma df_img A' b' : derives_form P' [NonTerm A'] b' -> b' = [NonTerm A'] \/ exists A, A' = fN A.
    Proof.
      intro D. induction D as [|y z D [->|X] St]; [auto| |auto]. right. inversion St as [pre B rhs post Pr E1 E2].
      destruct pre as [|? [|]]; [|discriminate|discriminate]. cbn in E1. injection E1 as -> ->. apply E in Pr. destruct Pr as (A & _ & -> & _). eauto.
    Qed.
    Lemma first_img A' t' : first_of P' A' t' -> exists A, A' = fN A.
    Proof. intros (rest & D). destruct (df_img _ _ D) as [X|X]; [discriminate|exact X]. Qed.
    Lemma cbf_ren A' e' : can_be_first P' A' e' <-> exists A e, A' = fN A /\ e' = rel e /\ can_be_first P A e.
    Proof.
      split.
      - intros (pre & post & Pr & G). apply E in Pr. destruct Pr as (A & rhs & -> & Er & Pr). symmetry in Er. apply map_rel_app in Er.
        destruct Er as (x & [|e y] & -> & -> & Ey); [discriminate|]. cbn in Ey. injection Ey as -> ->. exists A, e. split; [reflexivity|]. split; [reflexivity|].
        exists x, y. split; [exact Pr|]. now apply gen_ren_nil.
      - intros (A & e & -> & -> & pre & post & Pr & G). exists (map rel pre), (map rel post). split; [|now apply gen_ren_nil].
        apply P_ren in Pr. rewrite map_app in Pr. exact Pr.
    Qed.
    Lemma follow_ren A' t' : adjacent_follow P' A' t' <-> exists A t, A' = fN A /\ t' = fT t /\ adjacent_follow P A t.
    Proof.
      split.
      - induction 1 as [H' pre A' t' post Pr|H' pre A' B' post t' Pr F|H' pre A' t' Pr _ (H0' & t & EH & -> & IH)];
          apply E in Pr; destruct Pr as (X & rhs & EX & Er & Pr); symmetry in Er; apply map_rel_app in Er; destruct Er as (x & y & -> & -> & Ey).
        + destruct y as [|[|A] [|[t|] y]]; try discriminate. cbn in Ey. injection Ey as -> -> ->. exists A, t. split; [reflexivity|]. split; [reflexivity|].
          eapply af_term. exact Pr.
        + destruct y as [|[|A] [|[|B] y]]; try discriminate. cbn in Ey. injection Ey as -> -> ->. apply first_ren in F. destruct F as (t & -> & F).
          exists A, t. split; [reflexivity|]. split; [reflexivity|]. eapply af_nonterm; eassumption.
        + destruct y as [|[|A] [|? y]]; try discriminate. cbn in Ey. injection Ey as ->. rewrite EX in EH. apply JN in EH. subst H0'.
          exists A, t. split; [reflexivity|]. split; [reflexivity|]. eapply af_last; eassumption.
      - intros (A & t & -> & -> & F). induction F as [X pre A t post Pr|X pre A B post t Pr F|X pre A t Pr _ IH];
          apply P_ren in Pr; rewrite map_app in Pr; cbn [map ren_elem] in Pr.
        + eapply af_term. exact Pr.
        + eapply af_nonterm; [exact Pr|]. apply first_ren. eauto.
        + eapply af_last; eassumption.
    Qed.
  End Deriv.

  (** ** Grammars and the Nullable pass *)
  Section Gram.
    Variable g : Grammar T NT AK AV.
    Hypothesis B : built g.
    Let W : rs_wf g := acc_wf g (built_accepted g B).

    Lemma ren_built : built (rg g).
    Proof. destruct B as (s & calls & R). exists (fN s), (map rgb calls). exact (ren_build s calls _ R). Qed.
    Lemma ren_In A' r' : In (A', r') (rule_set (rg g)) <-> exists A r, A' = fN A /\ r' = rrule r /\ In (A, r) (rule_set g).
    Proof.
      rewrite <- bt_get_iff by apply ren_map_sorted. cbn [ren_grammar rule_set]. rewrite (ren_map_get rrule) by apply W.
      split; intros (A & r & -> & -> & G); exists A, r; (split; [reflexivity|]); (split; [reflexivity|]); apply bt_get_iff; try apply W; exact G.
    Qed.
    Lemma ren_nth A' i p' : nth_prod (rg g) A' i p' <-> exists A p, A' = fN A /\ p' = rprod p /\ nth_prod g A i p.
    Proof.
      split.
      - intros (r' & I & N). apply ren_In in I. destruct I as (A & r & -> & -> & I). cbn in N. rewrite nth_error_map in N.
        destruct (nth_error (r_prods r) i) as [p|] eqn:Ep; [|discriminate]. injection N as <-. exists A, p. split; [reflexivity|]. split; [reflexivity|]. exists r. auto.
      - intros (A & p & -> & -> & r & I & N). exists (rrule r). split; [apply ren_In; eauto|]. cbn. rewrite nth_error_map, N. reflexivity.
    Qed.
    Lemma ren_prod_of A' p' : prod_of (rg g) A' p' <-> exists A p, A' = fN A /\ p' = rprod p /\ prod_of g A p.
    Proof.
      split.
      - intros (r' & I & N). apply ren_In in I. destruct I as (A & r & -> & -> & I). cbn in N. apply in_map_iff in N. destruct N as (p & <- & N).
        exists A, p. split; [reflexivity|]. split; [reflexivity|]. exists r. auto.
      - intros (A & p & -> & -> & r & I & N). exists (rrule r). split; [apply ren_In; eauto|]. cbn. now apply in_map.
    Qed.
    Lemma ren_rhs A' rhs' : rhs_of (rg g) A' rhs' <-> exists A rhs, A' = fN A /\ rhs' = map rel rhs /\ rhs_of g A rhs.
    Proof.
      split.
      - intros (p' & Pp & ->). apply ren_prod_of in Pp. destruct Pp as (A & p & -> & -> & Pp). exists A, (map pe_elem (pi_elements p)).
        split; [reflexivity|]. split; [apply ren_elems|]. exists p. auto.
      - intros (A & rhs & -> & -> & p & Pp & ->). exists (rprod p). split; [apply ren_prod_of; eauto|]. symmetry. apply ren_elems.
    Qed.
    Lemma ren_body p : body_derives_empty (rg g) (rprod p) <-> body_derives_empty g p.
    Proof. unfold body_derives_empty. rewrite ren_elems. exact (gen_ren_nil (rhs_of g) (rhs_of (rg g)) ren_rhs _). Qed.
    Lemma ren_empty A' : derives_empty (rg g) A' <-> exists A, A' = fN A /\ derives_empty g A.
    Proof.
      split.
      - intro D. destruct (lang_ren_img _ _ ren_rhs _ _ D) as (A & ->). exists A. split; [reflexivity|].
        exact (proj1 (gen_ren_nil (rhs_of g) (rhs_of (rg g)) ren_rhs [NonTerm A]) D).
      - intros (A & -> & D). exact (proj2 (gen_ren_nil (rhs_of g) (rhs_of (rg g)) ren_rhs [NonTerm A]) D).
    Qed.
    Lemma ren_ambiguous : null_ambiguous (rg g) <-> null_ambiguous g.
    Proof.
      split.
      - intros (A' & i & j & p' & q' & Np & Nq & Nij & Ep & Eq). apply ren_nth in Np. destruct Np as (A & p & -> & -> & Np).
        apply ren_nth in Nq. destruct Nq as (A0 & q & EA & -> & Nq). apply JN in EA. subst A0. exists A, i, j, p, q. rewrite ren_body in Ep, Eq. auto.
      - intros (A & i & j & p & q & Np & Nq & Nij & Ep & Eq). exists (fN A), i, j, (rprod p), (rprod q). rewrite !ren_body.
        split; [apply ren_nth; eauto|]. split; [apply ren_nth; eauto|]. auto.
    Qed.
    Lemma ren_last_named es id B' : last_named (map rpe es) id B' <-> exists X, B' = fN X /\ last_named es id X.
    Proof.
      split.
      - intros (pre & post & Ee & F). apply map_eq_app in Ee. destruct Ee as (x & [|[i e] y] & -> & <- & Ey); [discriminate|]. cbn in Ey.
        unfold ren_pe at 1 in Ey. cbn in Ey. injection Ey as E1 E2 <-. destruct e as [t|X]; [discriminate|]. cbn in E2. injection E2 as <-. subst i.
        exists X. split; [reflexivity|]. exists x, y. split; [reflexivity|]. intros e I. intro Q. apply (F (rpe e)); [now apply in_map|exact Q].
      - intros (X & -> & pre & post & -> & F). exists (map rpe pre), (map rpe post). split; [rewrite map_app; reflexivity|].
        intros e I Q. apply in_map_iff in I. destruct I as (e0 & <- & I). exact (F e0 I Q).
    Qed.
    Notation rtree := (ren_tree fN fK).
    Notation rval := (ren_value fN fK).
    Lemma ren_null_tree A t : null_tree g A t -> null_tree (rg g) (fN A) (rtree t).
    Proof.
      revert A. induction t as [k ps IH] using tree_ind'. intros A N. inversion N as [? p ? Pr Em So Sub Ex]; subst.
      cbn [ren_tree]. change (ren_key fN fK (Build_ProdKey A (pi_action_key p))) with (Build_ProdKey (fN A) (pi_action_key (rprod p))).
      rewrite Forall_forall in IH. constructor.
      - apply ren_prod_of. eauto.
      - now apply ren_body.
      - rewrite map_map. exact So.
      - intros id v' I. apply in_map_iff in I. destruct I as ([n v] & Ev & I). cbn in Ev. injection Ev as <- <-. destruct (Sub n v I) as (X & t & L & -> & Nt).
        exists (fN X), (rtree t). split; [|split; [reflexivity|]].
        + cbn. apply ren_last_named. eauto.
        + exact (IH _ I _ Nt).
      - intros id B' L. cbn in L. apply ren_last_named in L. destruct L as (X & -> & L). destruct (Ex id X L) as (v & I). exists (rval v).
        apply in_map_iff. exists (id, v). auto.
    Qed.

    Variable lay : layout NT.
    Variable lay' : layout NT'.
    Hypothesis I : lay_inj g lay.
    Hypothesis I' : lay_inj (rg g) lay'.

    Lemma ren_nullables : 
      (null_ambiguous g /\ runs_to (calculate_nullables lay g) (Ret (Err Ambiguity)) /\ runs_to (calculate_nullables lay' (rg g)) (Ret (Err Ambiguity))) \/
      (~ null_ambiguous g /\ exists info, msorted info /\ runs_to (calculate_nullables lay g) (Ret (Ok info)) /\
         runs_to (calculate_nullables lay' (rg g)) (Ret (Ok (ren_info fN fK info)))).
    Proof.
      destruct (nullable_final lay g I B) as [[A R]|(N & info & R & S & K & _ & _ & C)];
      destruct (nullable_final lay' (rg g) I' ren_built) as [[A' R']|(N' & info' & R' & S' & K' & _ & _ & C')].
      - auto.
      - exfalso. apply N'. now apply ren_ambiguous.
      - exfalso. apply N. now apply ren_ambiguous.
      - right. split; [exact N|]. exists info. split; [exact S|]. split; [exact R|].
        assert (Q : forall A t, bt_get A info = Some t -> bt_get (fN A) info' = Some (rtree t)).
        { intros A t G. apply C'. apply ren_null_tree. apply C. exact G. }
        replace (ren_info fN fK info) with info'; [exact R'|]. apply msorted_ext; [exact S'|apply ren_map_sorted|]. intro A'.
        apply option_ext. intro t'. unfold ren_info. rewrite (ren_map_get rtree info A' t' S). split.
        + intro G. assert (D : derives_empty (rg g) A') by (apply K'; unfold is_nullable; rewrite bt_mem_iff; apply bt_keys_In; eauto).
          apply ren_empty in D. destruct D as (A & -> & D). apply K in D. unfold is_nullable in D. rewrite bt_mem_iff, bt_keys_In in D. destruct D as (t & Gt).
          exists A, t. split; [reflexivity|]. split; [|exact Gt]. rewrite (Q A t Gt) in G. now injection G.
        + intros (A & t & -> & -> & G). now apply Q.
    Qed.

    (** ** The transformation *)
    Section Trans.
      Variable info : GrammarNullableInfo NT AK.
      Hypothesis Si : msorted info.
      Notation info' := (ren_info fN fK info).
      Lemma ren_get A : bt_get (fN A) info' = option_map rtree (bt_get A info).
      Proof. exact (ren_map_get_f rtree info A Si). Qed.
      Lemma ren_mem A : bt_mem (fN A) info' = bt_mem A info.
      Proof. unfold bt_mem. rewrite ren_get. destruct (bt_get A info); reflexivity. Qed.
      Lemma ren_elems_nullable es : elems_nullable info' (map rel es) = elems_nullable info es.
      Proof. induction es as [|[t|A] es IH]; [reflexivity..|]. cbn [map ren_elem elems_nullable]. rewrite ren_mem, IH. reflexivity. Qed.
      Definition rbs (s : ProdBuildState T NT AK) : ProdBuildState T' NT' AK' :=
        Build_ProdBuildState (map rpe (bs_elems s)) (bs_nullable_states s) (map (fun a => (fst a, rtree (snd a))) (bs_action_args s)).
      Lemma map_insert {X Y} (f : X -> Y) id v (m : btmap name X) :
        map (fun a => (fst a, f (snd a))) (bt_insert id v m) = bt_insert id (f v) (map (fun a => (fst a, f (snd a))) m).
      Proof. induction m as [|[k x] m IH]; [reflexivity|]. cbn [bt_insert map fst snd]. destruct (cmp id k); cbn [map fst snd]; [reflexivity|reflexivity|]. now rewrite IH. Qed.
      Lemma ren_nn_step sts e : nn_step info' (map rbs sts) (rpe e) = map rbs (nn_step info sts e).
      Proof.
        unfold nn_step. destruct e as [id [t|A]]; cbn [pe_elem ren_pe ren_elem].
        - rewrite !map_map. apply map_ext. intro s. unfold rbs, nn_term. cbn. now rewrite map_app.
        - unfold get_nullable_action. rewrite ren_get. destruct (bt_get A info) as [a|]; cbn [option_map].
          + rewrite map_app, !map_map. f_equal; apply map_ext; intro s; unfold rbs, nn_keep, nn_drop; cbn; [now rewrite map_app|]. f_equal.
            destruct id as [n|]; [|reflexivity]. symmetry. apply (map_insert rtree).
          + rewrite !map_map. apply map_ext. intro s. unfold rbs, nn_keep. cbn. now rewrite map_app.
      Qed.
      Lemma ren_nn_fold es sts : fold_left (nn_step info') (map rpe es) (map rbs sts) = map rbs (fold_left (nn_step info) es sts).
      Proof. revert sts. induction es as [|e es IH]; intro sts; [reflexivity|]. cbn [map fold_left]. rewrite ren_nn_step. apply IH. Qed.
      Notation rgb' := (ren_gb fT fN (ren_nk fK) (ren_nv fN fK fV)).
      Notation rrb' := (ren_rb fT fN (ren_nk fK) (ren_nv fN fK fV)).
      Lemma ren_nonnull_prods A i p : build_nonnull_prods info' (Build_Prod (fN A) i (rprod p)) = map rrb' (build_nonnull_prods info (Build_Prod A i p)).
      Proof.
        unfold build_nonnull_prods. unfold prod_elements. cbn [p_inner ren_prod pi_elements].
        change [Build_ProdBuildState [] [] []] with (map rbs [Build_ProdBuildState [] [] []]) at 1. rewrite ren_nn_fold, !map_map. apply map_ext. intro s. reflexivity.
      Qed.
      Lemma ren_rule_call A r : nn_rule_call info' (fN A, rrule r) = rgb' (nn_rule_call info (A, r)).
      Proof.
        unfold nn_rule_call. cbn [fst snd ren_gb]. f_equal. unfold rule_prods, ren_rule. cbn [r_head r_prods].
        generalize 0. induction (r_prods r) as [|p ps IH]; intro n; [reflexivity|]. cbn [map number_prods flat_map]. rewrite IH, map_app. f_equal.
        unfold is_prod_nullable, elements, elements_iter. cbn [p_inner]. rewrite ren_elems, ren_elems_nullable.
        destruct (elems_nullable info (map pe_elem (pi_elements p))); [reflexivity|]. apply ren_nonnull_prods.
      Qed.
      Lemma ren_calls_same : same_rules (map rgb' (map (nn_rule_call info) (rule_set g))) (map (nn_rule_call info') (rule_set (rg g))).
      Proof.
        assert (N1 : NoDup (map call_head (map (nn_rule_call info') (rule_set (rg g))))).
        { rewrite map_map. cbn [nn_rule_call call_head]. apply sorted_NoDup. exact (ren_map_sorted rrule (rule_set g)). }
        assert (N2 : NoDup (map call_head (map rgb' (map (nn_rule_call info) (rule_set g))))).
        { rewrite !map_map. cbn [nn_rule_call call_head ren_gb]. pose proof (sorted_NoDup _ (proj1 W)) as N. unfold bt_keys in N.
          rewrite <- (map_map fst fN). clear -N JN. induction N as [|a l Na N IH]; [constructor|]. cbn [map]. constructor; [|exact IH].
          intro Q. apply in_map_iff in Q. destruct Q as (b & E & Q). apply JN in E. subst b. exact (Na Q). }
        apply last_rule_same. intros A' rcs. rewrite !last_rule_nodup by assumption. rewrite map_map, !in_map_iff. split.
        - intros ([A r] & Ec & J). rewrite <- ren_rule_call in Ec. exists (fN A, rrule r). split; [exact Ec|]. apply ren_In. eauto.
        - intros ([A0 r'] & Ec & J). apply ren_In in J. destruct J as (A & r & -> & -> & J). exists (A, r). split; [|exact J]. now rewrite <- ren_rule_call.
      Qed.
    End Trans.
  End Gram.
End S.

Lemma transform_build {T NT AK AV : Type} `{OrdEq NT} (lay : layout NT) (g : Grammar T NT AK AV) info rb :
  runs_to (calculate_nullables lay g) (Ret (Ok info)) -> runs_to (build (start_nt g) (map (nn_rule_call info) (rule_set g))) rb ->
  runs_to (transform_to_nonnull lay g)
    match rb with Ret (Ok g1) => Ret (Ok g1) | Ret (Err _) => Ret (Err NNBuild) | Panic m => Panic m | NoFuel => NoFuel end.
Proof.
  intros R Rb. apply (runs_to_bind (calculate_nullables lay g) _ _ _ R). cbv beta.
  destruct rb as [x|m|]; [|exact (runs_to_bind_panic _ (fun _ r => Ret (match r with Ok g1 => Ok g1 | Err _ => Err NNBuild end)) m Rb)|destruct Rb as [N _]; now destruct N].
  apply (runs_to_bind _ (fun _ r => Ret (match r with Ok g1 => Ok g1 | Err _ => Err NNBuild end)) x _ Rb). destruct x; apply runs_to_ret.
Qed.

Section Passes.
  Context {T NT AK AV T' NT' AK' AV' : Type} `{OrdEq NT} `{OrdEq NT'} `{OrdEq T} `{OrdEq T'}.
  Variables (fT : T -> T') (fN : NT -> NT') (fK : AK -> AK') (fV : AV -> AV').
  Hypothesis JN : forall A B, fN A = fN B -> A = B.
  Variable g : Grammar T NT AK AV.
  Hypothesis B : built g.
  Notation g' := (ren_grammar fT fN fK fV g).
  Variable lay : layout NT.
  Variable lay' : layout NT'.
  Hypothesis I : lay_inj g lay.
  Hypothesis I' : lay_inj g' lay'.
  Let W : rs_wf g := acc_wf g (built_accepted g B).
  Let B' : built g' := ren_built fT fN fK fV JN g B.
  Let Er := ren_rhs fT fN fK fV JN g B.

  Lemma ren_transform x : runs_to (transform_to_nonnull lay g) (Ret x) ->
    runs_to (transform_to_nonnull lay' g') (Ret match x with Ok g1 => Ok (ren_grammar fT fN (ren_nk fK) (ren_nv fN fK fV) g1) | Err e => Err e end).
  Proof.
    intro R. destruct (ren_nullables fT fN fK fV JN g B lay lay' I I') as [(_ & R1 & R1')|(_ & info & S & R1 & R1')].
    - assert (Rx : runs_to (transform_to_nonnull lay g) (Ret (Err (NNNullable Ambiguity)))) by (apply (runs_to_bind (calculate_nullables lay g) _ _ _ R1); apply runs_to_ret).
      pose proof (runs_to_fun _ _ _ R Rx) as E. injection E as ->. apply (runs_to_bind (calculate_nullables lay' g') _ _ _ R1'). apply runs_to_ret.
    - destruct (build_spec (start_nt g) (map (nn_rule_call info) (rule_set g))) as (rb & Rb & _).
      pose proof (runs_to_fun _ _ _ R (transform_build lay g info rb R1 Rb)) as E.
      pose proof (ren_build fT fN (ren_nk fK) (ren_nv fN fK fV) JN _ _ _ Rb) as Q.
      pose proof (ren_calls_same fT fN fK fV JN g B info S) as Sr.
      destruct rb as [[g1|e]|m|]; try discriminate E; injection E as ->.
      + apply (build_ext_runs _ _ _ _ Sr) in Q. exact (transform_build lay' g' _ _ R1' Q).
      + apply (build_ext_runs _ _ _ _ Sr) in Q. exact (transform_build lay' g' _ _ R1' Q).
  Qed.

  Notation rset := (fun s : btset T => bs_of_list (map fT s)).
  Lemma rset_In s t' : In t' (rset s) <-> exists t, t' = fT t /\ In t s.
  Proof. rewrite bs_of_list_In, in_map_iff. split; intros (t & E & J); exists t; auto. Qed.
  Lemma ren_firsts :
    (null_ambiguous g /\ runs_to (calculate_firsts lay g) (Ret (Err (FNullableError Ambiguity))) /\ runs_to (calculate_firsts lay' g') (Ret (Err (FNullableError Ambiguity)))) \/
    (~ null_ambiguous g /\ exists m, runs_to (calculate_firsts lay g) (Ret (Ok m)) /\ runs_to (calculate_firsts lay' g') (Ret (Ok (ren_map fN rset m)))).
  Proof.
    pose proof (ren_ambiguous fT fN fK fV JN g B) as Am.
    destruct (firsts_final lay g I B) as [[A R]|(N & m & R & Wf & Rel & Pn)];
    destruct (firsts_final lay' g' I' B') as [[A' R']|(N' & m' & R' & Wf' & Rel' & Pn')]; try tauto.
    right. split; [exact N|]. exists m. split; [exact R|]. replace (ren_map fN rset m) with m'; [exact R'|].
    apply msorted_ext; [apply Wf'|apply ren_map_sorted|]. intro A'. apply option_ext. intro s'. rewrite (ren_map_get fN JN rset m A' s' (proj1 Wf)).
    assert (Pres : forall A, bt_get (fN A) m' = None <-> bt_get A m = None).
    { intro A. pose proof (Pn A) as P1. pose proof (Pn' (fN A)) as P1'. unfold firsts_get in P1, P1'. rewrite P1, P1'. split.
      - intros F e C. specialize (F (ren_elem fT fN e)). destruct e as [t|X]; cbn [ren_elem] in F.
        + discriminate F. apply (cbf_ren fT fN JN _ _ Er). exists A, (Term t). auto.
        + f_equal. apply JN. assert (Q : NonTerm (fN X) = NonTerm (fN A) :> Elem T' NT') by (apply F; apply (cbf_ren fT fN JN _ _ Er); exists A, (NonTerm X); auto).
          now injection Q.
      - intros F e' C. apply (cbf_ren fT fN JN _ _ Er) in C. destruct C as (A0 & e & EA & -> & C). apply JN in EA. subst A0. rewrite (F e C). reflexivity. }
    assert (Cont : forall A s s', bt_get A m = Some s -> bt_get (fN A) m' = Some s' -> s' = rset s).
    { intros A s s1 G G'. apply sorted_ext; [exact (proj2 Wf' _ _ G')|apply bs_of_list_sorted|]. intro t'. rewrite rset_In. split.
      - intro J. assert (F : firstR (rhs_of g') (fN A) t') by (apply Rel'; exists s1; auto). apply first_of_iff in F. apply (first_ren fT fN JN _ _ Er) in F.
        destruct F as (t & -> & F). exists t. split; [reflexivity|]. apply first_of_iff in F. apply Rel in F. destruct F as (s0 & G0 & J0). congruence.
      - intros (t & -> & J). assert (F : firstR (rhs_of g) A t) by (apply Rel; exists s; auto). apply first_of_iff in F.
        assert (F' : firstR (rhs_of g') (fN A) (fT t)) by (apply first_of_iff; apply (first_ren fT fN JN _ _ Er); eauto). apply Rel' in F'.
        destruct F' as (s0 & G0 & J0). congruence. }
    split.
    - intro G. assert (X : exists A, A' = fN A).
      { destruct (in_dec OrdEq_dec A' (map fN (bt_keys (rule_set g)))) as [X|X]; [apply in_map_iff in X; destruct X as (A & <- & _); eauto|].
        exfalso. pose proof (Pn' A') as P1'. unfold firsts_get in P1'. rewrite G in P1'. discriminate (proj2 P1'). intros e C.
        apply (cbf_ren fT fN JN _ _ Er) in C. destruct C as (A & e0 & -> & _ & pre & post & (p & (r & Ir & _) & _) & _). exfalso. apply X. apply in_map.
        apply in_map_iff. exists (A, r). auto. }
      destruct X as (A & ->). destruct (bt_get A m) as [s|] eqn:Gm; [|exfalso; apply Pres in Gm; congruence].
      exists A, s. split; [reflexivity|]. split; [exact (Cont A s s' Gm G)|exact Gm].
    - intros (A & s & -> & -> & G). destruct (bt_get (fN A) m') as [s1|] eqn:G'; [|exfalso; apply Pres in G'; congruence]. f_equal. exact (Cont A s s1 G G').
  Qed.

  Lemma ren_undefined : follows_undefined g' <-> follows_undefined g.
  Proof.
    split.
    - intros (X' & pre & A' & Y' & post & Pr & F). apply Er in Pr. destruct Pr as (X & rhs & -> & Es & Pr). symmetry in Es. apply map_rel_app in Es.
      destruct Es as (x & [|[|A] [|[|Y] y]] & -> & -> & Ey); try discriminate. cbn in Ey. injection Ey as -> -> ->. exists X, x, A, Y, y. split; [exact Pr|].
      intros e C. assert (Q : ren_elem fT fN e = NonTerm (fN Y)) by (apply F; apply (cbf_ren fT fN JN _ _ Er); eauto). destruct e as [t|Z]; [discriminate|].
      cbn in Q. injection Q as Q. apply JN in Q. now subst.
    - intros (X & pre & A & Y & post & Pr & F). exists (fN X), (map (ren_elem fT fN) pre), (fN A), (fN Y), (map (ren_elem fT fN) post). split.
      + apply Er. exists X, (pre ++ NonTerm A :: NonTerm Y :: post). split; [reflexivity|]. split; [now rewrite map_app|exact Pr].
      + intros e' C. apply (cbf_ren fT fN JN _ _ Er) in C. destruct C as (Y0 & e & EY & -> & C). apply JN in EY. subst Y0. rewrite (F e C). reflexivity.
  Qed.
  Lemma ren_follows r : runs_to (calculate_follows lay g) r ->
    match r with
    | Ret (Ok m) => exists m', runs_to (calculate_follows lay' g') (Ret (Ok m')) /\
        forall A' t', (exists s', bt_get A' m' = Some s' /\ In t' s') <-> exists A t s, A' = fN A /\ t' = fT t /\ bt_get A m = Some s /\ In t s
    | Ret (Err e) => runs_to (calculate_follows lay' g') (Ret (Err e))
    | Panic _ => exists s, runs_to (calculate_follows lay' g') (Panic s)
    | NoFuel => False
    end.
  Proof.
    intro R. pose proof (ren_ambiguous fT fN fK fV JN g B) as Am. pose proof ren_undefined as Un.
    destruct (follows_final lay g I B) as [[A Rx]|[(N & Ud & s & Rx)|(N & Ud & m & Rx & _)]]; pose proof (runs_to_fun _ _ _ R Rx); subst r;
    destruct (follows_final lay' g' I' B') as [[A' R']|[(N' & Ud' & s' & R')|(N' & Ud' & m' & R' & _)]]; try tauto; [eauto|].
    exists m'. split; [exact R'|]. intros A' t'. rewrite (follows_exact lay' g' I' B' m' R').
    rewrite (follow_ren fT fN JN _ _ Er). split.
    - intros (A & t & -> & -> & F). apply (follows_exact lay g I B m Rx) in F. destruct F as (s & G & J). exists A, t, s. auto.
    - intros (A & t & s & -> & -> & G & J). exists A, t. split; [reflexivity|]. split; [reflexivity|]. apply (follows_exact lay g I B m Rx). eauto.
  Qed.
End Passes.
