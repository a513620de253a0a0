(** Every layout of a grammar's document consists of the same tokens, and reading them gives the grammar. *)
From Coq Require Import String Ascii List Arith Bool Lia.
From Verif.Model Require Import Ord BTree Outcome Grammar StartGrammar Pretty.
From Verif.Spec Require Import PrettySpec.
Import ListNotations.
Local Open Scope string_scope.

Definition sep_char (c : ascii) : bool := is_space c || is_punct c.
Definition sep_start (s : string) : Prop := match s with "" => True | String c _ => sep_char c = true end.

Lemma sapp_assoc (a b c : string) : (a ++ b) ++ c = a ++ (b ++ c).
Proof. induction a as [|x a IH]; cbn; [reflexivity|now rewrite IH]. Qed.
Lemma sapp_nil (a : string) : a ++ "" = a.
Proof. induction a as [|x a IH]; cbn; [reflexivity|now rewrite IH]. Qed.

Lemma lex_from_app a b : sep_start b -> forall w, lex_from w (a ++ b) = (lex_from w a ++ lex b)%list.
Proof.
  intros Hb. induction a as [|c a IH]; intros w; cbn [append lex_from].
  - destruct b as [|c b]; [cbn; now rewrite app_nil_r|].
    unfold lex. cbn [lex_from]. cbn in Hb. unfold sep_char in Hb.
    destruct (is_space c); [reflexivity|]. rewrite orb_false_l in Hb. rewrite Hb. reflexivity.
  - destruct (is_space c); [rewrite IH; now rewrite app_assoc|].
    destruct (is_punct c); [rewrite IH; now rewrite <- app_assoc|]. apply IH.
Qed.

(** [opens d ts]: each layout of [d] consists of the tokens [ts], if followed by a separator. *)
Definition opens (d : doc) (ts : list token) : Prop :=
  forall f i s, laid_out f i d s -> forall k, sep_start k -> lex (s ++ k) = (ts ++ lex k)%list.
(** The same, whatever follows. *)
Definition closed (d : doc) (ts : list token) : Prop :=
  forall f i s, laid_out f i d s -> forall k, lex (s ++ k) = (ts ++ lex k)%list.
(** Each layout begins with a separator (before what follows, if empty). *)
Definition starts (d : doc) : Prop :=
  forall f i s, laid_out f i d s -> exists c r, s = String c r /\ sep_char c = true.

Lemma closed_opens d ts : closed d ts -> opens d ts.
Proof. intros H f i s L k _. exact (H f i s L k). Qed.

Ltac inv H := inversion H; subst; clear H.

Lemma opens_text s : opens (DText s) (lex s).
Proof. intros f i s' L k Hk. inv L. unfold lex at 1. rewrite lex_from_app by assumption. reflexivity. Qed.

Lemma closed_nil : closed DNil [].
Proof. intros f i s L k. inv L. reflexivity. Qed.

Lemma closed_append a b ta tb : closed a ta -> closed b tb -> closed (DAppend a b) (ta ++ tb)%list.
Proof.
  intros Ha Hb f i s L k. inv L. rewrite sapp_assoc.
  match goal with L1 : laid_out _ _ a _, L2 : laid_out _ _ b _ |- _ =>
    rewrite (Ha _ _ _ L1), (Hb _ _ _ L2) end.
  now rewrite app_assoc.
Qed.
Lemma closed_append_o a b ta tb : closed a ta -> opens b tb -> opens (DAppend a b) (ta ++ tb)%list.
Proof.
  intros Ha Hb f i s L k Hk. inv L. rewrite sapp_assoc.
  match goal with L1 : laid_out _ _ a _, L2 : laid_out _ _ b _ |- _ =>
    rewrite (Ha _ _ _ L1), (Hb _ _ _ L2) by assumption end.
  now rewrite app_assoc.
Qed.
Lemma opens_append a b ta tb : opens a ta -> starts b -> closed b tb -> closed (DAppend a b) (ta ++ tb)%list.
Proof.
  intros Ha Sb Hb f i s L k. inv L. rewrite sapp_assoc.
  match goal with L1 : laid_out _ _ a _, L2 : laid_out _ _ b _ |- _ =>
    rewrite (Ha _ _ _ L1), (Hb _ _ _ L2); [now rewrite app_assoc|];
    destruct (Sb _ _ _ L2) as (c & r & -> & Hc) end.
  exact Hc.
Qed.
Lemma closed_group d ts : closed d ts -> closed (DGroup d) ts.
Proof. intros Hd f i s L k. inv L. match goal with L1 : laid_out _ _ d _ |- _ => exact (Hd _ _ _ L1 k) end. Qed.
Lemma closed_nest n d ts : closed d ts -> closed (DNest n d) ts.
Proof. intros Hd f i s L k. inv L. match goal with L1 : laid_out _ _ d _ |- _ => exact (Hd _ _ _ L1 k) end. Qed.

Lemma lex_spaces i k : lex (spaces i ++ k) = lex k.
Proof. induction i as [|i IH]; [reflexivity|]. cbn [spaces append]. unfold lex. cbn. exact IH. Qed.

Lemma closed_softline : closed softline [].
Proof.
  intros f i s L k. unfold softline, line in L. inv L.
  match goal with L1 : laid_out _ _ (DFlatAlt _ _) _ |- _ => inv L1 end;
  match goal with L1 : laid_out _ _ _ _ |- _ => inv L1 end.
  - cbn [append]. unfold lex at 1. cbn. apply lex_spaces.
  - reflexivity.
Qed.
Lemma closed_softline_ : closed softline_ [].
Proof.
  intros f i s L k. unfold softline_, line_ in L. inv L.
  match goal with L1 : laid_out _ _ (DFlatAlt _ _) _ |- _ => inv L1 end;
  match goal with L1 : laid_out _ _ _ _ |- _ => inv L1 end.
  - cbn [append]. unfold lex at 1. cbn. apply lex_spaces.
  - reflexivity.
Qed.
Lemma starts_softline : starts softline.
Proof.
  intros f i s L. unfold softline, line in L. inv L.
  match goal with L1 : laid_out _ _ (DFlatAlt _ _) _ |- _ => inv L1 end;
  match goal with L1 : laid_out _ _ _ _ |- _ => inv L1 end; eexists _, _; split; reflexivity.
Qed.
Lemma starts_text c s : sep_char c = true -> starts (DText (String c s)).
Proof. intros Hc f i s' L. inv L. now exists c, s. Qed.
Lemma starts_append a b : starts a -> starts (DAppend a b).
Proof.
  intros Ha f i s L. inv L. match goal with L1 : laid_out _ _ a _ |- _ => destruct (Ha _ _ _ L1) as (c & r & -> & Hc) end.
  now eexists c, _.
Qed.

(** A text whose last character is a separator. *)
Lemma lex_from_closed s c : sep_char c = true ->
  forall w k, lex_from w ((s ++ String c "") ++ k) = (lex_from w (s ++ String c "") ++ lex k)%list.
Proof.
  intros Hc. unfold sep_char in Hc.
  induction s as [|d s IH]; intros w k; cbn [append lex_from].
  - destruct (is_space c); [|rewrite orb_false_l in Hc; rewrite Hc]; unfold lex; cbn [lex_from word String.eqb app].
    + now rewrite app_nil_r.
    + now rewrite <- app_assoc.
  - destruct (is_space d); [now rewrite IH, app_assoc|].
    destruct (is_punct d); [now rewrite IH, <- app_assoc|]. apply IH.
Qed.
Lemma closed_text s c : sep_char c = true -> closed (DText (s ++ String c "")) (lex (s ++ String c "")).
Proof. intros Hc f i s' L k. inv L. apply lex_from_closed, Hc. Qed.

Lemma concat_closed {A} (f : A -> doc) (g : A -> list token) l :
  (forall a, In a l -> closed (f a) (g a)) ->
  forall d ts, closed d ts -> closed (fold_left DAppend (map f l) d) (ts ++ flat_map g l)%list.
Proof.
  induction l as [|a l IH]; intros Hl d ts Hd; cbn [map fold_left flat_map]; [now rewrite app_nil_r|].
  rewrite app_assoc. apply IH; [intros b Hb; apply Hl; now right|].
  apply closed_append; [assumption|]. apply Hl. now left.
Qed.

Lemma intersperse_opens {A} (f : A -> doc) (g : A -> list token) sep ts l :
  (forall a, In a l -> opens (f a) (g a)) -> starts sep -> closed sep ts ->
  opens (intersperse (map f l) sep) (separated ts (map g l)).
Proof.
  intros Hl Ss Cs. destruct l as [|a l]; [apply closed_opens, closed_nil|].
  cbn [map intersperse].
  assert (G : forall l d td, (forall b, In b l -> opens (f b) (g b)) -> opens d td ->
    opens (fold_left (fun acc d => DAppend (DAppend acc sep) d) (map f l) d)
          (td ++ flat_map (fun b => ts ++ g b) l)%list).
  { clear - Ss Cs. induction l as [|b l IH]; intros d td Hl Hd; cbn [map fold_left flat_map]; [now rewrite app_nil_r|].
    assert (E : (td ++ (ts ++ g b) ++ flat_map (fun b => ts ++ g b) l = ((td ++ ts) ++ g b) ++ flat_map (fun b => ts ++ g b) l)%list)
      by now rewrite <- !app_assoc.
    rewrite E. apply IH; [intros c Hc; apply Hl; now right|].
    apply closed_append_o; [now apply opens_append|]. apply Hl. now left. }
  assert (E : separated ts (map g (a :: l)) = (g a ++ flat_map (fun b => ts ++ g b) l)%list).
  { clear. revert a. induction l as [|b l IH]; intros a; [cbn; now rewrite app_nil_r|].
    cbn [map separated flat_map]. f_equal. rewrite <- app_assoc. f_equal. apply IH. }
  cbn [map] in E. rewrite E. apply G; [intros b Hb; apply Hl; now right|].
  change (opens (DAppend DNil (f a)) ([] ++ g a)%list). apply closed_append_o; [apply closed_nil|].
  apply Hl. now left.
Qed.

Section Tokens.
  Context {T NT AK AV : Type} {DT : ToDoc T} {DN : ToDoc NT}.
  Variables (show_t : T -> string) (show_nt : NT -> string).
  Hypothesis text_t : forall t : T, to_doc t = DText (show_t t).
  Hypothesis text_nt : forall n : NT, to_doc n = DText (show_nt n).

  Lemma opens_pelem (e : ProdElement T NT) : opens (to_doc e) (elem_tokens (elem_names show_t show_nt e)).
  Proof.
    unfold to_doc, ToDoc_ProdElement, elem_tokens, elem_names. cbn [pe_id pe_elem].
    apply closed_append_o.
    - destruct (pe_id e) as [n|]; [|apply closed_nil].
      apply opens_append; [apply opens_text| |].
      + apply starts_append, starts_text. reflexivity.
      + change (closed (DAppend (DText ":") softline_) ([Sym ":"%char] ++ [])%list).
        apply closed_append; [exact (closed_text "" ":"%char eq_refl)|apply closed_softline_].
    - destruct (pe_elem e) as [t|n].
      + change (to_doc (Term t : Elem T NT)) with (to_doc t). rewrite text_t. apply opens_text.
      + change (to_doc (NonTerm n : Elem T NT)) with (DAppend (DAppend (DText "<") (to_doc n)) (DText ">")).
        rewrite text_nt. apply closed_opens.
        change (Sym "<"%char :: lex (show_nt n) ++ [Sym ">"%char])%list
          with (([Sym "<"%char] ++ lex (show_nt n)) ++ [Sym ">"%char])%list.
        apply opens_append.
        * apply closed_append_o; [exact (closed_text "" "<"%char eq_refl)|apply opens_text].
        * apply starts_text. reflexivity.
        * exact (closed_text "" ">"%char eq_refl).
  Qed.

  Lemma separated_nil {A} (ls : list (list A)) : separated [] ls = List.concat ls.
  Proof.
    induction ls as [|l [|l' ls] IH]; [reflexivity|cbn; now rewrite app_nil_r|].
    cbn [separated List.concat app] in *. now rewrite IH.
  Qed.

  Lemma opens_prod (p : ProdInner T NT AK AV) : opens (to_doc p) (prod_tokens (prod_names show_t show_nt p)).
  Proof.
    unfold to_doc, ToDoc_ProdInner, prod_tokens, prod_names.
    destruct (pi_elements p) as [|e es] eqn:E; [exact (opens_text "ε")|].
    rewrite <- E.
    assert (F : match map (elem_names show_t show_nt) (pi_elements p) with [] => [Word "ε"]
                | _ => flat_map elem_tokens (map (elem_names show_t show_nt) (pi_elements p)) end
              = separated [] (map (fun e => elem_tokens (elem_names show_t show_nt e)) (pi_elements p))).
    { rewrite separated_nil, <- flat_map_concat_map. rewrite E. cbn [map flat_map]. f_equal.
      clear. induction es as [|x es IH]; cbn; [reflexivity|now rewrite IH]. }
    rewrite F. apply intersperse_opens; [intros a _; apply opens_pelem|apply starts_softline|apply closed_softline].
  Qed.

  Lemma opens_rule (r : RuleInner T NT AK AV) :
    closed (DAppend (DAppend (to_doc r) (DText ";")) softline) (rule_tokens (rule_names show_t show_nt r)).
  Proof.
    unfold rule_tokens, rule_names. cbn [fst snd].
    rewrite <- (app_nil_r (lex _ ++ _)). apply closed_append; [|apply closed_softline].
    rewrite !app_assoc. apply opens_append; [|apply starts_text; reflexivity|exact (closed_text "" ";"%char eq_refl)].
    unfold to_doc, ToDoc_RuleInner. apply closed_append_o.
    - rewrite <- (app_nil_r (lex _ ++ _)). apply closed_append; [|apply closed_softline].
      rewrite text_nt. apply opens_append; [apply opens_text|apply starts_text; reflexivity|].
      exact (closed_text " =" ">"%char eq_refl).
    - rewrite map_map. apply intersperse_opens; [intros p _; apply opens_prod| |].
      + apply starts_append, starts_text. reflexivity.
      + change [Sym "|"%char] with ([Sym "|"%char] ++ [])%list.
        apply closed_append; [exact (closed_text " " "|"%char eq_refl)|apply closed_softline].
  Qed.

  Lemma closed_eq d ts ts' : closed d ts -> ts = ts' -> closed d ts'.
  Proof. now intros ? <-. Qed.

  Lemma grammar_closed (g : Grammar T NT AK AV) :
    closed (to_doc g) (grammar_tokens (grammar_names show_t show_nt g)).
  Proof.
    unfold to_doc, ToDoc_Grammar, concat_docs. cbn [map fold_left].
    eapply closed_eq.
    - eapply closed_append; [eapply closed_append; [apply closed_nil|]|].
      + eapply closed_append; [|apply closed_softline].
        eapply opens_append; [|apply starts_text; reflexivity|exact (closed_text "" ","%char eq_refl)].
        rewrite text_nt. eapply closed_append_o; [|apply opens_text].
        eapply closed_append; [|apply closed_softline].
        apply closed_group. exact (closed_text "Start " "="%char eq_refl).
      + eapply closed_append; [|apply closed_softline].
        eapply closed_append; [|exact (closed_text "" ","%char eq_refl)].
        eapply closed_append; [exact (closed_text "Rules" " "%char eq_refl)|].
        unfold braces. eapply closed_append; [|exact (closed_text "" "}"%char eq_refl)].
        eapply closed_append; [exact (closed_text "" "{"%char eq_refl)|].
        eapply closed_append; [apply closed_softline|].
        apply closed_nest. apply (concat_closed _ (fun r => rule_tokens (rule_names show_t show_nt (snd r)))); [|apply closed_nil].
        intros r _. apply opens_rule.
    - unfold grammar_tokens, grammar_names. cbn [fst snd].
      cbn [append]. unfold lex. cbn. rewrite !app_nil_r, <- !app_assoc. cbn [app].
      do 2 f_equal. unfold start_nt. do 5 f_equal.
      unfold rules, bt_values. rewrite !flat_map_concat_map, !map_map. reflexivity.
  Qed.

  Lemma grammar_layout (g : Grammar T NT AK AV) f i s :
    laid_out f i (to_doc g) s -> lex s = grammar_tokens (grammar_names show_t show_nt g).
  Proof.
    intros L. pose proof (grammar_closed g f i s L "") as E. rewrite sapp_nil in E.
    rewrite E. cbn. now rewrite app_nil_r.
  Qed.
End Tokens.

(** ** Reading the tokens *)

Lemma lex_plain s : plain s = true -> forall w, lex_from w s = word (w ++ s).
Proof.
  induction s as [|c s IH]; intros Hs w; cbn [lex_from].
  - now rewrite sapp_nil.
  - cbn [plain] in Hs. apply andb_true_iff in Hs. destruct Hs as [Hc Hs].
    apply negb_true_iff, orb_false_iff in Hc. destruct Hc as [-> ->].
    rewrite IH by assumption. now rewrite sapp_assoc.
Qed.

Lemma lex_clean s : clean s -> lex s = [Word s].
Proof.
  intros [Hn Hp]. unfold lex. rewrite lex_plain by assumption. cbn [append]. unfold word.
  destruct (String.eqb_spec s ""); [contradiction|reflexivity].
Qed.

Definition clean_elem (e : ProdElement string string) : Prop :=
  (forall n, pe_id e = Some n -> clean n) /\
  match pe_elem e with Term t => clean t /\ t <> "ε" | NonTerm n => clean n end.

Lemma clean_elem_tokens e : clean_elem e ->
  elem_tokens e =
  (match pe_id e with Some n => [Word n; Sym ":"%char] | None => [] end ++
   match pe_elem e with Term t => [Word t] | NonTerm n => [Sym "<"%char; Word n; Sym ">"%char] end)%list.
Proof.
  intros [Hi He]. unfold elem_tokens. destruct e as [[n|] [t|m]]; cbn [pe_id pe_elem] in *;
  try (rewrite (lex_clean n) by now apply Hi); rewrite lex_clean by tauto; reflexivity.
Qed.

Lemma read_elems_tokens es : Forall clean_elem es -> read_elems (flat_map elem_tokens es) = Some es.
Proof.
  induction 1 as [|e es He Hes IH]; [reflexivity|].
  cbn [flat_map]. rewrite (clean_elem_tokens e He).
  assert (N : match flat_map elem_tokens es with Sym ":"%char :: _ => False | _ => True end).
  { destruct Hes as [|e' es' He' _]; [exact I|]. cbn [flat_map]. rewrite (clean_elem_tokens e' He').
    destruct e' as [[n|] [t|m]]; exact I. }
  destruct e as [[n|] [t|m]]; cbn [pe_id pe_elem app].
  - cbn [read_elems]. now rewrite IH.
  - cbn [read_elems]. now rewrite IH.
  - revert N IH. generalize (flat_map elem_tokens es). intros ts N IH. 
    destruct ts as [|[w|c] ts]; cbn [read_elems] in *; try (rewrite IH; reflexivity).
    destruct c as [[] [] [] [] [] [] [] []]; try (rewrite IH; reflexivity). contradiction.
  - cbn [read_elems]. now rewrite IH.
Qed.

Lemma read_prod_tokens p : Forall clean_elem p -> read_prod (prod_tokens p) = Some p.
Proof.
  intros Hp. destruct p as [|e es]; [reflexivity|]. unfold prod_tokens.
  pose proof (read_elems_tokens (e :: es) Hp) as R.
  destruct (flat_map elem_tokens (e :: es)) as [|[w|c] ts] eqn:E.
  - cbn [flat_map] in E. apply app_eq_nil in E. destruct E as [E _].
    inversion Hp as [|? ? He _]; subst. rewrite (clean_elem_tokens e He) in E.
    destruct e as [[n|] [t|m]]; discriminate.
  - destruct ts as [|t ts]; [|exact R]. cbn [read_prod].
    destruct (String.eqb_spec w "ε") as [->|]; [|exact R].
    cbn in R. injection R as <- <-. inversion Hp as [|? ? He _]; subst. destruct He as [_ [_ He]].
    now elim He.
  - destruct ts; exact R.
Qed.

Definition no_sym (c : ascii) (ts : list token) : Prop := ~ In (Sym c) ts.

Lemma split_at_none c ts : no_sym c ts -> split_at c ts = [ts].
Proof.
  induction ts as [|t ts IH]; intros H; [reflexivity|]. cbn [split_at].
  rewrite IH by (intros Hi; apply H; now right).
  destruct t as [w|d]; [reflexivity|]. destruct (Ascii.eqb_spec c d) as [->|]; [|reflexivity].
  elim H. now left.
Qed.

Lemma split_at_app c a ts : no_sym c a -> split_at c (a ++ Sym c :: ts) = a :: split_at c ts.
Proof.
  induction a as [|t a IH]; intros H; cbn [app split_at]; [now rewrite Ascii.eqb_refl|].
  rewrite IH by (intros Hi; apply H; now right).
  destruct t as [w|d]; [reflexivity|]. destruct (Ascii.eqb_spec c d) as [->|]; [|reflexivity].
  elim H. now left.
Qed.

Lemma split_separated {A} c (f : A -> list token) l :
  (forall a, In a l -> no_sym c (f a)) -> l <> [] ->
  split_at c (separated [Sym c] (map f l)) = map f l.
Proof.
  induction l as [|a [|b l] IH]; intros H N; [contradiction| |].
  - apply split_at_none. apply H. now left.
  - cbn [map separated app]. rewrite split_at_app by (apply H; now left).
    f_equal. apply IH; [intros x Hx; apply H; now right|discriminate].
Qed.

Lemma split_ended {A} c (f : A -> list token) l :
  (forall a, In a l -> no_sym c (f a)) ->
  split_at c (flat_map (fun a => f a ++ [Sym c])%list l) = (map f l ++ [[]])%list.
Proof.
  induction l as [|a l IH]; intros H; [reflexivity|].
  cbn [flat_map map app]. rewrite <- app_assoc. cbn [app]. rewrite split_at_app by (apply H; now left).
  f_equal. apply IH. intros x Hx. apply H. now right.
Qed.

Lemma all_some_map {A B} (f : A -> option B) (g : B -> A) l :
  (forall b, In b l -> f (g b) = Some b) -> all_some (map f (map g l)) = Some l.
Proof.
  induction l as [|b l IH]; intros H; [reflexivity|]. cbn. rewrite H by now left.
  now rewrite IH by (intros x Hx; apply H; now right).
Qed.

Lemma elem_no_sym c e : clean_elem e -> c <> "<"%char -> c <> ">"%char -> c <> ":"%char -> no_sym c (elem_tokens e).
Proof.
  intros He H1 H2 H3. rewrite (clean_elem_tokens e He). unfold no_sym.
  destruct e as [[n|] [t|m]]; cbn; intuition congruence.
Qed.
Lemma prod_no_sym c p : Forall clean_elem p -> c <> "<"%char -> c <> ">"%char -> c <> ":"%char ->
  no_sym c (prod_tokens p).
Proof.
  intros Hp H1 H2 H3. destruct p as [|e es]; [cbn; unfold no_sym; cbn; intuition congruence|].
  unfold prod_tokens, no_sym. rewrite in_flat_map. intros (x & Hx & Hi).
  revert Hi. apply elem_no_sym; try assumption. rewrite Forall_forall in Hp. now apply Hp.
Qed.

Definition clean_rule (r : text_rule) : Prop :=
  clean (fst r) /\ snd r <> [] /\ Forall (Forall clean_elem) (snd r).

(** The tokens of a rule without the final semicolon. *)
Definition rule_body (r : text_rule) : list token :=
  Word (fst r) :: Sym "="%char :: Sym ">"%char :: separated [Sym "|"%char] (map prod_tokens (snd r)).

Lemma rule_tokens_body r : clean_rule r -> rule_tokens r = (rule_body r ++ [Sym ";"%char])%list.
Proof. intros (Hh & _). unfold rule_tokens, rule_body. now rewrite lex_clean. Qed.

Lemma separated_in {A} (x : A) sep ls : In x (separated sep ls) -> In x sep \/ exists l, In l ls /\ In x l.
Proof.
  induction ls as [|l [|l' ls] IH]; intros H; [contradiction| |].
  - right. exists l. split; [now left|assumption].
  - cbn [separated] in H. apply in_app_or in H. destruct H as [H|H].
    + right. exists l. split; [now left|assumption].
    + apply in_app_or in H. destruct H as [H|H]; [now left|].
      destruct (IH H) as [|(m & Hm & Hx)]; [now left|]. right. exists m. split; [now right|assumption].
Qed.

Lemma rule_no_sym c r : clean_rule r -> c <> "<"%char -> c <> ">"%char -> c <> ":"%char -> c <> "="%char -> c <> "|"%char ->
  no_sym c (rule_body r).
Proof.
  intros (_ & _ & Hr) H1 H2 H3 H4 H5 Hi. cbn in Hi.
  destruct Hi as [Hi|[Hi|[Hi|Hi]]]; try congruence.
  apply separated_in in Hi. destruct Hi as [[Hi|[]]|(l & Hl & Hi)]; [congruence|].
  apply in_map_iff in Hl. destruct Hl as (p & <- & Hp). revert Hi.
  apply prod_no_sym; try assumption. rewrite Forall_forall in Hr. now apply Hr.
Qed.

Lemma read_rule_tokens r : clean_rule r -> read_rule (rule_body r) = Some r.
Proof.
  intros (_ & Hn & Hr). unfold rule_body. cbn [read_rule].
  rewrite split_separated; [|intros p Hp; apply prod_no_sym; try discriminate; rewrite Forall_forall in Hr; now apply Hr|assumption].
  rewrite all_some_map; [now destruct r|].
  intros p Hp. apply read_prod_tokens. rewrite Forall_forall in Hr. now apply Hr.
Qed.

Lemma read_tokens_grammar (g : text_grammar) : clean (fst g) -> Forall clean_rule (snd g) ->
  read_tokens (grammar_tokens g) = Some g.
Proof.
  destruct g as [st rs]. cbn [fst snd]. intros Hs Hr. rewrite Forall_forall in Hr.
  unfold grammar_tokens. cbn [fst snd]. rewrite (lex_clean st Hs). cbn [app].
  unfold read_tokens.
  assert (E : flat_map rule_tokens rs = flat_map (fun r => rule_body r ++ [Sym ";"%char])%list rs).
  { rewrite !flat_map_concat_map. f_equal. apply map_ext_in. intros r Hi. now apply rule_tokens_body, Hr. }
  rewrite E. rewrite split_at_app.
  - cbn [split_at].
    rewrite split_ended by (intros r Hi; apply rule_no_sym; [now apply Hr|discriminate..]).
    rewrite removelast_last. rewrite all_some_map; [reflexivity|]. intros r Hi. apply read_rule_tokens. now apply Hr.
  - unfold no_sym. rewrite in_flat_map. intros (r & Hi & Hx). apply in_app_or in Hx. destruct Hx as [Hx|[Hx|[]]]; [|discriminate].
    revert Hx. apply rule_no_sym; [now apply Hr|discriminate..].
Qed.

Lemma simple_renders : renders simple_render.
Proof.
  intros w d. exists false. unfold simple_render. generalize 0 at 1 2. intros i. generalize 0. generalize false.
  revert i. induction d as [| |a IHa b IHb|d IH|n d IH|b IHb a IHa|]; intros i f c; cbn [render_at].
  - constructor.
  - constructor.
  - specialize (IHa i f c). destruct (render_at w f i c a) as [s c1].
    specialize (IHb i f c1). destruct (render_at w f i c1 b) as [t c2]. now constructor.
  - econstructor. apply IH.
  - constructor. apply IH.
  - destruct f; [apply lay_flat, IHa|apply lay_broken, IHb].
  - constructor.
Qed.

From Verif.Spec Require Import Cfg BuildSpec.
From Verif.Proofs Require Import OrdFacts BTreeFacts LoopFacts GrammarFacts StartFacts BuildMore.

Lemma pretty_tokens_gen {T NT AK AV : Type} {DT : ToDoc T} {DN : ToDoc NT}
  (show_t : T -> string) (show_nt : NT -> string) :
  (forall t : T, to_doc t = DText (show_t t)) -> (forall n : NT, to_doc n = DText (show_nt n)) ->
  forall render (g : Grammar T NT AK AV), renders render ->
  lex (to_pretty render g) = grammar_tokens (grammar_names show_t show_nt g).
Proof.
  intros text_t text_nt render g R. destruct (R 80 (to_doc g)) as [f L].
  exact (grammar_layout show_t show_nt text_t text_nt g _ _ _ L).
Qed.

Section Main.
  Context {T NT AK AV : Type} {DT : ToDoc T} {DN : ToDoc NT} `{OrdEq NT}.
  Variables (show_t : T -> string) (show_nt : NT -> string).
  Hypothesis text_t : forall t : T, to_doc t = DText (show_t t).
  Hypothesis text_nt : forall n : NT, to_doc n = DText (show_nt n).

  Lemma pretty_tokens render (g : Grammar T NT AK AV) : renders render ->
    lex (to_pretty render g) = grammar_tokens (grammar_names show_t show_nt g).
  Proof. exact (pretty_tokens_gen show_t show_nt text_t text_nt render g). Qed.

  Lemma pretty_reads_back render (g : Grammar T NT AK AV) :
    built g -> renders render -> readable (grammar_names show_t show_nt g) ->
    read_grammar (to_pretty render g) = Some (grammar_names show_t show_nt g).
  Proof.
    intros B R [Hs Hr]. unfold read_grammar. rewrite pretty_tokens by assumption.
    apply read_tokens_grammar; [assumption|]. apply Forall_forall. intros [h ps] Hi.
    destruct (Hr h ps Hi) as [Hh He]. split; [assumption|]. cbn [fst snd]. split.
    - destruct B as (st & calls & B). destruct (build_Ok_inv _ _ _ B) as (_ & A & _).
      cbn [grammar_names snd] in Hi. apply in_map_iff in Hi. destruct Hi as (r & E & Hi).
      injection E as <- <-. apply (rules_In g r (acc_wf g A)) in Hi.
      intros E. apply map_eq_nil in E. exact (acc_prods g A _ _ Hi E).
    - apply Forall_forall. intros p Hp. apply Forall_forall. intros e Hi'. exact (He p e Hp Hi').
  Qed.

  Lemma wrapped_rules (g : Grammar T NT AK AV) sg :
    built g -> runs_to (wrap_grammar_with_start g) (Ret (Ok sg)) ->
    start_nt sg = Start /\
    rules sg = Build_RuleInner Start [start_prod_inner g] ::
               map (fun r => Build_RuleInner (NTerm (r_head r)) (map wrap_prod (r_prods r))) (rules g).
  Proof.
    intros (st & calls & B) W. destruct (build_Ok_inv _ _ _ B) as (_ & A & _).
    pose proof (wrapped_eq g sg A W) as E.
    assert (A' : accepted sg) by (rewrite E; exact (wrap_accepted g A)).
    split; [now rewrite E|].
    assert (F : rule_set sg = (Start, Build_RuleInner Start [start_prod_inner g]) ::
      map (fun ar => (NTerm (fst ar), Build_RuleInner (NTerm (fst ar)) (map wrap_prod (r_prods (snd ar))))) (rule_set g)).
    { apply msorted_ext.
      - exact (proj1 (acc_wf sg A')).
      - pose proof (proj1 (acc_wf g A)) as S. unfold msorted, sorted in *. unfold bt_keys in *.
        cbn [map fst]. rewrite map_map. cbn [fst]. constructor.
        + clear - S. induction (rule_set g) as [|[a r] l IH]; [constructor|]. cbn [map fst] in *.
          inversion S as [|? ? S1 S2]; subst. constructor; [now apply IH|].
          rewrite Forall_forall in *. intros x Hx. apply in_map_iff in Hx. destruct Hx as (y & <- & Hy).
          exact (S2 (fst y) (in_map fst _ _ Hy)).
        + apply Forall_forall. intros x Hx. apply in_map_iff in Hx. destruct Hx as (y & <- & Hy). reflexivity.
      - intros k.
        assert (D : forall m m' : btmap (StartNonTerminal NT) (RuleInner (StreamTerminal T) (StartNonTerminal NT) (StartActionKey AK) (StartActionValue AV)),
          (forall v, bt_get k m = Some v <-> bt_get k m' = Some v) -> bt_get k m = bt_get k m').
        { intros m m' D. destruct (bt_get k m) as [v|] eqn:E1.
          - symmetry. now apply D.
          - destruct (bt_get k m') as [v|] eqn:E2; [|reflexivity]. now apply D. }
        apply D. intros v. rewrite (bt_get_iff k v (rule_set sg) (proj1 (acc_wf sg A'))).
        rewrite E, (wrap_In g A). destruct k as [|b].
        + cbn [bt_get]. change (cmp (@Start NT) Start) with Eq. cbn match.
          split; [now intros ->|now intros [= ->]].
        + cbn [bt_get]. change (cmp (NTerm b) Start) with Gt. cbn match.
          pose proof (proj1 (acc_wf g A)) as S. split.
          * intros (r0 & Hi & ->). clear D. apply (bt_get_iff b r0 _ S) in Hi. clear - Hi H0.
            induction (rule_set g) as [|[a r] l IH]; [discriminate|]. cbn [map bt_get fst snd] in *.
            change (cmp (NTerm b) (NTerm a)) with (cmp b a). destruct (cmp b a) eqn:C; [|now apply IH..].
            injection Hi as ->. apply cmp_eq in C. now subst.
          * intros G. clear D. assert (X : exists r0, bt_get b (rule_set g) = Some r0 /\ v = Build_RuleInner (NTerm b) (map wrap_prod (r_prods r0))).
            { clear - G H0. induction (rule_set g) as [|[a r] l IH]; [discriminate|]. cbn [map bt_get fst snd] in *.
              change (cmp (NTerm b) (NTerm a)) with (cmp b a) in G. destruct (cmp b a) eqn:C; [|now apply IH..].
              injection G as <-. apply cmp_eq in C. subst. now exists r. }
            destruct X as (r0 & Hi & ->). exists r0. split; [|reflexivity]. now apply (bt_get_iff b r0 _ S). }
    unfold rules, bt_values. rewrite F. cbn [map snd]. f_equal. rewrite !map_map. apply map_ext_in.
    intros [a r] Hi. cbn [fst snd]. now rewrite (proj2 (acc_wf g A) a r Hi).
  Qed.

  Lemma wrapped_tokens render (g : Grammar T NT AK AV) sg :
    built g -> runs_to (wrap_grammar_with_start g) (Ret (Ok sg)) -> renders render ->
    lex (to_pretty render sg) =
      ([Word "Start"; Sym "="; Sym "<"; Word "START"; Sym ">"; Sym ","; Word "Rules"; Sym "{";
        Sym "<"; Word "START"; Sym ">"; Sym "="; Sym ">"; Word "start"; Sym ":"; Sym "<"]%char ++
       lex (show_nt (start_nt g)) ++ [Sym ">"; Sym "<"; Word "EOS"; Sym ">"; Sym ";"]%char ++
       flat_map rule_tokens (snd (grammar_names show_t show_nt g)) ++ [Sym "}"; Sym ","]%char)%list.
  Proof.
    intros B W R. destruct (wrapped_rules g sg B W) as [Es Er].
    set (st := fun t : StreamTerminal T => match t with EndOfStream => "<EOS>" | STerm t => show_t t end).
    set (sn := fun n : StartNonTerminal NT => match n with Start => "<START>" | NTerm n => show_nt n end).
    assert (Ht : forall t : StreamTerminal T, to_doc t = DText (st t)) by (intros [|t]; [reflexivity|apply text_t]).
    assert (Hn : forall n : StartNonTerminal NT, to_doc n = DText (sn n)) by (intros [|n]; [reflexivity|apply text_nt]).
    rewrite (pretty_tokens_gen st sn Ht Hn render sg R).
    unfold grammar_tokens, grammar_names. rewrite Es, Er. cbn [fst snd map flat_map].
    rewrite map_map.
    assert (E : map (fun r : RuleInner T NT AK AV => rule_names st sn (Build_RuleInner (NTerm (r_head r)) (map (@wrap_prod T NT AK AV) (r_prods r)))) (rules g)
              = map (rule_names show_t show_nt) (rules g)).
    { apply map_ext. intros r. unfold rule_names. cbn [r_head r_prods]. f_equal. rewrite map_map. apply map_ext.
      intros p. unfold prod_names. cbn [pi_elements wrap_prod]. rewrite map_map. apply map_ext.
      intros [i [t|n]]; reflexivity. }
    rewrite E. generalize (flat_map rule_tokens (map (rule_names show_t show_nt) (rules g))). intros rest.
    unfold rule_tokens, rule_names, prod_names. cbn [fst snd r_head r_prods map pi_elements start_prod_inner].
    cbn [separated prod_tokens map flat_map].
    unfold elem_tokens, elem_names. cbn [pe_id pe_elem sn st].
    change (lex "<START>") with [Sym "<"; Word "START"; Sym ">"]%char.
    change (lex "<EOS>") with [Sym "<"; Word "EOS"; Sym ">"]%char.
    change (lex "start") with [Word "start"]. cbn [app]. rewrite <- !app_assoc. cbn [app].
    reflexivity.
  Qed.
End Main.

Lemma same_text_same_grammar {AK AV AK' AV'} render render'
  (g : Grammar name name AK AV) (g' : Grammar name name AK' AV') :
  built g -> built g' -> renders render -> renders render' ->
  readable (grammar_names (fun t => t) (fun n => n) g) -> readable (grammar_names (fun t => t) (fun n => n) g') ->
  to_pretty render g = to_pretty render' g' ->
  start_nt g = start_nt g' /\
  map (fun r => (r_head r, map pi_elements (r_prods r))) (rules g) =
  map (fun r => (r_head r, map pi_elements (r_prods r))) (rules g').
Proof.
  intros B B' R R' D D' E.
  assert (K : forall AK AV (g : Grammar name name AK AV),
    grammar_names (fun t => t) (fun n => n) g =
    (start_nt g, map (fun r => (r_head r, map pi_elements (r_prods r))) (rules g))).
  { intros AK0 AV0 g0. unfold grammar_names. f_equal. apply map_ext. intros r. unfold rule_names. f_equal.
    apply map_ext. intros p. unfold prod_names. rewrite <- map_id. apply map_ext. intros [i [t|n]]; reflexivity. }
  pose proof (@pretty_reads_back name name AK AV ToDoc_name ToDoc_name _ _ (fun t => t) (fun n => n) (fun _ => eq_refl) (fun _ => eq_refl) render g B R D) as P.
  pose proof (@pretty_reads_back name name AK' AV' ToDoc_name ToDoc_name _ _ (fun t => t) (fun n => n) (fun _ => eq_refl) (fun _ => eq_refl) render' g' B' R' D') as P'.
  rewrite E, P' in P. rewrite !K in P. injection P as P1 P2. now split.
Qed.

Lemma build_vm_name {AK AV} start (calls : list (gb_call name name AK AV)) n r :
  build start calls n = r -> r <> NoFuel -> runs_to (build start calls) r.
Proof. intros E N. exact (runs_to_mono _ n r (build_mono start calls) E N). Qed.
Ltac by_building calls := exists "S", calls; apply (build_vm_name _ _ 10); [vm_compute; reflexivity | discriminate].

Definition pretty_ex : Grammar name name nat nat :=
  let t x := Build_ProdElement None (Term x) in
  Build_Grammar "S"
   [("A", Build_RuleInner "A" [Build_ProdInner 2 0 [t "a"]; Build_ProdInner 3 0 [t "b"]; Build_ProdInner 4 0 []]);
    ("S", Build_RuleInner "S"
      [Build_ProdInner 0 0 [Build_ProdElement (Some "left") (NonTerm "A"); t "c"; Build_ProdElement None (NonTerm "S");
                            Build_ProdElement (Some "right") (Term "d")];
       Build_ProdInner 1 0 [t "end"]])].
Lemma pretty_ex_ok : built pretty_ex /\ readable (grammar_names (fun t => t) (fun n => n) pretty_ex).
Proof.
  split.
  - by_building (
     [AddRule "S" [AddProd 0 0 [AddNamedNonterm "left" "A"; AddTerm "c"; AddNonterm "S"; AddNamedTerm "right" "d"];
                   AddProd 1 0 [AddTerm "end"]];
      AddRule "A" [AddProd 2 0 [AddTerm "a"]; AddProd 3 0 [AddTerm "b"]; AddProd 4 0 []]] : list (gb_call name name nat nat)).
  - assert (C : forall s, s <> "" -> plain s = true -> clean s) by (intros; now split).
    split; [now apply C|]. cbn. intros h ps Hi.
    repeat (destruct Hi as [[= <- <-]|Hi]; [split; [now apply C|]; intros p e Hp He; cbn in Hp;
      repeat (destruct Hp as [<-|Hp]; [cbn in He; repeat (destruct He as [<-|He]; [cbn; split; [intros n [= <-] || (intros n; discriminate); now apply C|try split; try (now apply C); discriminate]|]); contradiction|]); contradiction|]).
    contradiction.
Qed.

(** One production a, with any action value. *)
Definition act_g (v : nat) : Grammar name name nat nat :=
  Build_Grammar "S" [("S", Build_RuleInner "S" [Build_ProdInner 0 v [Build_ProdElement None (Term "a")]])].
Lemma actions_lost : exists g g' : Grammar name name nat nat,
  built g /\ built g' /\ g <> g' /\ forall render, to_pretty render g = to_pretty render g'.
Proof.
  exists (act_g 0), (act_g 1).
  split; [by_building ([AddRule "S" [AddProd 0 0 [AddTerm "a"]]] : list (gb_call name name nat nat))|].
  split; [by_building ([AddRule "S" [AddProd 0 1 [AddTerm "a"]]] : list (gb_call name name nat nat))|].
  split; [discriminate|reflexivity].
Qed.

(** Two productions, a and [es]. *)
Definition two_g (es : list (ProdElement name name)) : Grammar name name nat nat :=
  Build_Grammar "S" [("S", Build_RuleInner "S" [Build_ProdInner 0 0 [Build_ProdElement None (Term "a")]; Build_ProdInner 1 0 es])].
Lemma names_confused :
  (exists g g' : Grammar name name nat nat,
    built g /\ built g' /\ rhs_of g "S" [NonTerm "S"] /\ ~ rhs_of g' "S" [NonTerm "S"] /\
    to_pretty simple_render g = to_pretty simple_render g') /\
  (exists g g' : Grammar name name nat nat,
    built g /\ built g' /\ rhs_of g "S" [] /\ ~ rhs_of g' "S" [] /\
    to_pretty simple_render g = to_pretty simple_render g').
Proof.
  assert (N : forall es rhs, rhs_of (two_g es) "S" rhs -> rhs = [Term "a"] \/ rhs = map pe_elem es).
  { intros es rhs (p & (r & Hi & Hp) & ->). cbn in Hi. destruct Hi as [[= <-]|[]]. cbn in Hp.
    destruct Hp as [<-|[<-|[]]]; [now left|now right]. }
  assert (Y : forall es, rhs_of (two_g es) "S" (map pe_elem es)).
  { intros es. exists (Build_ProdInner 1 0 es). split; [|reflexivity]. eexists. split; [left; reflexivity|]. right. left. reflexivity. }
  split.
  - exists (two_g [Build_ProdElement None (NonTerm "S")]), (two_g [Build_ProdElement None (Term "<S>")]).
    split; [by_building ([AddRule "S" [AddProd 0 0 [AddTerm "a"]; AddProd 1 0 [AddNonterm "S"]]] : list (gb_call name name nat nat))|].
    split; [by_building ([AddRule "S" [AddProd 0 0 [AddTerm "a"]; AddProd 1 0 [AddTerm "<S>"]]] : list (gb_call name name nat nat))|].
    split; [|split; [intros Hr; apply N in Hr; destruct Hr; discriminate|vm_compute; reflexivity]].
    exact (Y [Build_ProdElement None (NonTerm "S")]).
  - exists (two_g []), (two_g [Build_ProdElement None (Term "ε")]).
    split; [by_building ([AddRule "S" [AddProd 0 0 [AddTerm "a"]; AddProd 1 0 []]] : list (gb_call name name nat nat))|].
    split; [by_building ([AddRule "S" [AddProd 0 0 [AddTerm "a"]; AddProd 1 0 [AddTerm "ε"]]] : list (gb_call name name nat nat))|].
    split; [|split; [intros Hr; apply N in Hr; destruct Hr; discriminate|vm_compute; reflexivity]].
    exact (Y []).
Qed.
