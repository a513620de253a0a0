(** Consequences of the main theorems about the Earley parser, and concrete runs. *)
From Coq Require Import String List Arith NArith Cantor Lia.
From Verif.Model Require Import Ord BTree Outcome Utils Grammar StartGrammar Tokens Tree State Earley.
From Verif.Spec Require Import Reach Cfg BuildSpec NullSpec TreeSpec EarleySpec Examples.
From Verif.Proofs Require Import OrdFacts BTreeFacts LoopFacts GrammarFacts StartFacts BuildMore CfgFacts TreeFacts TreeHist
  EarleyItems EarleyRun EarleyParse EarleyMain.
Import ListNotations.

(** ** Prefix-free grammars *)
Section PrefixFree.
  Context {T NT : Type}.
  Variable P : NT -> list (Elem T NT) -> Prop.
  Hypothesis PF : prefix_free P.

  Lemma prefix_cmp {A} (u v x y : list A) : u ++ x = v ++ y -> (exists z, v = u ++ z) \/ (exists z, u = v ++ z).
  Proof.
    revert v. induction u as [|a u IH]; intros [|b v] E; simpl in E.
    - left. exists []. reflexivity.
    - left. exists (b :: v). reflexivity.
    - right. exists (a :: u). reflexivity.
    - injection E as -> E. destruct (IH _ E) as [[z ->]|[z ->]]; [left|right]; exists z; reflexivity.
  Qed.
  Lemma gen_nonempty es u : gen P es u -> es <> [] -> u <> [].
  Proof.
    intros G N. destruct es as [|e es]; [congruence|]. inversion G as [|t es' w G'|A rhs es' u' w Pr G1 G2]; subst; [discriminate|].
    assert (L : lang P A u'). { unfold lang. rewrite <- (app_nil_r u'). econstructor; [exact Pr|exact G1|constructor]. }
    destruct (PF A u' [] L) as [Ne _]. destruct u'; [congruence|discriminate].
  Qed.
  Lemma gen_prefix es : forall u v x y, gen P es u -> gen P es v -> u ++ x = v ++ y -> u = v.
  Proof.
    induction es as [|e es IH]; intros u v x y G1 G2 E; inversion G1 as [|t es' w G'|A rhs es' u' w Pr Ga Gb]; subst;
      inversion G2 as [|t2 es2 w2 G2'|A2 rhs2 es2 u2' w2 Pr2 Ga2 Gb2]; subst; [reflexivity| |].
    - simpl in E. injection E as E. f_equal. exact (IH _ _ _ _ G' G2' E).
    - assert (L1 : lang P A u'). { unfold lang. rewrite <- (app_nil_r u'). econstructor; [exact Pr|exact Ga|constructor]. }
      assert (L2 : lang P A u2'). { unfold lang. rewrite <- (app_nil_r u2'). econstructor; [exact Pr2|exact Ga2|constructor]. }
      rewrite <- !app_assoc in E. assert (Eu : u' = u2').
      { destruct (prefix_cmp _ _ _ _ E) as [[z ->]|[z ->]].
        - destruct (PF A u' z L1) as [_ X]. rewrite (X L2), app_nil_r. reflexivity.
        - destruct (PF A u2' z L2) as [_ X]. rewrite (X L1), app_nil_r. reflexivity. }
      subst u2'. apply app_inv_head in E. f_equal. exact (IH _ _ _ _ Gb Gb2 E).
  Qed.
  Lemma gen_app_inv es es' u : gen P (es ++ es') u -> exists a b, u = a ++ b /\ gen P es a /\ gen P es' b.
  Proof.
    revert u. induction es as [|e es IH]; intros u G; simpl in G; [exists [], u; repeat split; [constructor|exact G]|].
    inversion G as [|t es0 w0 G'|A rhs es0 u0 w0 Pr Ga Gb]; subst.
    - destruct (IH _ G') as (a & b & -> & G1 & G2). exists (t :: a), b. split; [reflexivity|]. split; [constructor; exact G1|exact G2].
    - destruct (IH _ Gb) as (a & b & -> & G1 & G2). exists (u0 ++ a), b. rewrite app_assoc. split; [reflexivity|].
      split; [econstructor; eassumption|exact G2].
  Qed.
  Lemma pf_two_places S w k : ~ two_places P S w k.
  Proof.
    intros (i & A & pre & mid & post & _ & _ & Nm & _ & _ & G1 & G2).
    destruct (gen_app_inv _ _ _ G2) as (a & b & E & Ga & Gb).
    rewrite E in G1. assert (X : a ++ b = a) by (apply (gen_prefix pre _ _ [] b G1 Ga), app_nil_r).
    rewrite <- (app_nil_r a) in X at 2. apply app_inv_head in X. exact (gen_nonempty _ _ Gb Nm X).
  Qed.
  Lemma skipn_seg {A} (w : list A) i j : i <= j -> skipn i w = seg w i j ++ skipn j w.
  Proof.
    intro L. unfold seg. rewrite <- (firstn_skipn (j - i) (skipn i w)) at 1. f_equal.
    assert (X : forall n m (l : list A), skipn m (skipn n l) = skipn (n + m) l).
    { clear. induction n as [|n IH]; intros m l; [reflexivity|]. destruct l; simpl; [apply skipn_nil|apply IH]. }
    rewrite X. f_equal. lia.
  Qed.
  Lemma pf_unique_cuts S w : unique_cuts P S w.
  Proof.
    intros i A pre post k cs cs' _ _ C. revert cs'. clear post.
    induction C as [i|e es i j k cs L1 L2 G C IH]; intros cs' C'; inversion C' as [|e' es' i' j' k' cs2 L1' L2' G' C2]; subst; [reflexivity|].
    assert (Es : seg w i j = seg w i j').
    { apply (gen_prefix [e] _ _ (skipn j w) (skipn j' w) G G'). rewrite <- !skipn_seg by lia. reflexivity. }
    assert (j = j'). { apply (f_equal (@length T)) in Es. rewrite !seg_length in Es by lia. lia. }
    subst j'. f_equal. apply IH. exact C2.
  Qed.
  Lemma pf_no_empty A : ~ lang P A [].
  Proof. intro L. destruct (PF A [] [] L) as [X _]. congruence. Qed.
End PrefixFree.

Lemma gen_forms {T NT} (P : NT -> list (Elem T NT) -> Prop) es u : gen P es u -> forall pre post,
  derives_form P (pre ++ es ++ post) (pre ++ map Term u ++ post).
Proof.
  assert (ST : forall a b c, derives_form P a b -> derives_form P b c -> derives_form P a c).
  { intros a b c S1 S2. induction S2 as [|y z S2 IH St]; [exact S1|]. econstructor; eassumption. }
  intro G. induction G as [|t es w G IH|A rhs es u w Pr G1 IH1 G2 IH2]; intros pre post; simpl.
  - constructor.
  - specialize (IH (pre ++ [Term t]) post). rewrite <- !app_assoc in IH. exact IH.
  - eapply ST; [eapply star_step; [constructor|exact (sstep_intro P pre A rhs (es ++ post) Pr)]|].
    eapply ST; [exact (IH1 pre (es ++ post))|]. rewrite map_app, <- app_assoc.
    specialize (IH2 (pre ++ map Term u) post). rewrite <- !app_assoc in IH2. exact IH2.
Qed.
(** A prefix of a word is viable. *)
Lemma word_viable {T NT} (P : NT -> list (Elem T NT) -> Prop) A u v : lang P A (u ++ v) -> viable P A u.
Proof.
  intro L. exists (map Term v). pose proof (gen_forms P _ _ L [] []) as X. simpl in X. rewrite !app_nil_r, map_app in X. exact X.
Qed.

(** ** Derivation trees *)
Section Dtrees.
  Context {T NT AK AV V : Type}.
  Variable g : Grammar T NT AK AV.
  Scheme dtree_mind := Minimality for dtree Sort Prop
  with dtrees_mind := Minimality for dtrees Sort Prop.
  Combined Scheme dtree_dtrees_ind from dtree_mind, dtrees_mind.
  Lemma dtree_yield :
    (forall e ts (tr : ptree T AK V), dtree g e ts tr -> yield tr = ts) /\
    (forall es ts (trs : list (ptree T AK V)), dtrees g es ts trs -> flat_map yield trs = ts).
  Proof.
    apply dtree_dtrees_ind; simpl; auto. intros e es ts us c cs _ -> _ ->. reflexivity.
  Qed.
End Dtrees.

(** ** Nodes that were there before *)
Section Old.
  Context {T AK V : Type} `{OrdEq T} `{OrdEq AK} `{OrdEq V}.
  Implicit Types t : Inner T AK V.
  Lemma api_tree_inv t : api_tree t -> TInv t.
  Proof. intros (tr & w & h & R & K & E). exact (hi_w _ _ (run_inv _ _ R) _ _ E). Qed.
  Lemma node_ok_get t n : node_ok t n <-> exists s, get_node t n = Ret s.
  Proof.
    unfold node_ok, get_node. rewrite <- nth_error_Some. destruct (nth_error (in_nodes t) n); simpl; split; try congruence; eauto.
    intros (s & E). discriminate.
  Qed.
  Lemma get_nalts t n : node_ok t n -> get_node t n = Ret (nalts t n).
  Proof.
    unfold node_ok, get_node, nalts. intro L. destruct (nth_error (in_nodes t) n) eqn:E; [reflexivity|]. apply nth_error_None in E. lia.
  Qed.
  Lemma old_reads t0 t : TInv t0 -> tmono t0 t -> (forall n, node_ok t0 n -> node_ok t n /\ nalts t n = nalts t0 n) ->
    (forall n tr, reads t n tr -> node_ok t0 n -> reads t0 n tr) /\
    (forall ns trs, reads_all t ns trs -> Forall (node_ok t0) ns -> reads_all t0 ns trs).
  Proof.
    intros I [_ Ak] Un. apply reads_reads_all_ind.
    - intros n s a k v G J A O. pose proof (get_node_In _ _ _ _ G J) as X. rewrite (proj2 (Un n O)) in X.
      destruct (ti_alts _ I _ _ X) as (c & C). pose proof (Ak _ _ C) as C'. rewrite <- get_alt_acont in C'.
      rewrite A in C'. injection C' as <-. exact (reads_leaf' _ _ _ _ _ X C).
    - intros n s a x ns cs G J A _ IH O. pose proof (get_node_In _ _ _ _ G J) as X. rewrite (proj2 (Un n O)) in X.
      destruct (ti_alts _ I _ _ X) as (c & C). pose proof (Ak _ _ C) as C'. rewrite <- get_alt_acont in C'.
      rewrite A in C'. injection C' as <-. apply (reads_branch' _ _ a x ns cs X C). apply IH. exact (ti_nodes _ I _ _ C).
    - constructor.
    - intros n ns c cs _ IH1 _ IH2 F. inversion F; subst. constructor; auto.
  Qed.
End Old.

(** ** Concrete runs *)
Section Fuel.
  Context {T NT AK AV V : Type} `{Ord T} `{Ord NT} `{Ord AK} `{Ord V}.
  Variable lay : layout (StartNonTerminal NT).
  Variable sg : StartGrammar T NT AK AV.
  Lemma close_mono prev s : fuel_mono (fun n => close_state (V := V) lay sg prev s n).
  Proof.
    unfold close_state. apply (fuel_mono_bind (fun _ => _) (fun n _ => _)); [apply fuel_mono_const|]. intro a. apply change_loop_mono.
  Qed.
  Lemma tokens_mono : forall toks sets (t : Inner T AK V), fuel_mono (fun n => parse_tokens lay sg toks sets t n).
  Proof.
    induction toks as [|tok toks IH]; intros sets t; simpl; [apply fuel_mono_const|].
    apply (fuel_mono_bind (fun _ => _) (fun n l => _)); [apply fuel_mono_const|]. intro l.
    apply (fuel_mono_bind (fun _ => _) (fun n l => _)); [apply fuel_mono_const|]. intro s.
    apply (fuel_mono_bind _ (fun n l => _)); [apply close_mono|]. intros [s' t']. apply IH.
  Qed.
  Lemma parse_mono toks (t : Inner T AK V) : fuel_mono (fun n => parse lay sg toks t n).
  Proof.
    unfold parse. apply (fuel_mono_bind (fun _ => _) (fun n l => _)); [apply fuel_mono_const|]. intro s.
    apply (fuel_mono_bind _ (fun n l => _)); [apply close_mono|]. intros [s' t'].
    apply (fuel_mono_bind _ (fun n l => _)); [apply tokens_mono|]. intros [s2 t2]. apply fuel_mono_const.
  Qed.
End Fuel.
Lemma parse_vm {T NT AK AV V} `{Ord T} `{Ord NT} `{Ord AK} `{Ord V} lay (sg : StartGrammar T NT AK AV) toks (t : Inner T AK V) n r :
  parse lay sg toks t n = r -> r <> NoFuel -> runs_to (fun fuel => parse lay sg toks t fuel) r.
Proof. intros E N. exact (runs_to_mono _ n r (parse_mono lay sg toks t) E N). Qed.

Lemma ex_slay_mem {T AK AV} (g : Grammar T (StartNonTerminal nat) AK AV) : ex_small g = true -> in_memory g ex_slay.
Proof. apply ex_mem_gen. intros [|a] [|b]; congruence. Qed.
Lemma ex_slay_inj {T AK AV} (g : Grammar T (StartNonTerminal nat) AK AV) : ex_small g = true -> lay_inj g ex_slay.
Proof. intro S. exact (in_memory_inj g _ (ex_slay_mem g S)). Qed.
Lemma api_tree_new {T AK V} `{Ord T} `{Ord AK} `{Ord V} : api_tree (@in_new T AK V).
Proof.
  exists [(TNewTree, Ret (RHandle 0))], [in_new], 0. split; [|split; [left; reflexivity|reflexivity]].
  econstructor; [constructor|exact I|reflexivity].
Qed.

(** Concrete grammars. *)
Definition ex_wrap (g : Grammar nat nat nat nat) : StartGrammar nat nat nat nat :=
  match wrap_grammar_with_start g 20 with Ret (Ok sg) => sg | _ => Build_Grammar Start [] end.
Definition ex_tok (k : nat) : Token nat nat := Build_Token k 0.
Lemma wrap_vm (g : Grammar nat nat nat nat) sg : wrap_grammar_with_start g 20 = Ret (Ok sg) ->
  runs_to (wrap_grammar_with_start g) (Ret (Ok sg)).
Proof. intro E. apply (runs_to_mono _ 20); [apply build_mono|exact E|discriminate]. Qed.

Lemma built_bb : built ex_bb_g.
Proof. exists 0, ex_bb. apply (build_vm _ _ 10); [vm_compute; reflexivity | discriminate]. Qed.
Lemma built_bbc : built ex_bbc_g.
Proof. exists 0, ex_bbc. apply (build_vm _ _ 10); [vm_compute; reflexivity | discriminate]. Qed.
Lemma built_br : built ex_br_g.
Proof. exists 0, ex_br. apply (build_vm _ _ 10); [vm_compute; reflexivity | discriminate]. Qed.
Lemma built_cyc : built ex_cyc_g.
Proof. exists 0, ex_cyc. apply (build_vm _ _ 10); [vm_compute; reflexivity | discriminate]. Qed.
Lemma wrap_bb : runs_to (wrap_grammar_with_start ex_bb_g) (Ret (Ok (ex_wrap ex_bb_g))).
Proof. apply wrap_vm. vm_compute. reflexivity. Qed.
Lemma wrap_bbc : runs_to (wrap_grammar_with_start ex_bbc_g) (Ret (Ok (ex_wrap ex_bbc_g))).
Proof. apply wrap_vm. vm_compute. reflexivity. Qed.
Lemma wrap_br : runs_to (wrap_grammar_with_start ex_br_g) (Ret (Ok (ex_wrap ex_br_g))).
Proof. apply wrap_vm. vm_compute. reflexivity. Qed.
Lemma wrap_cyc : runs_to (wrap_grammar_with_start ex_cyc_g) (Ret (Ok (ex_wrap ex_cyc_g))).
Proof. apply wrap_vm. vm_compute. reflexivity. Qed.
Lemma wrap_expr : runs_to (wrap_grammar_with_start ex_expr_g) (Ret (Ok (ex_wrap ex_expr_g))).
Proof. apply wrap_vm. vm_compute. reflexivity. Qed.

Ltac inv_prod H := destruct H as (?r & H & ?J); simpl in H;
  repeat match type of H with _ \/ _ => destruct H as [H|H] end; try (destruct H);
  try (injection H as <- <-); simpl in J.

Lemma br_inv u : lang (rhs_of ex_br_g) 0 u -> u = [0] \/ exists a b, lang (rhs_of ex_br_g) 0 a /\ lang (rhs_of ex_br_g) 0 b /\ u = 1 :: a ++ b ++ [2].
Proof.
  intro L. unfold lang in L. inversion L as [| |A rhs es u' w0 Pr G1 G2]; subst. inversion G2; subst. rewrite app_nil_r. clear L G2.
  destruct Pr as (p & (r & In1 & In2) & ->). simpl in In1. destruct In1 as [[= <-]|[]]. simpl in In2. destruct In2 as [<-|[<-|[]]]; simpl in G1.
  - left. inversion G1 as [|t es w0 G|]; subst. inversion G; subst. reflexivity.
  - right. inversion G1 as [|t es w0 G|]; subst. inversion G as [| |A rhs es u1 w1 P1 Ga Gb]; subst.
    inversion Gb as [| |A rhs' es u2 w2 P2 Gc Gd]; subst. inversion Gd as [|t es w3 Ge|]; subst. inversion Ge; subst.
    exists u1, u2. split; [|split; [|reflexivity]]; unfold lang.
    + rewrite <- (app_nil_r u1). econstructor; [exact P1|exact Ga|constructor].
    + rewrite <- (app_nil_r u2). econstructor; [exact P2|exact Gc|constructor].
Qed.
Lemma br_prefix_free : prefix_free (rhs_of ex_br_g).
Proof.
  assert (X : forall n u v x y, length u <= n -> lang (rhs_of ex_br_g) 0 u -> lang (rhs_of ex_br_g) 0 v -> u ++ x = v ++ y -> u = v).
  { induction n as [|n IH]; intros u v x y Ln Lu Lv E.
    - destruct (br_inv u Lu) as [-> |(a & b & _ & _ & ->)]; simpl in Ln; lia.
    - destruct (br_inv u Lu) as [-> |(a & b & La & Lb & ->)]; destruct (br_inv v Lv) as [-> |(c & d & Lc & Ld & ->)]; try discriminate; [reflexivity|].
      simpl in E. injection E as E. rewrite <- !app_assoc in E. simpl in Ln. rewrite !app_length in Ln. simpl in Ln.
      assert (a = c) by (refine (IH _ _ _ _ _ La Lc E); lia). subst c. apply app_inv_head in E.
      assert (b = d) by (refine (IH _ _ _ _ _ Lb Ld E); lia). subst d. reflexivity. }
  intros A u v L. destruct A as [|A].
  - split; [destruct (br_inv u L) as [-> |(a & b & _ & _ & ->)]; discriminate|].
    intro L'. assert (E : u = u ++ v) by (apply (X (length u) _ _ v [] (le_n _) L L'), eq_sym, app_nil_r).
    rewrite <- (app_nil_r u) in E at 1. apply app_inv_head in E. congruence.
  - exfalso. inversion L as [| |A' rhs es u' w0 Pr G1 G2]; subst. destruct Pr as (p & (r & [[=]|[]] & _) & _).
Qed.
Lemma br_word : lang (rhs_of ex_br_g) 0 [1; 0; 1; 0; 0; 2; 2].
Proof.
  assert (P1 : rhs_of ex_br_g 0 [Term 0]) by (eexists; split; [eexists; split; [left; reflexivity|left; reflexivity]|reflexivity]).
  assert (P2 : rhs_of ex_br_g 0 [Term 1; NonTerm 0; NonTerm 0; Term 2]) by (eexists; split; [eexists; split; [left; reflexivity|right; left; reflexivity]|reflexivity]).
  assert (L1 : gen (rhs_of ex_br_g) [Term 0] [0]) by repeat constructor.
  assert (L2 : gen (rhs_of ex_br_g) [Term 1; NonTerm 0; NonTerm 0; Term 2] [1; 0; 0; 2]).
  { constructor. apply (gen_nonterm _ 0 _ _ [0] [0; 2] P1 L1). apply (gen_nonterm _ 0 _ _ [0] [2] P1 L1). repeat constructor. }
  unfold lang. apply (gen_nonterm _ 0 _ [] [1; 0; 1; 0; 0; 2; 2] [] P2); [|constructor].
  constructor. apply (gen_nonterm _ 0 _ _ [0] [1; 0; 0; 2; 2] P1 L1). apply (gen_nonterm _ 0 _ _ [1; 0; 0; 2] [2] P2 L2). repeat constructor.
Qed.

(** All derivation trees of a small grammar, by inversion. *)
Ltac inv_dtree := repeat match goal with
  | D : dtree _ (Term _) _ _ |- _ => inversion D; clear D; subst
  | D : dtrees _ [] _ _ |- _ => inversion D; clear D; subst
  | D : dtrees _ (_ :: _) _ _ |- _ => inversion D; clear D; subst
  | D : dtree _ (NonTerm _) _ _ |- _ => inversion D; clear D; subst
  | D : prod_of _ _ _ |- _ => destruct D as (?r & ?In1 & ?In2); cbn in In1; repeat (destruct In1 as [In1|In1]); try discriminate In1; try (destruct In1; fail);
      injection In1 as <-; cbn in In2; repeat (destruct In2 as [In2|In2]); try (destruct In2; fail); subst; cbn in *
  end.
Lemma bb_unambiguous tr tr' : dtree ex_bb_g (NonTerm 0) [ex_tok 7; ex_tok 7] tr -> dtree ex_bb_g (NonTerm 0) [ex_tok 7; ex_tok 7] tr' -> tr = tr'.
Proof.
  assert (X : forall tr ts, dtree ex_bb_g (NonTerm 0) ts tr -> length ts = 2 -> map tk_value ts = [0; 0] -> tr = PBranch 10 [PBranch 11 [PLeaf 7 0]; PBranch 13 [PLeaf 7 0]]).
  { clear. intros tr ts D L E. inv_dtree; cbn in *; try lia. injection E as -> ->. reflexivity. }
  intros D D'. rewrite (X _ _ D eq_refl eq_refl), (X _ _ D' eq_refl eq_refl). reflexivity.
Qed.
Lemma bb_tree : dtree ex_bb_g (NonTerm 0) [ex_tok 7; ex_tok 7] (PBranch 10 [PBranch 11 [PLeaf 7 0]; PBranch 13 [PLeaf 7 0]]).
Proof.
  refine (dtree_branch ex_bb_g 0 (Build_ProdInner 10 0 _) _ _ _ _); [eexists; split; [left; reflexivity|left; reflexivity]|].
  apply (dtrees_cons _ _ _ [ex_tok 7] [ex_tok 7]); [|apply (dtrees_cons _ _ _ [ex_tok 7] []); [|constructor]].
  - refine (dtree_branch ex_bb_g 1 (Build_ProdInner 11 0 _) _ _ _ _); [eexists; split; [right; left; reflexivity|left; reflexivity]|].
    apply (dtrees_cons _ _ _ [ex_tok 7] []); constructor.
  - refine (dtree_branch ex_bb_g 2 (Build_ProdInner 13 0 _) _ _ _ _); [eexists; split; [right; right; left; reflexivity|left; reflexivity]|].
    apply (dtrees_cons _ _ _ [ex_tok 7] []); constructor.
Qed.
