(** Renaming symbols, actions and values: the parse forest. *)
From Coq Require Import String List Lia Arith NArith.
From Verif.Model Require Import Ord BTree Outcome Utils Grammar StartGrammar Tokens Tree State Earley.
From Verif.Spec Require Import Reach Cfg BuildSpec EarleySpec TreeSpec RenameSpec RenameForestSpec.
From Verif.Proofs Require Import OrdFacts BTreeFacts LoopFacts GrammarFacts StartFacts TreeFacts TreeHist BuildMore EarleyMore RenameFacts.
Import ListNotations.

(** Corresponding outcomes. *)
Definition orel {A B} (R : A -> B -> Prop) (o : outcome A) (o' : outcome B) : Prop :=
  match o, o' with
  | Ret a, Ret b => R a b
  | Panic m, Panic m' => m = m'
  | NoFuel, NoFuel => True
  | _, _ => False
  end.
Lemma orel_bind {A B A' B'} (R : A -> B -> Prop) (Q : A' -> B' -> Prop) o o' k k' :
  orel R o o' -> (forall a b, R a b -> orel Q (k a) (k' b)) -> orel Q (obind o k) (obind o' k').
Proof. destruct o, o'; cbn; try contradiction; auto. Qed.
Lemma orel_eq {A} (o : outcome A) : orel eq o o.
Proof. now destruct o. Qed.
Lemma orel_change_iter {A B S S'} (RA : A -> B -> Prop) (R : S -> S' -> Prop) (f : A -> S -> outcome (WasChanged * S)) (f' : B -> S' -> outcome (WasChanged * S')) :
  (forall a b s s', RA a b -> R s s' -> orel (fun x y => fst x = fst y /\ R (snd x) (snd y)) (f a s) (f' b s')) ->
  forall l l', Forall2 RA l l' -> forall s s', R s s' ->
  orel (fun x y => fst x = fst y /\ R (snd x) (snd y)) (change_iter f l s) (change_iter f' l' s').
Proof.
  intros F. unfold change_iter. intros l l' Fl. generalize Unchanged.
  induction Fl as [|a b l l' Rab Fl IH]; intros c s s' Rs; cbn; [auto|].
  eapply orel_bind; [apply F; eassumption|]. intros [c1 s1] [c1' s1'] [E R1]. cbn in *. subst c1'. now apply IH.
Qed.
Lemma orel_change_loop {S S'} (R : S -> S' -> Prop) (f : S -> outcome (WasChanged * S)) (f' : S' -> outcome (WasChanged * S')) :
  (forall s s', R s s' -> orel (fun x y => fst x = fst y /\ R (snd x) (snd y)) (f s) (f' s')) ->
  forall n s s', R s s' -> orel R (change_loop f n s) (change_loop f' n s').
Proof.
  intros F n. induction n as [|n IH]; intros s s' Rs; cbn; [exact I|].
  eapply orel_bind; [apply F; eassumption|]. intros [c1 s1] [c1' s1'] [E R1]. cbn in *. subst c1'. destruct c1; [now apply IH|exact R1].
Qed.

Section Tree.
  Context {T AK V T' AK' V' : Type} `{OrdEq T} `{OrdEq AK} `{OrdEq V} `{OrdEq T'} `{OrdEq AK'} `{OrdEq V'}.
  Variables (fT : T -> T') (fK : AK -> AK') (fX : V -> V').
  Hypothesis JT : forall a b, fT a = fT b -> a = b.
  Hypothesis JK : forall a b, fK a = fK b -> a = b.
  Hypothesis JX : forall a b, fX a = fX b -> a = b.
  Notation rc := (ren_content fT fK fX).
  Implicit Types t : Inner T AK V.

  Lemma rc_inj c d : rc c = rc d -> c = d.
  Proof. destruct c, d; cbn; intro E; try discriminate; injection E as E1 E2; f_equal; auto. Qed.

  Definition tren t (t' : Inner T' AK' V') : Prop :=
    in_nodes t' = in_nodes t /\ id_to_value (in_alts t') = map rc (id_to_value (in_alts t)) /\
    forall c, bt_get (rc c) (value_to_id (in_alts t')) = bt_get c (value_to_id (in_alts t)).

  Lemma map_ext_nth {A B} (f : A -> B) l l' : (forall i, nth_error l' i = option_map f (nth_error l i)) -> l' = map f l.
  Proof.
    revert l'. induction l as [|a l IH]; intros [|b l'] X; [reflexivity|exact (False_ind _ ltac:(specialize (X 0); discriminate))|exact (False_ind _ ltac:(specialize (X 0); discriminate))|].
    pose proof (X 0) as X0. injection X0 as ->. cbn. f_equal. apply IH. intro i. exact (X (S i)).
  Qed.
  Lemma tren_intro t (t' : Inner T' AK' V') : TInv t -> TInv t' -> same_forest fT fK fX t t' -> tren t t'.
  Proof.
    intros I I' [N A]. assert (Ac : forall a, acont t' a = option_map rc (acont t a)).
    { intro a. specialize (A a). unfold get_alt, acont in *. destruct (nth_error (id_to_value (in_alts t')) a), (nth_error (id_to_value (in_alts t)) a); cbn in *; congruence. }
    split; [|split].
    - rewrite <- (map_id (in_nodes t)). apply map_ext_nth. intro i. specialize (N i). unfold get_node in N.
      destruct (nth_error (in_nodes t') i), (nth_error (in_nodes t) i); cbn in *; congruence.
    - apply map_ext_nth. exact Ac.
    - intro c. apply option_ext. intro a. rewrite (ti_ids _ I), (ti_ids _ I'), Ac. destruct (acont t a) as [d|]; cbn; [|split; discriminate].
      split; [intros [= E]; apply rc_inj in E; now subst|now intros [= ->]].
  Qed.
  Lemma tren_same t (t' : Inner T' AK' V') : tren t t' -> same_forest fT fK fX t t'.
  Proof.
    intros (N & A & _). split; intro i; [unfold get_node; now rewrite N|]. unfold get_alt. rewrite A, nth_error_map.
    destruct (nth_error (id_to_value (in_alts t)) i); reflexivity.
  Qed.

  Lemma tren_make_node t (t' : Inner T' AK' V') : tren t t' -> fst (in_make_node t') = fst (in_make_node t) /\ tren (snd (in_make_node t)) (snd (in_make_node t')).
  Proof. intros (N & A & G). unfold in_make_node, tren. cbn. rewrite N. auto. Qed.
  Lemma tren_make_alt t (t' : Inner T' AK' V') c : tren t t' -> fst (in_make_alt t' (rc c)) = fst (in_make_alt t c) /\ tren (snd (in_make_alt t c)) (snd (in_make_alt t' (rc c))).
  Proof.
    intros (N & A & G). unfold in_make_alt, altset_add. rewrite (G c). destruct (bt_get c (value_to_id (in_alts t))) as [i|] eqn:E.
    - cbn. repeat split; assumption.
    - cbn. rewrite A, map_length. split; [reflexivity|]. unfold tren. cbn. split; [exact N|]. split; [rewrite map_app; reflexivity|].
      intro d. rewrite !bt_get_insert, G. destruct (eqb_spec d c) as [->|Nd].
      + destruct (eqb_spec (rc c) (rc c)); [reflexivity|congruence].
      + destruct (eqb_spec (rc d) (rc c)) as [Q|]; [apply rc_inj in Q; contradiction|reflexivity].
  Qed.
  Lemma tren_add_node_alt t (t' : Inner T' AK' V') n a : tren t t' ->
    orel (fun x y => fst x = fst y /\ tren (snd x) (snd y)) (in_add_node_alt n a t) (in_add_node_alt n a t').
  Proof.
    intros (N & A & G). unfold in_add_node_alt, get_node. rewrite N. destruct (nth_error (in_nodes t) n) as [s|]; cbn; [|reflexivity].
    split; [reflexivity|]. unfold tren. cbn. auto.
  Qed.
  Lemma tren_add_all t (t' : Inner T' AK' V') n m : tren t t' ->
    orel (fun x y => fst x = fst y /\ tren (snd x) (snd y)) (in_add_all n m t) (in_add_all n m t').
  Proof.
    intros R. unfold in_add_all. eapply orel_bind with (R := eq).
    - unfold get_node. rewrite (proj1 R). apply orel_eq.
    - intros s ? <-. apply (orel_change_iter eq tren); [|induction s; constructor; auto|exact R].
      intros a ? x y <- R'. now apply tren_add_node_alt.
  Qed.
  Lemma tren_make_leaf_node t (t' : Inner T' AK' V') k v : tren t t' ->
    orel (fun x y => fst x = fst y /\ tren (snd x) (snd y)) (in_make_leaf_node k v t) (in_make_leaf_node (fT k) (fX v) t').
  Proof.
    intro R. unfold in_make_leaf_node. destruct (tren_make_node t t' R) as [E1 R1]. destruct (in_make_node t) as [n t1], (in_make_node t') as [n' t1']. cbn in E1, R1. subst n'.
    destruct (tren_make_alt t1 t1' (CLeaf k v) R1) as [E2 R2]. cbn [ren_content] in *. destruct (in_make_alt t1 _) as [a t2], (in_make_alt t1' _) as [a' t2']. cbn in E2, R2. subst a'.
    eapply orel_bind; [apply tren_add_node_alt; exact R2|]. intros [c x] [c' y] [_ Q]. cbn in *. auto.
  Qed.
  Lemma tren_make_branch_node t (t' : Inner T' AK' V') k ns : tren t t' ->
    orel (fun x y => fst x = fst y /\ tren (snd x) (snd y)) (in_make_branch_node k ns t) (in_make_branch_node (fK k) ns t').
  Proof.
    intro R. unfold in_make_branch_node. destruct (tren_make_node t t' R) as [E1 R1]. destruct (in_make_node t) as [n t1], (in_make_node t') as [n' t1']. cbn in E1, R1. subst n'.
    destruct (tren_make_alt t1 t1' (CBranch k ns) R1) as [E2 R2]. cbn [ren_content] in *. destruct (in_make_alt t1 _) as [a t2], (in_make_alt t1' _) as [a' t2']. cbn in E2, R2. subst a'.
    eapply orel_bind; [apply tren_add_node_alt; exact R2|]. intros [c x] [c' y] [_ Q]. cbn in *. auto.
  Qed.
End Tree.

Section Parse.
  Context {T NT AK AV V T' NT' AK' AV' V' : Type} `{OrdEq T} `{OrdEq NT} `{OrdEq AK} `{OrdEq V} `{OrdEq T'} `{OrdEq NT'} `{OrdEq AK'} `{OrdEq V'}.
  Variables (fT : T -> T') (fN : NT -> NT') (fK : AK -> AK') (fV : AV -> AV') (fX : V -> V').
  Hypothesis JT : forall a b, fT a = fT b -> a = b.
  Hypothesis JN : forall a b, fN a = fN b -> a = b.
  Hypothesis JK : forall a b, fK a = fK b -> a = b.
  Hypothesis JX : forall a b, fX a = fX b -> a = b.

  Definition ren_st (x : StreamTerminal T) : StreamTerminal T' := match x with EndOfStream => EndOfStream | STerm t => STerm (fT t) end.
  Definition ren_sk (x : StartActionKey AK) : StartActionKey AK' := match x with StartKey => StartKey | ActionKey k => ActionKey (fK k) end.
  Definition ren_sv (x : StartActionValue AV) : StartActionValue AV' := match x with StartValue => StartValue | ActionValue k => ActionValue (fV k) end.
  Notation sN := (ren_snt fN).

  Variable sg : StartGrammar T NT AK AV.
  Variable sg' : StartGrammar T' NT' AK' AV'.
  Hypothesis HS : start_nt sg' = sN (start_nt sg).
  Hypothesis HG : forall X, try_get_rule sg' (sN X) = option_map (ren_rule ren_st sN ren_sk ren_sv) (try_get_rule sg X).
  Variable lay : layout (StartNonTerminal NT).
  Variable lay' : layout (StartNonTerminal NT').
  Hypothesis HL : same_order fN lay lay'.

  Local Notation SP := (Prod (StreamTerminal T) (StartNonTerminal NT) (StartActionKey AK) (StartActionValue AV)).
  Local Notation SP' := (Prod (StreamTerminal T') (StartNonTerminal NT') (StartActionKey AK') (StartActionValue AV')).
  Local Notation PS := (ProdState (StreamTerminal T) (StartNonTerminal NT) (StartActionKey AK) (StartActionValue AV)).
  Local Notation PS' := (ProdState (StreamTerminal T') (StartNonTerminal NT') (StartActionKey AK') (StartActionValue AV')).
  Local Notation key := (EarleyStateKey T NT AK AV).
  Local Notation key' := (EarleyStateKey T' NT' AK' AV').
  Local Notation state := (EarleyState T NT AK AV).
  Local Notation state' := (EarleyState T' NT' AK' AV').
  Local Notation sset := (EarleyStateSet T NT AK AV).
  Local Notation sset' := (EarleyStateSet T' NT' AK' AV').
  #[local] Instance ok : Ord key := Ord_Key lay.
  #[local] Instance ok' : Ord key' := Ord_Key lay'.

  Lemma sN_inj a b : sN a = sN b -> a = b.
  Proof. destruct a, b; cbn; intro E; try discriminate; [reflexivity|]. injection E as E. f_equal. auto. Qed.

  Definition rp (p : SP) : SP' := Build_Prod (sN (p_head p)) (p_ix p) (ren_prod ren_st sN ren_sk ren_sv (p_inner p)).
  Definition rps (s : PS) : PS' := Build_ProdState (rp (ps_prod s)) (ps_index s).
  Definition rk (k : key) : key' := Build_EarleyStateKey (rps (ek_prod_state k)) (ek_origin k).
  Definition rst (s : state) : state' := Build_EarleyState (rk (es_key s)) (es_value s).
  Definition rset (s : sset) : sset' := map (fun kv => (rk (fst kv), snd kv)) s.
  Notation tren := (tren fT fK fX).
  Definition setR (x : sset * Inner T AK V) (y : sset' * Inner T' AK' V') : Prop := fst y = rset (fst x) /\ tren (snd x) (snd y).
  Definition listR (x : list state * Inner T AK V) (y : list state' * Inner T' AK' V') : Prop := fst y = map rst (fst x) /\ tren (snd x) (snd y).

  Lemma cmp_rk a b : cmp (rk a) (rk b) = cmp a b.
  Proof.
    unfold cmp, ok, ok', Ord_Key. cbn [rk ek_prod_state ek_origin]. f_equal. unfold cmp, Ord_ProdState, prod_cmp. cbn. apply HL.
  Qed.
  Lemma get_rset k (s : sset) : bt_get (rk k) (rset s) = bt_get k s.
  Proof. induction s as [|[k' v] s IH]; [reflexivity|]. cbn [rset map bt_get fst snd]. rewrite cmp_rk. destruct (cmp k k'); [reflexivity|exact IH|exact IH]. Qed.
  Lemma insert_rset k v (s : sset) : bt_insert (rk k) v (rset s) = rset (bt_insert k v s).
  Proof.
    induction s as [|[k' v'] s IH]; [reflexivity|]. cbn [rset map bt_insert fst snd]. rewrite cmp_rk. destruct (cmp k k'); try reflexivity.
    cbn [map fst snd]. f_equal. exact IH.
  Qed.
  Lemma states_rset (s : sset) : states (rset s) = map rst (states s).
  Proof. unfold states, rset. rewrite !map_map. reflexivity. Qed.

  Lemma next_prod_elem_r (s : PS) : next_prod_elem (rps s) = option_map (ren_pe ren_st sN) (next_prod_elem s).
  Proof. unfold next_prod_elem, offset_prod_elem, prod_elements. cbn. now rewrite nth_error_map. Qed.
  Lemma next_elem_r (s : PS) : next_elem (rps s) = option_map (ren_elem ren_st sN) (next_elem s).
  Proof.
    unfold next_elem, offset_elem. change (offset_prod_elem (rps s) 0) with (next_prod_elem (rps s)). change (offset_prod_elem s 0) with (next_prod_elem s).
    rewrite next_prod_elem_r. now destruct (next_prod_elem s).
  Qed.
  Lemma next_elem_state_r (s : PS) : next_elem_state (rps s) = option_map (fun x => (ren_pe ren_st sN (fst x), rps (snd x))) (next_elem_state s).
  Proof. unfold next_elem_state. rewrite next_prod_elem_r. now destruct (next_prod_elem s). Qed.
  Lemma is_complete_r (s : PS) : is_complete (rps s) = is_complete s.
  Proof. unfold is_complete, num_elements. cbn. now rewrite map_length. Qed.
  Lemma as_term_r (e : Elem (StreamTerminal T) (StartNonTerminal NT)) : as_term (ren_elem ren_st sN e) = option_map ren_st (as_term e).
  Proof. now destruct e. Qed.
  Lemma as_nonterm_r (e : Elem (StreamTerminal T) (StartNonTerminal NT)) : as_nonterm (ren_elem ren_st sN e) = option_map sN (as_nonterm e).
  Proof. now destruct e. Qed.
  Lemma has_kind_r x k : has_kind (ren_st x) (fT k) = has_kind x k.
  Proof.
    destruct x as [|x]; [reflexivity|]. cbn [ren_st has_kind]. destruct (eqb_spec x k) as [->|N]; [now destruct (eqb_spec (fT k) (fT k))|].
    destruct (eqb_spec (fT x) (fT k)) as [E|]; [|reflexivity]. apply JT in E. contradiction.
  Qed.
  Lemma eqb_sN a b : eqb (sN a) (sN b) = eqb a b.
  Proof.
    destruct (eqb_spec a b) as [->|N]; [now destruct (eqb_spec (sN b) (sN b))|]. destruct (eqb_spec (sN a) (sN b)) as [E|]; [|reflexivity]. apply sN_inj in E. contradiction.
  Qed.
  Lemma rule_prods_r r : rule_prods (ren_rule ren_st sN ren_sk ren_sv r) = map rp (rule_prods r).
  Proof.
    unfold rule_prods, ren_rule. cbn [r_head r_prods]. generalize 0. induction (r_prods r) as [|p ps IH]; intro n; [reflexivity|]. cbn. rewrite IH. reflexivity.
  Qed.

  Notation step R := (fun x y => fst x = fst y /\ R (snd x) (snd y)).

  Lemma scan_r (st : state) tok t t' : tren t t' ->
    orel (fun x y => fst y = option_map rst (fst x) /\ tren (snd x) (snd y)) (scan st tok t) (scan (rst st) (ren_token fT fX tok) t').
  Proof.
    intro R. unfold scan. cbn [rst es_key rk ek_prod_state ek_origin]. rewrite next_elem_state_r. destruct (next_elem_state (ek_prod_state (es_key st))) as [[e ps]|]; cbn [option_map fst snd]; [|cbn; auto].
    cbn [ren_pe pe_elem]. rewrite as_term_r. destruct (as_term (pe_elem e)) as [tm|]; cbn [option_map]; [|cbn; auto].
    cbn [ren_token tk_kind tk_value]. rewrite has_kind_r. destruct (has_kind tm (tk_kind tok)); [|cbn; auto].
    eapply orel_bind; [apply tren_make_leaf_node; eauto|]. intros [n x] [n' y] [E Q]. cbn in *. subst n'. auto.
  Qed.
  Lemma predict_r (st : state) n : predict sg' (rst st) n = map rst (predict sg st n).
  Proof.
    unfold predict. cbn [rst es_key rk ek_prod_state]. rewrite next_elem_r. destruct (next_elem (ek_prod_state (es_key st))) as [e|]; cbn [option_map]; [|reflexivity].
    rewrite as_nonterm_r. destruct (as_nonterm e) as [A|]; cbn [option_map]; [|reflexivity]. rewrite HG. destruct (try_get_rule sg A) as [r|]; cbn [option_map]; [|reflexivity].
    rewrite rule_prods_r, !map_map. reflexivity.
  Qed.
  Lemma complete_from_r self sts : forall t t', tren t t' -> orel listR (complete_from self sts t) (complete_from (rst self) (map rst sts) t').
  Proof.
    induction sts as [|st r IH]; intros t t' R; [cbn; split; [reflexivity|exact R]|].
    cbn [complete_from map]. cbn [rst es_key rk ek_prod_state ek_origin]. rewrite next_elem_state_r.
    destruct (next_elem_state (ek_prod_state (es_key st))) as [[e ps]|]; cbn [option_map fst snd]; [|now apply IH].
    cbn [ren_pe pe_elem]. rewrite as_nonterm_r. destruct (as_nonterm (pe_elem e)) as [A|]; cbn [option_map]; [|now apply IH].
    cbn [rps ps_prod rp p_head]. rewrite eqb_sN. destruct (eqb A _); [|now apply IH].
    unfold ps_action_key, action_key. cbn [rps ps_prod rp p_inner ren_prod pi_action_key]. destruct (pi_action_key (p_inner (ps_prod (ek_prod_state (es_key self))))) as [|a]; [reflexivity|].
    cbn [ren_sk as_base expect obind es_value]. eapply orel_bind; [apply tren_make_branch_node; eauto|]. intros [n x] [n' y] [E Q]. cbn in E, Q. subst n'.
    eapply orel_bind; [apply IH; exact Q|]. intros [l x1] [l' y1] [E2 Q2]. cbn in *. subst l'. split; [reflexivity|exact Q2].
  Qed.
  Lemma complete_r self prev curr t t' : tren t t' -> orel listR (complete self prev curr t) (complete (rst self) (map rset prev) (rset curr) t').
  Proof.
    intro R. unfold complete. cbn [rst es_key rk ek_prod_state ek_origin]. rewrite is_complete_r, map_length. destruct (is_complete _); [|cbn; split; [reflexivity|exact R]].
    apply orel_bind with (R := fun x y => y = rset x).
    - destruct (Nat.eqb _ _); [reflexivity|]. rewrite nth_error_map. destruct (nth_error prev _); reflexivity.
    - intros s ? ->. rewrite states_rset. now apply complete_from_r.
  Qed.
  Lemma merge_values_r xs ys t t' : tren t t' -> orel (step tren) (merge_values xs ys t) (merge_values xs ys t').
  Proof.
    intro R. unfold merge_values. apply (orel_change_iter eq tren); [|induction (combine xs ys); constructor; auto|exact R].
    intros [a b] ? x y <- Q. now apply tren_add_all.
  Qed.
  Lemma insert_r st x y : setR x y -> orel (step setR) (insert lay st x) (insert lay' (rst st) y).
  Proof.
    destruct x as [s t], y as [s' t']. intros [E R]. cbn in E, R. subst s'. unfold insert. cbn [rst es_key es_value]. rewrite get_rset.
    destruct (bt_get (es_key st) s) as [ns|].
    - eapply orel_bind; [apply orel_eq|]. intros _ _ _. eapply orel_bind; [apply merge_values_r; exact R|]. intros [c x] [c' y] [E Q]. cbn in *. split; [exact E|]. split; [reflexivity|exact Q].
    - cbn. split; [reflexivity|]. split; [|exact R]. cbn. apply insert_rset.
  Qed.
  Lemma from_scans_r sts tok : forall x y, setR x y -> orel setR (from_scans lay sts tok x) (from_scans lay' (map rst sts) (ren_token fT fX tok) y).
  Proof.
    induction sts as [|st r IH]; intros x y R; [exact R|]. cbn [from_scans map]. destruct x as [s t], y as [s' t']. destruct R as [E R]. cbn in E, R. subst s'.
    eapply orel_bind; [apply scan_r; exact R|]. intros [o x] [o' y] [E Q]. cbn in E, Q. subst o'. destruct o as [st'|]; cbn [option_map].
    - eapply orel_bind; [apply insert_r; split; [reflexivity|exact Q]|]. intros [c x1] [c' y1] [_ Q1]. cbn in Q1. now apply IH.
    - apply IH. split; [reflexivity|exact Q].
  Qed.
  Lemma shift_r s tok t t' : tren t t' -> orel setR (shift lay s tok t) (shift lay' (rset s) (ren_token fT fX tok) t').
  Proof. intro R. unfold shift. rewrite states_rset. apply from_scans_r. split; [reflexivity|exact R]. Qed.
  Lemma from_states_r sts : forall x y, setR x y -> orel setR (from_states lay sts x) (from_states lay' (map rst sts) y).
  Proof.
    induction sts as [|st r IH]; intros x y R; [exact R|]. cbn [from_states map].
    eapply orel_bind; [apply insert_r; exact R|]. intros [c x1] [c' y1] [_ Q1]. cbn in Q1. now apply IH.
  Qed.
  Lemma new_start_r t t' : tren t t' -> orel setR (new_start lay sg t) (new_start lay' sg' t').
  Proof.
    intro R. unfold new_start. apply orel_bind with (R := fun x y => y = ren_rule ren_st sN ren_sk ren_sv x).
    - unfold get_rule. rewrite HS, HG. destruct (try_get_rule sg (start_nt sg)); reflexivity.
    - intros r ? ->. rewrite rule_prods_r, map_map.
      replace (map (fun p => from_prod_start (rp p) 0) (rule_prods r)) with (map rst (map (fun p => from_prod_start p 0) (rule_prods r))) by now rewrite map_map.
      apply from_states_r. split; [reflexivity|exact R].
  Qed.
  Lemma get_final_r s : orel eq (get_final s) (get_final (rset s)).
  Proof.
    induction s as [|[k v] s IH]; [reflexivity|]. cbn [rset map get_final fst snd].
    assert (E : is_final_key (rk k) = is_final_key k).
    { unfold is_final_key. cbn [rk ek_prod_state]. rewrite next_elem_r. destruct (next_elem (ek_prod_state k)) as [e|]; [|reflexivity]. cbn [option_map]. rewrite as_term_r.
      destruct (as_term e) as [[|x]|]; reflexivity. }
    rewrite E. destruct (is_final_key k); [apply orel_eq|exact IH].
  Qed.
  Lemma closure_of_r sts prev curr : forall t t', tren t t' ->
    orel listR (closure_of sg sts prev curr t) (closure_of sg' (map rst sts) (map rset prev) (rset curr) t').
  Proof.
    induction sts as [|st r IH]; intros t t' R; [cbn; split; [reflexivity|exact R]|]. cbn [closure_of map].
    eapply orel_bind; [apply complete_r; exact R|]. intros [l x] [l' y] [E Q]. cbn in E, Q. subst l'.
    eapply orel_bind; [apply IH; exact Q|]. intros [l1 x1] [l1' y1] [E1 Q1]. cbn in E1, Q1. subst l1'.
    cbn. split; [|exact Q1]. cbn. rewrite predict_r, map_length, !map_app. reflexivity.
  Qed.
  Lemma Forall2_map_r {A B} (f : A -> B) l : Forall2 (fun a b => b = f a) l (map f l).
  Proof. induction l; constructor; auto. Qed.
  Lemma close_round_r prev x y : setR x y -> orel (step setR) (close_round lay sg prev x) (close_round lay' sg' (map rset prev) y).
  Proof.
    destruct x as [s t], y as [s' t']. intros [E R]. cbn in E, R. subst s'. unfold close_round. rewrite states_rset.
    eapply orel_bind; [apply closure_of_r; exact R|]. intros [l x] [l' y] [E Q]. cbn in E, Q. subst l'.
    apply (orel_change_iter (fun a b => b = rst a) setR); [|apply Forall2_map_r|split; [reflexivity|exact Q]].
    intros a ? u v -> Ru. now apply insert_r.
  Qed.
  Lemma close_state_r prev x y n : setR x y -> orel setR (close_state lay sg prev x n) (close_state lay' sg' (map rset prev) y n).
  Proof.
    intro R. unfold close_state. eapply orel_bind with (R := eq).
    - rewrite (proj1 R). destruct (fst x); apply orel_eq.
    - intros _ _ _. apply orel_change_loop; [|exact R]. intros u v Q. now apply close_round_r.
  Qed.
  Lemma last_r (sets : list sset) : last (map Some (map rset sets)) None = option_map rset (last (map Some sets) None).
  Proof. induction sets as [|s [|s' r] IH]; [reflexivity|reflexivity|]. exact IH. Qed.
  Lemma parse_tokens_r w n : forall sets t t', tren t t' ->
    orel (fun x y => fst y = map rset (fst x) /\ tren (snd x) (snd y)) (parse_tokens lay sg w sets t n) (parse_tokens lay' sg' (map (ren_token fT fX) w) (map rset sets) t' n).
  Proof.
    induction w as [|tok w IH]; intros sets t t' R; [cbn; auto|]. cbn [parse_tokens map]. apply orel_bind with (R := fun x y => y = rset x).
    - rewrite last_r. destruct (last (map Some sets) None); reflexivity.
    - intros s ? ->. eapply orel_bind; [apply shift_r; exact R|]. intros x y Q. eapply orel_bind; [apply close_state_r; exact Q|].
      intros [s1 t1] [s1' t1'] [E1 Q1]. cbn in E1, Q1. subst s1'. pose proof (IH (app sets [s1]) t1 t1' Q1) as IH1. rewrite map_app in IH1. exact IH1.
  Qed.
  Lemma parse_r w t t' n : tren t t' ->
    orel (fun x y => fst x = fst y /\ tren (snd x) (snd y)) (parse lay sg w t n) (parse lay' sg' (map (ren_token fT fX) w) t' n).
  Proof.
    intro R. unfold parse. eapply orel_bind; [apply new_start_r; exact R|]. intros x y Q. eapply orel_bind; [exact (close_state_r [] x y n Q)|].
    intros [s1 t1] [s1' t1'] [E1 Q1]. cbn in E1, Q1. subst s1'. eapply orel_bind; [exact (parse_tokens_r w n [s1] t1 t1' Q1)|].
    intros [sets t2] [sets' t2'] [E2 Q2]. cbn in E2, Q2. subst sets'. apply orel_bind with (R := fun x y => y = rset x).
    - rewrite last_r. destruct (last (map Some sets) None); reflexivity.
    - intros s ? ->. eapply orel_bind; [apply get_final_r|]. intros r ? <-. cbn. auto.
  Qed.
End Parse.

(** The wrapped grammars of a grammar and of its renaming correspond. *)
Section Wraps.
  Context {T NT AK AV T' NT' AK' AV' : Type} `{OrdEq T} `{OrdEq NT} `{OrdEq AK} `{OrdEq T'} `{OrdEq NT'} `{OrdEq AK'}.
  Variables (fT : T -> T') (fN : NT -> NT') (fK : AK -> AK') (fV : AV -> AV').
  Hypothesis JN : forall a b, fN a = fN b -> a = b.
  Variable g : Grammar T NT AK AV.
  Hypothesis B : built g.
  Notation g' := (ren_grammar fT fN fK fV g).
  Notation rs := (ren_rule (ren_st fT) (ren_snt fN) (ren_sk fK) (ren_sv fV)).

  Lemma wrap_prod_ren p : wrap_prod (ren_prod fT fN fK fV p) = ren_prod (ren_st fT) (ren_snt fN) (ren_sk fK) (ren_sv fV) (wrap_prod p).
  Proof.
    unfold wrap_prod, ren_prod. cbn. f_equal. rewrite !map_map. apply map_ext. intros [i [t|A]]; reflexivity.
  Qed.
  Lemma wraps_correspond sg sg' : wrapped g sg -> wrapped g' sg' ->
    start_nt sg' = ren_snt fN (start_nt sg) /\ forall X, try_get_rule sg' (ren_snt fN X) = option_map rs (try_get_rule sg X).
  Proof.
    intros W W'. pose proof (ren_built fT fN fK fV JN g B) as B'.
    pose proof (built_accepted _ B) as A. pose proof (built_accepted _ B') as A'.
    rewrite (wrapped_eq g sg A W), (wrapped_eq g' sg' A' W'). split; [reflexivity|]. intro X. unfold try_get_rule.
    apply option_ext. intro r'. rewrite bt_get_iff by apply calls_rs_wf. rewrite wrap_In by exact A'.
    destruct X as [|C]; cbn [ren_snt].
    - assert (G : bt_get Start (rule_set (calls_grammar Start (wrap_start_call g :: map wrap_rule_call (rules g)))) = Some (Build_RuleInner Start [start_prod_inner g])).
      { apply bt_get_iff; [apply calls_rs_wf|]. apply wrap_In; [exact A|reflexivity]. }
      rewrite G. cbn [option_map]. split; [intros ->; reflexivity|intros [= <-]; reflexivity].
    - split.
      + intros (r0 & I & ->). apply (ren_In fT fN fK fV JN g B) in I. destruct I as (D & r & E & -> & I). apply JN in E. subst D.
        assert (G : bt_get (NTerm C) (rule_set (calls_grammar Start (wrap_start_call g :: map wrap_rule_call (rules g)))) = Some (Build_RuleInner (NTerm C) (map wrap_prod (r_prods r)))).
        { apply bt_get_iff; [apply calls_rs_wf|]. apply wrap_In; [exact A|]. eauto. }
        rewrite G. cbn [option_map]. unfold ren_rule. cbn [r_head r_prods ren_snt]. f_equal. f_equal. rewrite !map_map. apply map_ext. intro p. symmetry. apply wrap_prod_ren.
      + destruct (bt_get (NTerm C) _) as [q|] eqn:G; [|discriminate]. cbn [option_map]. intros [= <-].
        apply bt_get_iff in G; [|apply calls_rs_wf]. apply wrap_In in G; [|exact A]. destruct G as (r0 & I & ->).
        exists (ren_rule fT fN fK fV r0). split; [apply (ren_In fT fN fK fV JN g B); eauto|].
        unfold ren_rule. cbn [r_head r_prods ren_snt]. f_equal. rewrite !map_map. apply map_ext. intro p. symmetry. apply wrap_prod_ren.
  Qed.
End Wraps.
