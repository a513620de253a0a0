(** Trees and the parser commute with replacing compared things by their keys. *)
From Coq Require Import String List Arith Lia.
From Verif.Model Require Import Ord BTree Outcome Utils Grammar StartGrammar Tokens Tree State Earley.
From Verif.Spec Require Import TreeSpec EarleySpec ValueSpec CoarseSpec.
Import ListNotations.

Lemma obind_map {A B C D} (f : A -> C) (g : B -> D) (x : outcome A) (k : A -> outcome B) (k' : C -> outcome D) :
  (forall a, k' (f a) = map_out g (k a)) -> obind (map_out f x) k' = map_out g (obind x k).
Proof. intro E. destruct x; cbn; auto. Qed.

Section Tree.
  Context {T AK V T' AK' V' : Type} `{Ord T} `{Ord AK} `{Ord V} `{Ord T'} `{Ord AK'} `{Ord V'}.
  Variable fk : T -> T'.
  Variable fa : AK -> AK'.
  Variable fv : V -> V'.
  Hypothesis Fk : compares_by fk.
  Hypothesis Fa : compares_by fa.
  Hypothesis Fv : compares_by fv.
  Local Notation mc := (map_ci fk fa fv).
  Local Notation mi := (map_in fk fa fv).

  Lemma ci_cmp c d : cmp (mc c) (mc d) = cmp c d.
  Proof.
    destruct c, d; unfold cmp, Ord_ContentInner; cbn; try reflexivity.
    - rewrite (Fk kind kind0), (Fv value value0). reflexivity.
    - rewrite (Fa action action0). reflexivity.
  Qed.
  Local Notation mp := (map (fun '(c, i) => (mc c, i))).
  Lemma get_map c (m : btmap (ContentInner T AK V) nat) : bt_get (mc c) (mp m) = bt_get c m.
  Proof. induction m as [|[d i] m IH]; cbn; [reflexivity|]. rewrite ci_cmp. destruct (cmp c d); auto. Qed.
  Lemma insert_map c i (m : btmap (ContentInner T AK V) nat) : bt_insert (mc c) i (mp m) = mp (bt_insert c i m).
  Proof. induction m as [|[d j] m IH]; cbn; [reflexivity|]. rewrite ci_cmp. destruct (cmp c d); cbn; [reflexivity|reflexivity|]. rewrite IH. reflexivity. Qed.

  Lemma get_alt_map t i : get_alt (mi t) i = map_out mc (get_alt t i).
  Proof. unfold get_alt, expect. cbn. rewrite nth_error_map. destruct (nth_error _ _); reflexivity. Qed.
  Lemma get_node_map t i : get_node (mi t) i = get_node t i.
  Proof. reflexivity. Qed.
  Lemma make_node_map t : in_make_node (mi t) = (fst (in_make_node t), mi (snd (in_make_node t))).
  Proof. reflexivity. Qed.
  Lemma make_alt_map t c : in_make_alt (mi t) (mc c) = (fst (in_make_alt t c), mi (snd (in_make_alt t c))).
  Proof.
    unfold in_make_alt, altset_add. cbn. rewrite get_map. destruct (bt_get c _) as [i|]; cbn; [reflexivity|].
    rewrite insert_map, map_length. unfold map_in; cbn. rewrite map_app. reflexivity.
  Qed.
  Definition m2 {A} (x : A * Inner T AK V) : A * Inner T' AK' V' := (fst x, mi (snd x)).
  Lemma add_node_alt_map n a t : in_add_node_alt n a (mi t) = map_out m2 (in_add_node_alt n a t).
  Proof.
    unfold in_add_node_alt. rewrite get_node_map. destruct (get_node t n) as [s| |]; cbn [obind map_out]; [|reflexivity|reflexivity].
    destruct (bs_insert a s) as [b s']. reflexivity.
  Qed.
  Lemma iter_map {I} (f : I -> Inner T AK V -> outcome (WasChanged * Inner T AK V)) f' :
    (forall i t, f' i (mi t) = map_out m2 (f i t)) ->
    forall l c t, change_iter_from f' c l (mi t) = map_out m2 (change_iter_from f c l t).
  Proof.
    intros E l. induction l as [|i l IH]; intros c t; cbn [change_iter_from]; [reflexivity|]. rewrite E.
    apply obind_map. intros [c' t']. cbn. apply IH.
  Qed.
  Lemma add_all_map n o t : in_add_all n o (mi t) = map_out m2 (in_add_all n o t).
  Proof.
    unfold in_add_all. rewrite get_node_map. destruct (get_node t o) as [s| |]; cbn [obind map_out]; [|reflexivity|reflexivity].
    apply iter_map. intros. apply add_node_alt_map.
  Qed.
  Lemma leaf_node_map k v t : in_make_leaf_node (fk k) (fv v) (mi t) = map_out m2 (in_make_leaf_node k v t).
  Proof.
    unfold in_make_leaf_node. rewrite make_node_map. destruct (in_make_node t) as [n t1]. cbn [fst snd].
    change (CLeaf (fk k) (fv v)) with (mc (CLeaf k v)). rewrite make_alt_map. destruct (in_make_alt t1 _) as [a t2]. cbn [fst snd].
    rewrite add_node_alt_map. apply obind_map. intros [c t3]. reflexivity.
  Qed.
  Lemma branch_node_map x ns t : in_make_branch_node (fa x) ns (mi t) = map_out m2 (in_make_branch_node x ns t).
  Proof.
    unfold in_make_branch_node. rewrite make_node_map. destruct (in_make_node t) as [n t1]. cbn [fst snd].
    change (CBranch (fa x) ns) with (mc (CBranch x ns)). rewrite make_alt_map. destruct (in_make_alt t1 _) as [a t2]. cbn [fst snd].
    rewrite add_node_alt_map. apply obind_map. intros [c t3]. reflexivity.
  Qed.

  (** ** Handles *)
  Local Notation mw := (map mi).
  Lemma with_map w h : with_ (mw w) h = map_out mi (with_ w h).
  Proof. unfold with_, expect. rewrite nth_error_map. destruct (nth_error w h); reflexivity. Qed.
  Lemma list_set_map {A B} (f : A -> B) : forall l i x, list_set (map f l) i (f x) = map f (list_set l i x).
  Proof. induction l as [|y l IH]; intros [|i] x; cbn; try reflexivity. rewrite IH. reflexivity. Qed.
  Definition mr {A B} (f : A -> B) (x : outcome A * world T AK V) : outcome B * world T' AK' V' := (map_out f (fst x), mw (snd x)).
  Lemma on_map {A B C D} (f : A -> C) (g : B -> D) w x (k : A -> outcome B * world T AK V) k' :
    (forall a, k' (f a) = mr g (k a)) -> on (mw w) (map_out f x) k' = mr g (on w x k).
  Proof. intro E. destruct x; cbn; auto. Qed.
  Lemma bind_map {A B C D} (f : A -> C) (g : B -> D) x (k : A -> world T AK V -> outcome B * world T AK V) k' :
    (forall a w, k' (f a) (mw w) = mr g (k a w)) -> wbind (mr f x) k' = mr g (wbind x k).
  Proof. intro E. destruct x as [[a| |] w]; cbn; auto. Qed.
  Lemma out_id {A} (x : outcome A) : map_out (fun a => a) x = x.
  Proof. destruct x; reflexivity. Qed.
  Definition idf {A} : A -> A := fun a => a.
  Lemma on_id {A B D} (g : B -> D) w (x : outcome A) (k : A -> outcome B * world T AK V) k' :
    (forall a, k' a = mr g (k a)) -> on (mw w) x k' = mr g (on w x k).
  Proof. intro E. destruct x; cbn; auto. Qed.

  Lemma w_make_node_map w h : w_make_node (mw w) h = mr idf (w_make_node w h).
  Proof.
    unfold w_make_node. rewrite with_map. apply on_map. intro t. rewrite make_node_map. destruct (in_make_node t) as [n t']. cbn [fst snd].
    unfold mr, w_set. cbn [fst snd map_out]. rewrite list_set_map. reflexivity.
  Qed.
  Lemma w_make_alt_map w h c : w_make_alt (mw w) h (mc c) = mr idf (w_make_alt w h c).
  Proof.
    unfold w_make_alt. rewrite with_map. apply on_map. intro t. rewrite make_alt_map. destruct (in_make_alt t c) as [n t']. cbn [fst snd].
    unfold mr, w_set. cbn [fst snd map_out]. rewrite list_set_map. reflexivity.
  Qed.
  Lemma w_branch_alt_map w h x ns : w_make_branch_alt (mw w) h (fa x) ns = mr idf (w_make_branch_alt w h x ns).
  Proof.
    unfold w_make_branch_alt. rewrite with_map. apply on_map. intro t. apply on_id. intro is. exact (w_make_alt_map w h (CBranch x is)).
  Qed.
  Lemma w_add_alt_map w n a : w_add_alt (mw w) n a = mr idf (w_add_alt w n a).
  Proof.
    unfold w_add_alt. apply on_id. intros _. rewrite with_map. apply on_map. intro t. rewrite add_node_alt_map. apply on_map.
    intros [c t']. unfold mr, w_set. cbn [fst snd map_out m2]. rewrite list_set_map. reflexivity.
  Qed.
  Lemma w_add_all_map w n a : w_add_all (mw w) n a = mr idf (w_add_all w n a).
  Proof.
    unfold w_add_all. apply on_id. intros _. rewrite with_map. apply on_map. intro t. rewrite add_all_map. apply on_map.
    intros [c t']. unfold mr, w_set. cbn [fst snd map_out m2]. rewrite list_set_map. reflexivity.
  Qed.
  Lemma w_alts_map w n : w_alts (mw w) n = w_alts w n.
  Proof. unfold w_alts. rewrite with_map. destruct (with_ w _); reflexivity. Qed.
  Lemma w_content_map w a : w_content (mw w) a = map_out (map_nc fk fa fv) (w_content w a).
  Proof.
    unfold w_content. rewrite with_map. apply obind_map. intro t. rewrite get_alt_map. apply obind_map. intros [k v|x ns]; reflexivity.
  Qed.
  Lemma rmap_map {A} (f : A -> tr_val T AK V) (f' : A -> tr_val T' AK' V') x :
    (forall a, f' a = map_val fk fa fv (f a)) -> rmap f' (mr idf x) = mr (map_val fk fa fv) (rmap f x).
  Proof. intro E. destruct x as [[a| |] w]; cbn; [rewrite E; reflexivity|reflexivity|reflexivity]. Qed.

  Lemma step_map w o : tr_step (mw w) (map_op fk fa fv o) = mr (map_val fk fa fv) (tr_step w o).
  Proof.
    destruct o; cbn [map_op tr_step].
    - unfold w_new_tree. cbn [rmap]. unfold mr. cbn [fst snd map_out]. rewrite map_length, map_app. reflexivity.
    - rewrite w_make_node_map. apply rmap_map. reflexivity.
    - unfold w_make_leaf_alt. change (CLeaf (fk kind) (fv value)) with (mc (CLeaf kind value)). rewrite w_make_alt_map. apply rmap_map. reflexivity.
    - rewrite w_branch_alt_map. apply rmap_map. reflexivity.
    - unfold w_make_leaf_node. rewrite w_make_node_map. rewrite (bind_map idf idf _ (fun node w1 =>
        wbind (w_make_leaf_alt w1 h kind value) (fun leaf_alt w2 => wbind (w_add_alt w2 node leaf_alt) (fun _ w3 => (Ret node, w3))))).
      { apply rmap_map. reflexivity. }
      intros n w1. unfold w_make_leaf_alt. change (CLeaf (fk kind) (fv value)) with (mc (CLeaf kind value)). rewrite w_make_alt_map.
      apply bind_map. intros a w2. unfold idf. rewrite w_add_alt_map. apply bind_map. reflexivity.
    - unfold w_make_branch_node. rewrite w_make_node_map. rewrite (bind_map idf idf _ (fun node w1 =>
        wbind (w_make_branch_alt w1 h action nodes) (fun branch_alt w2 => wbind (w_add_alt w2 node branch_alt) (fun _ w3 => (Ret node, w3))))).
      { apply rmap_map. reflexivity. }
      intros n w1. rewrite w_branch_alt_map. apply bind_map. intros a w2. unfold idf. rewrite w_add_alt_map. apply bind_map. reflexivity.
    - rewrite w_add_alt_map. apply rmap_map. reflexivity.
    - rewrite w_add_all_map. apply rmap_map. reflexivity.
    - rewrite w_alts_map. destruct (w_alts w n); reflexivity.
    - rewrite w_content_map. destruct (w_content w a); reflexivity.
  Qed.

  Lemma known_tree_map tr h : known_tree tr h -> known_tree (map_hist fk fa fv tr) h.
  Proof. intro K. exact (in_map (fun '(o, r) => (map_op fk fa fv o, map_out (map_val fk fa fv) r)) _ _ K). Qed.
  Lemma hist_in tr o r : In (o, r) tr -> In (map_op fk fa fv o, map_out (map_val fk fa fv) r) (map_hist fk fa fv tr).
  Proof. intro K. exact (in_map (fun '(o, r) => (map_op fk fa fv o, map_out (map_val fk fa fv) r)) _ _ K). Qed.
  Lemma known_node_map tr n : known_node tr n -> known_node (map_hist fk fa fv tr) n.
  Proof.
    intros [(o & I)|(a & x & ns & I & In_)]; [left; exists (map_op fk fa fv o); exact (hist_in _ _ _ I)|].
    right. exists a, (fa x), ns. split; [exact (hist_in _ _ _ I)|exact In_].
  Qed.
  Lemma known_alt_map tr a : known_alt tr a -> known_alt (map_hist fk fa fv tr) a.
  Proof.
    intros [(o & I)|(n & l & I & In_)]; [left; exists (map_op fk fa fv o); exact (hist_in _ _ _ I)|].
    right. exists n, l. split; [exact (hist_in _ _ _ I)|exact In_].
  Qed.
  Lemma can_call_map tr o : can_call tr o -> can_call (map_hist fk fa fv tr) (map_op fk fa fv o).
  Proof.
    destruct o; cbn; try exact (known_tree_map _ _); try exact (known_node_map _ _); try exact (known_alt_map _ _); auto.
    - intros [A B]. split; [apply known_tree_map, A|]. rewrite Forall_forall in *. intros n I. apply known_node_map, B, I.
    - intros [A B]. split; [apply known_tree_map, A|]. rewrite Forall_forall in *. intros n I. apply known_node_map, B, I.
    - intros [A B]. split; [apply known_node_map, A|apply known_alt_map, B].
    - intros [A B]. split; apply known_node_map; assumption.
  Qed.
  Lemma run_map tr w : run tr w -> run (map_hist fk fa fv tr) (mw w).
  Proof.
    induction 1 as [|tr w o r w' R IH C E]; [constructor|]. cbn [map_hist map]. apply (run_step _ (mw w)); [exact IH|apply can_call_map, C|].
    rewrite step_map, E. reflexivity.
  Qed.
  Lemma api_map t : api_tree t -> api_tree (mi t).
  Proof.
    intros (tr & w & h & R & K & N). exists (map_hist fk fa fv tr), (mw w), h. split; [apply run_map, R|]. split; [apply known_tree_map, K|].
    rewrite nth_error_map, N. reflexivity.
  Qed.
End Tree.

(** ** The parser: values only. *)
Section Parser.
  Context {T NT AK AV V V' : Type} `{Ord T} `{Ord NT} `{Ord AK} `{Ord V} `{Ord V'}.
  Variable lay : layout (StartNonTerminal NT).
  Variable grammar : StartGrammar T NT AK AV.
  Variable fv : V -> V'.
  Hypothesis Fv : compares_by fv.
  Lemma id_keeps {A} `{Ord A} : compares_by (fun a : A => a).
  Proof. intros x y. reflexivity. Qed.
  Local Notation mi := (map_in (fun k : T => k) (fun a : AK => a) fv).
  Local Notation n2 := (fun x => (fst x, mi (snd x))).
  Local Notation wv := (with_value fv).

  Lemma scan_map (st : EarleyState T NT AK AV) tok t : scan st (wv tok) (mi t) = map_out n2 (scan st tok t).
  Proof.
    unfold scan. destruct (next_elem_state _) as [[e ps]|]; [|reflexivity]. destruct (as_term _); [|reflexivity]. cbn [with_value tk_kind tk_value].
    destruct (has_kind _ _); [|reflexivity].
    rewrite (leaf_node_map (fun k : T => k) (fun a : AK => a) fv id_keeps id_keeps Fv (tk_kind tok) (tk_value tok) t).
    apply obind_map. intros [n t']. reflexivity.
  Qed.
  Lemma complete_from_map (self : EarleyState T NT AK AV) : forall sts t, complete_from self sts (mi t) = map_out n2 (complete_from self sts t).
  Proof.
    induction sts as [|st sts IH]; intro t; cbn [complete_from]; [reflexivity|].
    destruct (next_elem_state _) as [[e ps]|]; [|apply IH]. destruct (as_nonterm _); [|apply IH]. destruct (eqb _ _); [|apply IH].
    destruct (expect _ _) as [x| |]; cbn [obind map_out]; [|reflexivity|reflexivity].
    rewrite (branch_node_map (fun k : T => k) (fun a : AK => a) fv id_keeps id_keeps Fv x (es_value self) t).
    apply obind_map. intros [n t1]. cbn. rewrite IH. apply obind_map. intros [rest t2]. reflexivity.
  Qed.
  Lemma complete_map (self : EarleyState T NT AK AV) prev cur t : complete self prev cur (mi t) = map_out n2 (complete self prev cur t).
  Proof.
    unfold complete. destruct (is_complete _); [|reflexivity]. destruct (if Nat.eqb _ _ then _ else _) as [s| |]; cbn [obind map_out]; [|reflexivity|reflexivity].
    apply complete_from_map.
  Qed.
  Local Notation n3 := (fun x : EarleyStateSet T NT AK AV * Inner T AK V => (fst x, mi (snd x))).
  Local Notation n4 := (fun x : WasChanged * (EarleyStateSet T NT AK AV * Inner T AK V) => (fst x, n3 (snd x))).
  Lemma insert_set_map (st : EarleyState T NT AK AV) s : insert lay st (n3 s) = map_out n4 (insert lay st s).
  Proof.
    destruct s as [set t]. unfold insert. cbn [fst snd]. destruct (bt_get _ set) as [ns|]; [|reflexivity].
    destruct (assert_ _ _); cbn [obind map_out]; [|reflexivity|reflexivity]. unfold merge_values, change_iter.
    rewrite (iter_map (fun k : T => k) (fun a : AK => a) fv (fun '(e, n) t => in_add_all e n t) (fun '(e, n) t => in_add_all e n t)).
    - apply obind_map. intros [c t']. reflexivity.
    - intros [e n] t'. apply (add_all_map (fun k : T => k) (fun a : AK => a) fv).
  Qed.
  Lemma from_scans_map tok : forall (sts : list (EarleyState T NT AK AV)) s, from_scans lay sts (wv tok) (n3 s) = map_out n3 (from_scans lay sts tok s).
  Proof.
    induction sts as [|st sts IH]; intros [set t]; cbn [from_scans fst snd]; [reflexivity|]. rewrite scan_map. apply obind_map. intros [o t1]. cbn [fst snd].
    destruct o as [st'|]; [|exact (IH (set, t1))]. pose proof (insert_set_map st' (set, t1)) as Q. cbn [fst snd] in Q. rewrite Q. apply obind_map. intros [c s']. cbn [fst snd]. apply IH.
  Qed.
  Lemma from_states_map : forall (sts : list (EarleyState T NT AK AV)) s, from_states lay sts (n3 s) = map_out n3 (from_states lay sts s).
  Proof.
    induction sts as [|st sts IH]; intros s; cbn [from_states]; [reflexivity|]. rewrite insert_set_map. apply obind_map. intros [c s']. apply IH.
  Qed.
  Lemma closure_of_map prev cur : forall sts t, closure_of grammar sts prev cur (mi t) = map_out n2 (closure_of grammar sts prev cur t).
  Proof.
    induction sts as [|st sts IH]; intro t; cbn [closure_of]; [reflexivity|]. rewrite complete_map. apply obind_map. intros [l t1]. cbn [fst snd].
    rewrite IH. apply obind_map. intros [l' t2]. reflexivity.
  Qed.
  Lemma insert_iter_map : forall (l : list (EarleyState T NT AK AV)) c s, change_iter_from (insert lay) c l (n3 s) = map_out n4 (change_iter_from (insert lay) c l s).
  Proof.
    induction l as [|st l IH]; intros c s; cbn [change_iter_from]; [reflexivity|]. rewrite insert_set_map. apply obind_map. intros [c' s']. apply IH.
  Qed.
  Lemma close_round_map prev s : close_round lay grammar prev (n3 s) = map_out n4 (close_round lay grammar prev s).
  Proof.
    destruct s as [set t]. unfold close_round. cbn [fst snd]. rewrite closure_of_map. apply obind_map. intros [cl t1]. exact (insert_iter_map cl Unchanged (set, t1)).
  Qed.
  Lemma close_loop_map prev : forall fuel s, change_loop (close_round lay grammar prev) fuel (n3 s) = map_out n3 (change_loop (close_round lay grammar prev) fuel s).
  Proof.
    induction fuel as [|fuel IH]; intro s; cbn [change_loop]; [reflexivity|]. rewrite close_round_map. apply obind_map. intros [c s']. destruct c; cbn [fst snd]; (exact (IH s') || reflexivity).
  Qed.
  Lemma close_state_map prev s fuel : close_state lay grammar prev (n3 s) fuel = map_out n3 (close_state lay grammar prev s fuel).
  Proof.
    unfold close_state. cbn [fst]. destruct (assert_ _ _); cbn [obind map_out]; [|reflexivity|reflexivity]. apply close_loop_map.
  Qed.
  Lemma shift_map (la : EarleyStateSet T NT AK AV) tok t : shift lay la (wv tok) (mi t) = map_out n3 (shift lay la tok t).
  Proof. exact (from_scans_map tok (states la) ([], t)). Qed.
  Lemma new_start_map t : new_start lay grammar (mi t) = map_out n3 (new_start lay grammar t).
  Proof.
    unfold new_start. destruct (get_rule _ _) as [r| |]; cbn [obind map_out]; [|reflexivity|reflexivity]. exact (from_states_map _ ([], t)).
  Qed.
  Lemma parse_tokens_map fuel : forall tokens sets t,
    parse_tokens lay grammar (map wv tokens) sets (mi t) fuel = map_out (fun x => (fst x, mi (snd x))) (parse_tokens lay grammar tokens sets t fuel).
  Proof.
    induction tokens as [|tok tokens IH]; intros sets t; cbn [parse_tokens map]; [reflexivity|].
    destruct (expect _ _) as [la| |]; cbn [obind map_out]; [|reflexivity|reflexivity].
    rewrite shift_map. apply obind_map. intro s. rewrite close_state_map. apply obind_map.
    intros [ns t']. apply IH.
  Qed.
  Lemma parse_map tokens t fuel :
    parse lay grammar (map wv tokens) (mi t) fuel = map_out (fun x => (fst x, mi (snd x))) (parse lay grammar tokens t fuel).
  Proof.
    unfold parse. rewrite new_start_map. apply obind_map. intro s. rewrite close_state_map. apply obind_map. intros [i t1]. cbn [fst snd].
    rewrite parse_tokens_map. apply obind_map. intros [sets t2]. cbn [fst snd].
    destruct (expect _ _) as [la| |]; cbn [obind map_out]; [|reflexivity|reflexivity]. destruct (get_final la); reflexivity.
  Qed.

  Lemma reads_map_iff t : forall n tr', reads (mi t) n tr' <-> exists tr, reads t n tr /\ map_values fv tr = tr'.
  Proof.
    assert (G : forall a, get_alt (mi t) a = map_out (map_ci (fun k : T => k) (fun a : AK => a) fv) (get_alt t a)) by apply get_alt_map.
    intros n tr'. split.
    - revert n tr'. fix IH 3. intros n tr' R. destruct R as [n s a k v N I A|n s a x ns cs N I A Rs].
      + rewrite G in A. destruct (get_alt t a) as [[k' v'|]| |] eqn:E; try discriminate. injection A as <- <-.
        exists (PLeaf k' v'). split; [exact (reads_leaf t n s a k' v' N I E)|reflexivity].
      + rewrite G in A. destruct (get_alt t a) as [[|x' ns']| |] eqn:E; try discriminate. injection A as <- <-.
        assert (X : exists cs0, reads_all t ns' cs0 /\ map (map_values fv) cs0 = cs).
        { clear - IH Rs. induction Rs as [|m ms c cs R Rs IHs]; [exists []; split; constructor|]. destruct (IH _ _ R) as (c0 & R0 & E0).
          destruct IHs as (cs0 & Rs0 & Es0). exists (c0 :: cs0). split; [constructor; assumption|cbn; congruence]. }
        destruct X as (cs0 & Rs0 & <-). exists (PBranch x' cs0). split; [exact (reads_branch t n s a x' ns' cs0 N I E Rs0)|reflexivity].
    - intros (tr & R & <-). revert n tr R. fix IH 3. intros n tr R. destruct R as [n s a k v N I A|n s a x ns cs N I A Rs].
      + apply (reads_leaf (mi t) n s a k (fv v)); [exact N|exact I|]. rewrite G, A. reflexivity.
      + apply (reads_branch (mi t) n s a x ns (map (map_values fv) cs)); [exact N|exact I|rewrite G, A; reflexivity|].
        clear - IH Rs. induction Rs; cbn; constructor; auto.
  Qed.
End Parser.

(** ** Contents only accumulate, whatever the comparison. *)
Section Grow.
  Context {T AK V : Type} `{Ord T} `{Ord AK} `{Ord V}.
  Implicit Types (t : Inner T AK V) (w : world T AK V).
  Definition ext t t' : Prop := exists l, id_to_value (in_alts t') = id_to_value (in_alts t) ++ l.
  Definition wext w w' : Prop := forall h t, nth_error w h = Some t -> exists t', nth_error w' h = Some t' /\ ext t t'.
  Lemma ext_refl t : ext t t. Proof. exists []. rewrite app_nil_r. reflexivity. Qed.
  Lemma ext_trans t1 t2 t3 : ext t1 t2 -> ext t2 t3 -> ext t1 t3.
  Proof. intros (l & E) (l' & E'). exists (l ++ l'). rewrite E', E, app_assoc. reflexivity. Qed.
  Lemma wext_refl w : wext w w. Proof. intros h t E. exists t. split; [exact E|apply ext_refl]. Qed.
  Lemma wext_trans w1 w2 w3 : wext w1 w2 -> wext w2 w3 -> wext w1 w3.
  Proof. intros A B h t E. destruct (A h t E) as (t' & E' & X). destruct (B h t' E') as (t2 & E2 & Y). exists t2. split; [exact E2|exact (ext_trans _ _ _ X Y)]. Qed.
  Lemma list_set_nth {A} (l : list A) : forall i j x y, nth_error l i = Some y ->
    nth_error (list_set l i x) j = if Nat.eqb i j then Some x else nth_error l j.
  Proof.
    induction l as [|z l IH]; intros [|i] [|j] x y; cbn; intro E; try discriminate; try reflexivity. exact (IH i j x y E).
  Qed.
  Lemma wext_set w h t t' : nth_error w h = Some t -> ext t t' -> wext w (w_set w h t').
  Proof.
    intros E X k u Eu. unfold w_set. rewrite (list_set_nth w h k t' t E). destruct (Nat.eqb_spec h k) as [->|N].
    - exists t'. split; [reflexivity|]. rewrite E in Eu. injection Eu as <-. exact X.
    - exists u. split; [exact Eu|apply ext_refl].
  Qed.
  Lemma make_alt_ext t c : ext t (snd (in_make_alt t c)).
  Proof. unfold in_make_alt, altset_add. destruct (bt_get c _); cbn; [exists []; cbn; rewrite app_nil_r; reflexivity|exists [c]; reflexivity]. Qed.
  Lemma add_alt_ext n a t c t' : in_add_node_alt n a t = Ret (c, t') -> ext t t'.
  Proof.
    unfold in_add_node_alt. destruct (get_node t n); cbn; try discriminate. destruct (bs_insert a a0) as [b s']. intro E. injection E as <- <-.
    exists []. cbn. rewrite app_nil_r. reflexivity.
  Qed.
  Lemma iter_ext {I} (f : I -> Inner T AK V -> outcome (WasChanged * Inner T AK V)) : (forall i t c t', f i t = Ret (c, t') -> ext t t') ->
    forall l c t c' t', change_iter_from f c l t = Ret (c', t') -> ext t t'.
  Proof.
    intros F l. induction l as [|i l IH]; intros c t c' t'; cbn [change_iter_from]; [intro E; injection E as <- <-; apply ext_refl|].
    destruct (f i t) as [[c1 t1]| |] eqn:E; cbn [obind]; try discriminate. intro Q. exact (ext_trans _ _ _ (F _ _ _ _ E) (IH _ _ _ _ Q)).
  Qed.
  Lemma add_all_ext n m t c t' : in_add_all n m t = Ret (c, t') -> ext t t'.
  Proof.
    unfold in_add_all. destruct (get_node t m); cbn [obind]; try discriminate. apply iter_ext. intros. eapply add_alt_ext; eassumption.
  Qed.
  Lemma on_wext {A B} w (x : outcome A) (k : A -> outcome B * world T AK V) r w' : on w x k = (r, w') ->
    (forall a, x = Ret a -> k a = (r, w') -> wext w w') -> wext w w'.
  Proof. destruct x; cbn; intros E F; [exact (F a eq_refl E)|injection E as <- <-; apply wext_refl|injection E as <- <-; apply wext_refl]. Qed.
  Lemma bind_wext {A B} (x : outcome A * world T AK V) (k : A -> world T AK V -> outcome B * world T AK V) w r w' : wbind x k = (r, w') ->
    wext w (snd x) -> (forall a w1, x = (Ret a, w1) -> k a w1 = (r, w') -> wext w1 w') -> wext w w'.
  Proof.
    destruct x as [[a| |] w1]; cbn; intros E X F; [exact (wext_trans _ _ _ X (F a w1 eq_refl E))|injection E as <- <-; exact X|injection E as <- <-; exact X].
  Qed.
  Lemma with_nth w h t : with_ w h = Ret t -> nth_error w h = Some t.
  Proof. unfold with_, expect. destruct (nth_error w h); [intro E; injection E as ->; reflexivity|discriminate]. Qed.
  Lemma make_node_wext w h r w' : w_make_node w h = (r, w') -> wext w w'.
  Proof.
    intro E. refine (on_wext w _ _ r w' E _). intros t Et. apply with_nth in Et. intro Q. injection Q as <- <-.
    apply (wext_set w h t); [exact Et|exists []; cbn; rewrite app_nil_r; reflexivity].
  Qed.
  Lemma make_alt_wext w h c r w' : w_make_alt w h c = (r, w') -> wext w w'.
  Proof.
    intro E. refine (on_wext w _ _ r w' E _). intros t Et. apply with_nth in Et. pose proof (make_alt_ext t c) as X.
    destruct (in_make_alt t c) as [i t']. intro Q. injection Q as <- <-. exact (wext_set w h t t' Et X).
  Qed.
  Lemma branch_alt_wext w h x ns r w' : w_make_branch_alt w h x ns = (r, w') -> wext w w'.
  Proof.
    intro E. refine (on_wext w _ _ r w' E _). intros t _ Q. refine (on_wext w _ _ r w' Q _). intros is _. apply make_alt_wext.
  Qed.
  Lemma add_alt_wext w n a r w' : w_add_alt w n a = (r, w') -> wext w w'.
  Proof.
    intro E. refine (on_wext w _ _ r w' E _). intros _ _ E1. refine (on_wext w _ _ r w' E1 _). intros t Et E2. apply with_nth in Et.
    refine (on_wext w _ _ r w' E2 _). intros [c t'] Ea Q. injection Q as <- <-. exact (wext_set w _ t t' Et (add_alt_ext _ _ _ _ _ Ea)).
  Qed.
  Lemma add_all_wext w n m r w' : w_add_all w n m = (r, w') -> wext w w'.
  Proof.
    intro E. refine (on_wext w _ _ r w' E _). intros _ _ E1. refine (on_wext w _ _ r w' E1 _). intros t Et E2. apply with_nth in Et.
    refine (on_wext w _ _ r w' E2 _). intros [c t'] Ea Q. injection Q as <- <-. exact (wext_set w _ t t' Et (add_all_ext _ _ _ _ _ Ea)).
  Qed.
  Lemma rmap_inv {A} (f : A -> tr_val T AK V) x r w' : rmap f x = (r, w') -> snd x = w'.
  Proof. destruct x as [[a| |] w]; cbn; intro E; injection E as <- <-; reflexivity. Qed.
  Lemma step_wext w o r w' : tr_step w o = (r, w') -> wext w w'.
  Proof.
    destruct o; cbn [tr_step]; intro E; apply rmap_inv in E.
    - cbn in E. subst w'. intros h t N. exists t. split; [rewrite nth_error_app1; [exact N|apply nth_error_Some; congruence]|apply ext_refl].
    - destruct (w_make_node w h) eqn:Q. subst. exact (make_node_wext _ _ _ _ Q).
    - destruct (w_make_leaf_alt w h kind value) eqn:Q. subst. exact (make_alt_wext _ _ _ _ _ Q).
    - destruct (w_make_branch_alt w h action nodes) eqn:Q. subst. exact (branch_alt_wext _ _ _ _ _ _ Q).
    - destruct (w_make_leaf_node w h kind value) as [r' w2] eqn:Q. cbn in E. subst w2. refine (bind_wext _ _ w r' w' Q _ _).
      + destruct (w_make_node w h) eqn:Q1. exact (make_node_wext _ _ _ _ Q1).
      + intros n w1 _ Q1. refine (bind_wext _ _ w1 r' w' Q1 _ _).
        * destruct (w_make_leaf_alt w1 h kind value) eqn:Q2. exact (make_alt_wext _ _ _ _ _ Q2).
        * intros a w2 _ Q2. refine (bind_wext _ _ w2 r' w' Q2 _ _); [destruct (w_add_alt w2 n a) eqn:Q3; exact (add_alt_wext _ _ _ _ _ Q3)|].
          intros c w3 _ Q3. injection Q3 as <- <-. apply wext_refl.
    - destruct (w_make_branch_node w h action nodes) as [r' w2] eqn:Q. cbn in E. subst w2. refine (bind_wext _ _ w r' w' Q _ _).
      + destruct (w_make_node w h) eqn:Q1. exact (make_node_wext _ _ _ _ Q1).
      + intros n w1 _ Q1. refine (bind_wext _ _ w1 r' w' Q1 _ _).
        * destruct (w_make_branch_alt w1 h action nodes) eqn:Q2. exact (branch_alt_wext _ _ _ _ _ _ Q2).
        * intros a w2 _ Q2. refine (bind_wext _ _ w2 r' w' Q2 _ _); [destruct (w_add_alt w2 n a) eqn:Q3; exact (add_alt_wext _ _ _ _ _ Q3)|].
          intros c w3 _ Q3. injection Q3 as <- <-. apply wext_refl.
    - destruct (w_add_alt w n a) eqn:Q. subst. exact (add_alt_wext _ _ _ _ _ Q).
    - destruct (w_add_all w n other) eqn:Q. subst. exact (add_all_wext _ _ _ _ _ Q).
    - cbn in E. subst. apply wext_refl.
    - cbn in E. subst. apply wext_refl.
  Qed.
  Lemma content_wext w w' a c : wext w w' -> w_content w a = Ret c -> w_content w' a = Ret c.
  Proof.
    intros X. unfold w_content. destruct (with_ w (al_inner a)) as [t| |] eqn:Et; cbn [obind]; try discriminate. apply with_nth in Et.
    destruct (X _ _ Et) as (t' & Et' & l & El). unfold with_. rewrite Et'. cbn [expect obind]. unfold get_alt, expect.
    destruct (nth_error (id_to_value (in_alts t)) (al_index a)) as [d|] eqn:N; cbn [obind]; [|discriminate].
    rewrite El, nth_error_app1 by (apply nth_error_Some; congruence). rewrite N. cbn [obind]. tauto.
  Qed.
  Lemma run_split (tr tr' : history T AK V) w' : run (tr' ++ tr) w' -> exists w, run tr w /\ wext w w'.
  Proof.
    revert w'. induction tr' as [|[o r] tr' IH]; intros w' R; [exists w'; split; [exact R|apply wext_refl]|]. cbn in R. inversion R as [|? w1 ? ? ? R1 C S]; subst.
    destruct (IH _ R1) as (w & Rw & X). exists w. split; [exact Rw|exact (wext_trans _ _ _ X (step_wext _ _ _ _ S))].
  Qed.
  Lemma run_same (tr : history T AK V) w : run tr w -> forall w', run tr w' -> w = w'.
  Proof.
    induction 1 as [|tr w o r w1 R IH C S]; intros w' R'; inversion R' as [|? w2 ? ? ? R2 C2 S2]; subst; [reflexivity|].
    specialize (IH _ R2). subst w2. rewrite S in S2. injection S2 as <-. reflexivity.
  Qed.
End Grow.
