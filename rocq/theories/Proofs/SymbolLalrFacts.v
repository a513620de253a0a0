(** Item sets and LALR states commute with replacing symbols by the keys they are compared by. *)
From Coq Require Import String List Arith NArith Lia.
From Verif.Model Require Import Ord BTree Outcome Utils Grammar Nullable Firsts State Lalr.
From Verif.Spec Require Import Cfg BuildSpec RenameSpec CoarseSpec SymbolSpec SymbolLalrSpec.
From Verif.Proofs Require Import OrdFacts CoarseFacts SymbolFacts.
Import ListNotations.

Lemma cb_pair {A B A' B'} `{Ord A} `{Ord B} `{Ord A'} `{Ord B'} (f : A -> A') (h : B -> B') :
  compares_by f -> compares_by h -> compares_by (fun x => (f (fst x), h (snd x))).
Proof. intros F G x y. unfold cmp, Ord_prod. cbn [fst snd]. rewrite <- (F (fst x) (fst y)), <- (G (snd x) (snd y)). reflexivity. Qed.
Lemma cb_list {A A'} `{Ord A} `{Ord A'} (f : A -> A') : compares_by f -> compares_by (map f).
Proof.
  intros F x. unfold cmp, Ord_list. induction x as [|a x IH]; intros [|b y]; cbn [list_cmp map]; try reflexivity. rewrite <- (F a b), IH. reflexivity.
Qed.

Section Items.
  Context {T NT AK AV T' NT' AK' AV' : Type} `{Ord T} `{Ord NT} `{Ord T'} `{Ord NT'}.
  Variables (fT : T -> T') (fN : NT -> NT') (fK : AK -> AK') (fV : AV -> AV').
  Hypothesis FT : compares_by fT.
  Hypothesis FN : compares_by fN.
  Variable lay' : layout NT'.
  Local Notation lay := (fun A => lay' (fN A)).
  Local Notation re := (ren_elem fT fN).
  Local Notation rpe := (ren_pe fT fN).
  Local Notation ki := (keys_item fT fN fK fV).
  Local Notation kla := (keys_la fT fN fK fV).
  Local Notation kst := (keys_state fT fN fK fV).
  Local Notation PS := (ProdState T NT AK AV).
  #[local] Hint Extern 0 (Ord (ProdState T NT AK AV)) => exact (Ord_ProdState lay) : typeclass_instances.
  #[local] Hint Extern 0 (Ord (ProdState T' NT' AK' AV')) => exact (Ord_ProdState lay') : typeclass_instances.

  Lemma ki_keeps : compares_by ki.
  Proof. intros x y. reflexivity. Qed.
  Lemma ki_eqb a b : ps_eqb lay' (ki a) (ki b) = ps_eqb lay a b.
  Proof. reflexivity. Qed.
  Lemma re_keeps : compares_by re.
  Proof. intros [a|a] [b|b]; try reflexivity; [exact (FT a b)|exact (FN a b)]. Qed.
  Lemma rpe_keeps : compares_by rpe.
  Proof. intros x y. unfold cmp, Ord_ProdElement. cbn [ren_pe pe_id pe_elem]. rewrite <- (re_keeps (pe_elem x) (pe_elem y)). reflexivity. Qed.

  Lemma item_offset s i : offset_prod_elem (ki s) i = option_map rpe (offset_prod_elem s i).
  Proof. unfold offset_prod_elem, prod_elements. cbn. apply nth_error_map. Qed.
  Lemma item_offset_elem s i : offset_elem (ki s) i = option_map re (offset_elem s i).
  Proof. unfold offset_elem. rewrite item_offset. destruct (offset_prod_elem s i); reflexivity. Qed.
  Lemma item_next s : next_elem (ki s) = option_map re (next_elem s).
  Proof. apply item_offset_elem. Qed.
  Lemma item_next_state s : next_elem_state (ki s) = option_map (fun x => (rpe (fst x), ki (snd x))) (next_elem_state s).
  Proof. unfold next_elem_state, next_prod_elem. rewrite item_offset. destruct (offset_prod_elem s 0); reflexivity. Qed.
  Lemma item_complete s : is_complete (ki s) = is_complete s.
  Proof. unfold is_complete, num_elements. cbn. rewrite map_length. reflexivity. Qed.
  Lemma item_advance s e : advance_if (ki s) (re e) = option_map ki (advance_if s e).
  Proof.
    unfold advance_if. rewrite item_next_state. destruct (next_elem_state s) as [[x n]|]; cbn [option_map fst snd]; [|reflexivity].
    cbn [ren_pe pe_elem]. rewrite (eqb_key re re_keeps). destruct (eqb _ _); reflexivity.
  Qed.

  (** *** Sets of items *)
  Lemma from_iter_keys kl l : pss_from_iter lay' kl (map ki l) = map ki (pss_from_iter lay kl l).
  Proof. unfold pss_from_iter. rewrite <- (sof_list ki ki_keeps). destruct kl; [rewrite map_rev|]; reflexivity. Qed.
  Lemma add_keys s (x : PS) : pss_add lay' (map ki s) (ki x) = map ki (pss_add lay s x).
  Proof. apply (sadd ki ki_keeps). Qed.
  Lemma complete_keys_set s : pss_complete (map ki s) = map ki (pss_complete s).
  Proof. apply map_filter. apply item_complete. Qed.
  Lemma cmp_keys a b : pss_cmp lay' (map ki a) (map ki b) = pss_cmp lay a b.
  Proof. symmetry. apply (cb_list ki ki_keeps a b). Qed.
  Lemma eqb_keys : forall a b, pss_eqb lay' (map ki a) (map ki b) = pss_eqb lay a b.
  Proof. induction a as [|x a IH]; intros [|y b]; cbn [pss_eqb map]; try reflexivity. rewrite ki_eqb, IH. reflexivity. Qed.
  Lemma nexts_keys s : pss_nexts lay' (map ki s) = keys_nexts fT fN fK fV (pss_nexts lay s).
  Proof.
    unfold pss_nexts. rewrite filter_map_map.
    rewrite (filter_map_ext _ (fun a => option_map (fun x => (rpe (fst x), ki (snd x))) (next_elem_state a))) by apply item_next_state.
    rewrite <- map_filter_map. change (@nil (ProdElement T' NT' * ProdStateSet T' NT' AK' AV')) with (keys_nexts fT fN fK fV (AK := AK) (AV := AV) []).
    apply fold_left_map. intros m [k v]. cbn [fst snd]. unfold keys_nexts, ProdStateSet, btset in *. rewrite (kget rpe (map ki) rpe_keeps).
    replace (match option_map (map ki) (bt_get k m) with Some set => set | None => pss_new_empty end)
      with (map ki (match bt_get k m with Some set => set | None => pss_new_empty end)) by (destruct (bt_get k m); reflexivity).
    rewrite add_keys. exact (kinsert rpe (map ki) rpe_keeps k _ m).
  Qed.

  (** *** Closures *)
  Section Closure.
    Context {St St' : Type}.
    Variable fS : St -> St'.
    Variable cf : PS -> St -> list PS * St.
    Variable cf' : ProdState T' NT' AK' AV' -> St' -> list (ProdState T' NT' AK' AV') * St'.
    Hypothesis CF : forall s st, cf' (ki s) (fS st) = (map ki (fst (cf s st)), fS (snd (cf s st))).
    Local Notation two2 := (fun x : list PS * list PS => (map ki (fst x), map ki (snd x))).
    Local Notation three := (fun x : (list PS * list PS) * St => (two2 (fst x), fS (snd x))).
    Lemma tc_visit_keys : forall l x, tc_visit lay' (map ki l) (two2 x) = two2 (tc_visit lay l x).
    Proof.
      apply fold_left_map. intros [a b] c. cbn [fst snd].
      pose proof (sinsert ki ki_keeps c a) as Q. unfold btset in *. rewrite Q. destruct (bs_insert c a) as [i a']. cbn [fst snd].
      destruct i; [|reflexivity]. cbn [fst snd]. f_equal. exact (sadd ki ki_keeps c b).
    Qed.
    Lemma tc_round_keys : forall l x, tc_round lay' cf' (map ki l) (three x) = three (tc_round lay cf l x).
    Proof.
      apply fold_left_map. intros [a st] s. cbn [fst snd]. rewrite CF. destruct (cf s st) as [l st']. cbn [fst snd].
      f_equal. exact (tc_visit_keys l a).
    Qed.
    Lemma tc_loop_keys : forall fuel a b st, tc_loop lay' cf' fuel (map ki a) (map ki b) (fS st) = map_out (fun x => (map ki (fst x), fS (snd x))) (tc_loop lay cf fuel a b st).
    Proof.
      induction fuel as [|fuel IH]; intros a b st; cbn [tc_loop]; [reflexivity|].
      pose proof (tc_round_keys b ((a, []), st)) as Q. cbn [fst snd map] in Q. unfold ProdStateSet, btset in *. rewrite Q.
      destruct (tc_round lay cf b (a, [], st)) as [[a' n] st']. cbn [fst snd]. destruct n as [|x n]; [reflexivity|]. cbn [map]. exact (IH a' (x :: n) st').
    Qed.
  End Closure.

  (** *** LALR states *)
  Lemma collect_keys kl items : collect_items lay' kl (map kla items) = kst (collect_items lay kl items).
  Proof.
    unfold collect_items. destruct kl.
    - rewrite <- map_rev. change (@nil (ProdState T' NT' AK' AV' * btset T')) with (kst []). apply fold_left_map. intros m [s l]. cbn [fst snd keys_la].
      change (kst m) with (key_map ki (map fT) m). unfold btset in *. rewrite (kmem ki (map fT) ki_keeps). destruct (bt_mem s m); [reflexivity|].
      exact (kinsert ki (map fT) ki_keeps s l m).
    - exact (kof_list ki (map fT) ki_keeps items).
  Qed.
  Variable g : Grammar T NT AK AV.
  Local Notation g' := (key_grammar fT fN fK fV g).
  Lemma lookahead_keys firsts s la :
    new_lookahead (key_map fN (map fT) firsts) (ki s) (map fT la) = map_out (map fT) (new_lookahead firsts s la).
  Proof.
    unfold new_lookahead. rewrite item_offset_elem. destruct (offset_elem s 1) as [[t|A]|]; cbn [option_map ren_elem]; [reflexivity| |reflexivity].
    unfold firsts_get, btset in *. rewrite <- expect_map. f_equal. unfold cm_get. apply (kget fN (map fT) FN).
  Qed.
  Lemma expansions_keys firsts : forall l, new_expansions (key_map fN (map fT) firsts) (map kla l) =
    map_out (map (fun x => (fN (fst x), map fT (snd x)))) (new_expansions firsts l).
  Proof.
    induction l as [|[s la] l IH]; cbn [new_expansions map keys_la fst snd]; [reflexivity|]. rewrite item_next.
    destruct (next_elem s) as [[t|A]|]; cbn [option_map ren_elem]; [exact IH| |exact IH]. rewrite lookahead_keys. apply obind_map. intro la'.
    rewrite IH. apply obind_map. intro rest. reflexivity.
  Qed.
  Lemma expand_one_keys e m : expand_one lay' g' (fN (fst e), map fT (snd e)) (kst m) = map_out (onc kst) (expand_one lay g e m).
  Proof.
    destruct e as [A la]. unfold expand_one. cbn [fst snd]. rewrite (get_rule_map _ _ _ _ FN). apply obind_map. intro r.
    rewrite rule_prods_map, !map_map. unfold change_iter.
    replace (map (fun x => from_start (key_prod fT fN fK fV x)) (rule_prods r)) with (map ki (map from_start (rule_prods r))) by (rewrite map_map; reflexivity).
    apply change_iter_map. intros s m'. cbn [map_out]. f_equal. exact (cm_insert_iter_map fT ki FT ki_keeps m' s la).
  Qed.
  Lemma expand_keys firsts m : expand lay' g' (key_map fN (map fT) firsts) (kst m) = map_out (onc kst) (expand lay g firsts m).
  Proof.
    unfold expand. change (kst m) with (map kla m) at 1. rewrite expansions_keys. apply obind_map. intro l. unfold change_iter.
    exact (change_iter_map kst (fun x => (fN (fst x), map fT (snd x))) (expand_one lay g) (expand_one lay' g') expand_one_keys l Unchanged m).
  Qed.
  Lemma from_prod_keys kl items fuel :
    from_prod_lookahead lay' g' kl (map kla items) fuel = map_out (map_result kst (fun e => e)) (from_prod_lookahead lay g kl items fuel).
  Proof.
    unfold from_prod_lookahead. rewrite (firsts_map fT fN fK fV FT FN). apply obind_map. intros [firsts|e]; cbn [map_result]; [|reflexivity].
    unfold cm_from_seed. rewrite collect_keys.
    pose proof (change_loop_map kst (expand lay g firsts) (expand lay' g' (key_map fN (map fT) firsts)) (expand_keys firsts) fuel (collect_items lay kl items)) as Q.
    refine (eq_trans (f_equal (fun x => obind x _) Q) _). apply obind_map. reflexivity.
  Qed.
  Lemma shift_items_keys s : shift_items (kst s) = map (fun x => (fT (fst x), kla (snd x))) (shift_items s).
  Proof.
    unfold shift_items, keys_state. rewrite filter_map_map, map_filter_map. apply filter_map_ext. intros [p la]. cbn [keys_la fst snd].
    rewrite item_next_state. destruct (next_elem_state p) as [[e n]|]; cbn [option_map fst snd]; [|reflexivity].
    cbn [ren_pe pe_elem]. destruct (pe_elem e); reflexivity.
  Qed.
  Lemma kla_keeps : compares_by kla.
  Proof. exact (cb_pair ki (map fT) ki_keeps (cb_list fT FT)). Qed.
  Lemma shuffle_keys (l : list (T * (PS * btset T))) : shuffle_iter (map (fun x => (fT (fst x), kla (snd x))) l) = key_map fT (map kla) (shuffle_iter l).
  Proof.
    unfold shuffle_iter. change (@nil (T' * btset (ProdState T' NT' AK' AV' * btset T'))) with (key_map fT (map kla) []). apply fold_left_map.
    intros m [k v]. cbn [fst snd]. pose proof (kget fT (map kla) FT k m) as Q. unfold btset in *. rewrite Q. destruct (bt_get k m) as [s|]; cbn [option_map].
    - rewrite <- (kinsert fT (map kla) FT). f_equal. exact (sadd kla kla_keeps v s).
    - exact (kinsert fT (map kla) FT k [v] m).
  Qed.
  Lemma shift_collect_keys kl fuel : forall l acc,
    shift_collect lay' g' kl fuel (key_map fT (map kla) l) (keys_shift fT fN fK fV acc) =
    map_out (map_result (keys_shift fT fN fK fV) (fun e => e)) (shift_collect lay g kl fuel l acc).
  Proof.
    induction l as [|[t n] l IH]; intro acc; cbn [shift_collect key_map map fst snd]; [reflexivity|]. rewrite from_prod_keys. apply obind_map.
    intros [s|e]; cbn [map_result]; [|reflexivity]. pose proof (kinsert fT kst FT t s acc) as Q. unfold keys_shift in *. unfold ParseState, btset in *. rewrite Q. exact (IH (bt_insert t s acc)).
  Qed.
  Lemma shift_actions_keys kl s fuel :
    shift_actions lay' g' kl (kst s) fuel = map_out (map_result (keys_shift fT fN fK fV) (fun e => e)) (shift_actions lay g kl s fuel).
  Proof.
    unfold shift_actions. rewrite shift_items_keys, shuffle_keys. exact (shift_collect_keys kl fuel _ []).
  Qed.
  Lemma reducable_keys s : reducable_actions (kst s) = map fK (reducable_actions s).
  Proof.
    unfold reducable_actions. change (kst s) with (key_map ki (map fT) s). unfold btset in *. rewrite (kkeys ki (map fT)), filter_map_map, map_filter_map. apply filter_map_ext.
    intro p. rewrite item_complete. destruct (is_complete p); reflexivity.
  Qed.
End Items.
