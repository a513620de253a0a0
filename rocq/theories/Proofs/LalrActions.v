(** [shift_actions] and [reducable_actions]. *)
From Coq Require Import String List Arith Lia Bool NArith Permutation Sorted.
From Verif.Model Require Import Ord BTree Outcome Utils Grammar Nullable Firsts State Lalr.
From Verif.Spec Require Import Reach Cfg BuildSpec NullSpec StateSpec LalrSpec.
From Verif.Proofs Require Import OrdFacts BTreeFacts LoopFacts UtilsFacts GrammarFacts NullableFacts CfgFacts
  FirstsFacts FollowsFacts FirstsMore StateFacts StateMore StateSets LalrFacts LalrMore LalrMain.
Import ListNotations.

Section Actions.
  Context {T NT AK AV : Type} `{OrdEq T} `{OrdEq NT}.
  Variable lay : layout NT.
  Variable g : Grammar T NT AK AV.
  Hypothesis B : built g.
  Hypothesis Inj : lay_inj g lay.
  Local Notation PS := (ProdState T NT AK AV).
  Local Notation Map := (btmap PS (btset T)).
  #[local] Hint Extern 0 (Ord (ProdState _ _ _ _)) => exact (Ord_ProdState lay) : typeclass_instances.
  #[local] Existing Instance TotalPre_PS.

  Lemma present_in_g (item : PS -> list T -> Prop) s : (forall s ts, item s ts -> In (ps_prod s) (prods g)) ->
    present g item s -> In (ps_prod s) (prods g).
  Proof.
    intros Hi [s1 la I|p t C _]; [exact (Hi s1 la I)|]. simpl.
    destruct C as [s2 ts t2 I2 _|s2 A rest p t2 _ _ Ip _ _]; [exact (Hi s2 ts I2) | exact Ip].
  Qed.

  Definition state_ok (m : Map) : Prop := msorted m /\ Forall (item_of g) m.

  (** The result of [from_prod_lookahead] is made of items of [g]. *)
  Lemma from_prod_ok kl items m : Forall (item_of g) items ->
    runs_to (fun n => from_prod_lookahead lay g kl items n) (Ret (Ok m)) -> state_ok m.
  Proof.
    intros F R. destruct (from_prod_spec lay g B Inj kl items F) as (r & R' & S).
    pose proof (runs_to_fun _ _ _ R R') as E. subst r. destruct S as (_ & Ms & K & V & _).
    split; [exact Ms|]. apply Forall_forall. intros [s ts] I.
    assert (P : present g (kept kl items) s) by (apply K; eauto).
    assert (Hi : forall s ts, kept kl items s ts -> In (ps_prod s) (prods g) /\ position (ps_prod s) s).
    { intros s1 ts1 Kp. apply kept_In in Kp. destruct Kp as [(ts' & I1) _].
      rewrite Forall_forall in F. split; apply (F _ I1). }
    split; [apply (present_in_g _ s (fun s ts X => proj1 (Hi s ts X)) P)|].
    split; [|apply (V s ts I)]. destruct P as [s1 ts1 I1|p t _ _]; [apply (Hi _ _ I1)|].
    simpl. apply position_all. lia.
  Qed.

  Lemma state_ok_uniq m s ts s' ts' : state_ok m -> In (s, ts) m -> In (s', ts') m -> ps_prod s = ps_prod s' ->
    s = s' /\ ts = ts'.
  Proof.
    intros [Ms _] I I' E.
    pose proof (bt_In_get s s ts m Ms I (cmp_refl s)) as G.
    pose proof (bt_In_get s s' ts' m Ms I' (cmp_prod_refl lay s s' E)) as G'.
    assert (ts = ts') by congruence. split; [|assumption].
    apply (sorted_eq_unique (bt_keys m)).
    - exact Ms.
    - apply (in_map fst) in I. exact I.
    - apply (in_map fst) in I'. exact I'.
    - apply (cmp_prod_refl lay). exact E.
  Qed.

  Lemma todo_next (s : PS) x : (exists rest, todo s = x :: rest) <->
    exists e, next_elem_state s = Some (e, Build_ProdState (ps_prod s) (Datatypes.S (ps_index s))) /\ pe_elem e = x.
  Proof.
    rewrite <- next_elem_todo. unfold next_elem, offset_elem. change (offset_prod_elem s 0) with (next_prod_elem s).
    unfold next_elem_state. rewrite Nat.add_1_r. destruct (next_prod_elem s) as [e|]; cbn [option_map]; split.
    - intros [= <-]. exists e. auto.
    - intros (e' & [= <-] & <-). reflexivity.
    - discriminate.
    - intros (e' & X & _). discriminate X.
  Qed.

  Lemma shift_items_In (m : Map) t s' ts : In (t, (s', ts)) (shift_items m) <-> moved m t s' ts.
  Proof.
    unfold shift_items. rewrite filter_map_In. split.
    - intros ([s la] & I & E). simpl in E. destruct (next_elem_state s) as [[e s1]|] eqn:N; [|discriminate].
      destruct (as_term (pe_elem e)) as [t'|] eqn:At; [|discriminate]. injection E as -> -> ->.
      pose proof N as N'. apply next_elem_state_iff in N'. destruct N' as (_ & E1 & E2).
      assert (s' = Build_ProdState (ps_prod s) (Datatypes.S (ps_index s))).
      { destruct s' as [p' i']. simpl in *. congruence. } subst s'.
      assert (Ee : pe_elem e = Term t). { destruct (pe_elem e); simpl in At; congruence. }
      destruct (proj2 (todo_next s (Term t))) as (rest & Td); [exists e; auto|].
      exists s, rest. auto.
    - intros (s & rest & I & Td & ->). exists (s, ts). split; [exact I|]. simpl.
      destruct (proj1 (todo_next s (Term t)) (ex_intro _ rest Td)) as (e & -> & Ee). rewrite Ee. reflexivity.
  Qed.

  Lemma moved_item_of (m : Map) t s' ts : state_ok m -> moved m t s' ts -> item_of g (s', ts).
  Proof.
    intros [_ F] (s & rest & I & Td & ->). rewrite Forall_forall in F. destruct (F _ I) as (A & P & S). simpl in *.
    split; [exact A|]. split; [|exact S]. simpl.
    destruct (proj1 (todo_next s (Term t)) (ex_intro _ rest Td)) as (e & N & _).
    exact (pos_next _ _ _ _ P N).
  Qed.
  Lemma moved_one (m : Map) t : state_ok m -> one_per_prod (moved m t).
  Proof.
    intros O s ts s' ts' (s1 & r1 & I1 & _ & ->) (s2 & r2 & I2 & _ & ->) E. simpl in E.
    destruct (state_ok_uniq m s1 ts s2 ts' O I1 I2 E) as [-> ->]. auto.
  Qed.

  (** What one shift does. *)
  Definition shift_result (m : Map) (t : T) (st : ParseState T NT AK AV) : Prop :=
    state_ok st /\ ~ null_ambiguous g /\
    (forall s, (exists ts, In (s, ts) st) <-> present g (moved m t) s) /\
    (forall s ts, In (s, ts) st -> forall u, In u ts <-> carries g (moved m t) (ps_prod s) u) /\
    (forall s, present g (moved m t) s -> ~ undefined g s).

  Lemma shift_group m t vs : state_ok m -> In (t, vs) (shuffle_iter (shift_items m)) ->
    Forall (item_of g) vs /\ vs <> [] /\ forall s ts, In (s, ts) vs <-> moved m t s ts.
  Proof.
    intros O I.
    assert (U : forall a b, In a (vals t (shift_items m)) -> In b (vals t (shift_items m)) -> cmp a b = Eq -> a = b).
    { intros [s ts] [s' ts'] Ia Ib C. apply vals_In, shift_items_In in Ia. apply vals_In, shift_items_In in Ib.
      assert (E : ps_prod s = ps_prod s').
      { pose proof (moved_item_of m t s ts O Ia) as (G1 & _). pose proof (moved_item_of m t s' ts' O Ib) as (G2 & _).
        simpl in G1, G2. apply (cmp_eq_prod lay g B Inj s s' G1 G2).
        unfold cmp, Ord_prod in C. simpl in C. destruct (@cmp PS _ s s'); [reflexivity | discriminate | discriminate]. }
      destruct (moved_one m t O s ts s' ts' Ia Ib E) as [-> ->]. reflexivity. }
    destruct (shuffle_In (shift_items m) t vs U I) as (Ne & _ & Hv).
    assert (Q : forall s ts, In (s, ts) vs <-> moved m t s ts) by (intros s ts; rewrite Hv; apply shift_items_In).
    split; [|split; [exact Ne | exact Q]]. apply Forall_forall. intros [s ts] Iv.
    apply (moved_item_of m t s ts O). apply Q. exact Iv.
  Qed.

  (** One [from_prod_lookahead] on the group of a terminal. *)
  Lemma shift_one kl m t vs : state_ok m -> In (t, vs) (shuffle_iter (shift_items m)) ->
    exists r, runs_to (fun n => from_prod_lookahead lay g kl vs n) r /\
      match r with
      | Ret (Err e) => e = FNullableError Ambiguity /\ null_ambiguous g
      | Ret (Ok st) => shift_result m t st
      | Panic _ => ~ null_ambiguous g /\ exists s, present g (moved m t) s /\ undefined g s
      | NoFuel => False
      end.
  Proof.
    intros O I. destruct (shift_group m t vs O I) as (F & _ & Q).
    destruct (from_prod_spec lay g B Inj kl vs F) as (r & R & S). exists r. split; [exact R|].
    assert (E : forall s ts, kept kl vs s ts <-> moved m t s ts).
    { intros s ts. rewrite <- Q. apply (kept_all lay g B Inj kl vs s ts F).
      intros s1 ts1 s2 ts2 I1 I2 Ep. apply Q in I1. apply Q in I2. exact (moved_one m t O s1 ts1 s2 ts2 I1 I2 Ep). }
    destruct (closure_ext g _ _ E) as (X1 & X2 & _).
    destruct (closure_ext g _ _ (fun s ts => iff_sym (E s ts))) as (Y1 & Y2 & _).
    destruct r as [[st|e]|msg|]; [|exact S| |exact S].
    - pose proof (from_prod_ok kl vs st F R) as Ok1. destruct S as (Na & _ & K & V & Nu).
      split; [exact Ok1|]. split; [exact Na|]. split; [|split].
      + intro s. rewrite K. split; auto.
      + intros s ts Is u. destruct (V s ts Is) as [_ Vt]. rewrite Vt. split; auto.
      + intros s P. apply Nu. auto.
    - destruct S as (Na & s & P & Un). split; [exact Na|]. exists s. auto.
  Qed.

  Lemma shift_collect_mono kl : forall l acc, fuel_mono (fun n => shift_collect lay g kl n l acc).
  Proof.
    induction l as [|[t vs] l IH]; intro acc; simpl; [apply fuel_mono_const|].
    apply fuel_mono_bind; [apply from_prod_mono|]. intros [st|e]; [apply IH | apply fuel_mono_const].
  Qed.
  Lemma shift_mono kl m : fuel_mono (fun n => shift_actions lay g kl m n).
  Proof. apply shift_collect_mono. Qed.

  Lemma shift_collect_spec kl m l acc :
    state_ok m -> incl l (shuffle_iter (shift_items m)) -> msorted acc ->
    (forall t st, In (t, st) acc -> shift_result m t st) ->
    exists r, runs_to (fun n => shift_collect lay g kl n l acc) r /\
      match r with
      | Ret (Err e) => e = FNullableError Ambiguity /\ null_ambiguous g /\ l <> []
      | Ret (Ok res) => msorted res /\ (forall t st, In (t, st) res -> shift_result m t st) /\
          (forall t, In t (bt_keys res) <-> In t (bt_keys acc) \/ In t (map fst l))
      | Panic _ => ~ null_ambiguous g /\ exists t s, In t (map fst l) /\ present g (moved m t) s /\ undefined g s
      | NoFuel => False
      end.
  Proof.
    intro O. revert acc. induction l as [|[t vs] l IH]; intros acc Sub Sa Ha.
    - exists (Ret (Ok acc)). split; [split; [discriminate|]; exists 0; reflexivity|].
      split; [exact Sa|]. split; [exact Ha|]. intro t. simpl. tauto.
    - destruct (shift_one kl m t vs O (Sub _ (or_introl eq_refl))) as (r & R & S).
      destruct r as [[st|e]|msg|]; [| | |destruct S].
      + destruct (IH (bt_insert t st acc)) as (r2 & R2 & S2).
        * intros x X. apply Sub. right. exact X.
        * apply bt_insert_sorted. exact Sa.
        * intros t' st' I'. apply bt_get_iff in I'; [|apply bt_insert_sorted; exact Sa].
          rewrite bt_get_insert in I'. unfold eqb in I'. destruct (cmp t' t) eqn:C.
          -- apply cmp_eq in C. subst t'. injection I' as <-. exact S.
          -- apply Ha. apply bt_get_iff in I'; assumption.
          -- apply Ha. apply bt_get_iff in I'; assumption.
        * exists r2. split; [apply (runs_to_bind _ _ (Ok st)); [exact R | exact R2]|].
          destruct r2 as [[res|e]|msg|]; [| | |exact S2].
          -- destruct S2 as (A & B1 & C). split; [exact A|]. split; [exact B1|]. intro u. rewrite C.
             rewrite bt_keys_insert, bs_add_In. simpl. split; [intros [[-> |X]|X]; auto | intros [X|[<-|X]]; auto].
          -- destruct S2 as (A & B1 & C). repeat split; auto. discriminate.
          -- destruct S2 as (A & t' & s & I' & P). split; [exact A|]. exists t', s. split; [right; exact I' | exact P].
      + exists (Ret (Err e)). split.
        * apply (runs_to_bind _ _ (Err e)); [exact R|]. split; [discriminate|]. exists 0. reflexivity.
        * destruct S as [-> Am]. repeat split; auto. discriminate.
      + exists (Panic msg). split; [apply runs_to_bind_panic; exact R|].
        destruct S as (Na & s & P & Un). split; [exact Na|]. exists t, s. split; [left; reflexivity|]. auto.
  Qed.

  Lemma shift_keys (m : Map) t : In t (map fst (shuffle_iter (shift_items m))) <->
    exists s ts rest, In (s, ts) m /\ todo s = Term t :: rest.
  Proof.
    rewrite in_map_iff. split.
    - intros ([t' vs] & <- & I). simpl. apply shuffle_only in I. destruct I as ([s' ts] & I).
      apply shift_items_In in I. destruct I as (s & rest & I & Td & _). eauto.
    - intros (s & ts & rest & I & Td).
      assert (M : moved m t (Build_ProdState (ps_prod s) (Datatypes.S (ps_index s))) ts) by (exists s, rest; auto).
      apply shift_items_In in M. apply shuffle_has in M. destruct M as (vs & M). exists (t, vs). auto.
  Qed.

  Lemma shift_spec kl m : state_ok m ->
    exists r, runs_to (fun n => shift_actions lay g kl m n) r /\
      match r with
      | Ret (Err e) => e = FNullableError Ambiguity /\ null_ambiguous g /\
          exists s ts t rest, In (s, ts) m /\ todo s = Term t :: rest
      | Ret (Ok res) => msorted res /\ (forall t st, In (t, st) res -> shift_result m t st) /\
          (forall t, In t (bt_keys res) <-> exists s ts rest, In (s, ts) m /\ todo s = Term t :: rest)
      | Panic _ => ~ null_ambiguous g /\ exists t s, present g (moved m t) s /\ undefined g s
      | NoFuel => False
      end.
  Proof.
    intro O. destruct (shift_collect_spec kl m (shuffle_iter (shift_items m)) [] O (incl_refl _)) as (r & R & S).
    - apply sorted_nil.
    - intros t st [].
    - exists r. split; [exact R|]. destruct r as [[res|e]|msg|]; [| | |exact S].
      + destruct S as (A & B1 & C). split; [exact A|]. split; [exact B1|]. intro t. rewrite C. rewrite <- shift_keys.
        simpl. tauto.
      + destruct S as (A & B1 & C). split; [exact A|]. split; [exact B1|].
        destruct (shuffle_iter (shift_items m)) as [|[t vs] l] eqn:E; [congruence|].
        destruct (proj1 (shift_keys m t)) as (s & ts & rest & I & Td); [rewrite E; left; reflexivity|].
        exists s, ts, t, rest. auto.
      + destruct S as (A & t & s & _ & P). split; [exact A|]. exists t, s. exact P.
  Qed.

  Lemma lalr_state_ok kl m : lalr_state lay g kl m -> state_ok m.
  Proof.
    induction 1 as [items m F R|m acts t m' _ IH R I].
    - exact (from_prod_ok kl items m F R).
    - destruct (shift_spec kl m IH) as (r & R' & S). pose proof (runs_to_fun _ _ _ R R') as E. subst r.
      destruct S as (_ & S & _). apply (S t m' I).
  Qed.

  (** ** [reducable_actions] *)
  Lemma reduce_spec m : state_ok m -> exists l,
    reducable_actions m = map ps_action_key l /\ sorted l /\
    forall s, In s l <-> (exists ts, In (s, ts) m) /\ todo s = [].
  Proof.
    intros [Ms F]. exists (filter is_complete (bt_keys m)). split; [|split].
    - unfold reducable_actions. induction (bt_keys m) as [|s l IH]; [reflexivity|]. cbn [filter].
      unfold filter_map in *. cbn [flat_map]. rewrite IH. destruct (is_complete s); reflexivity.
    - unfold msorted in Ms. clear F. induction Ms as [|s l S IH Hd]; [apply sorted_nil|]. cbn [filter].
      destruct (is_complete s); [|exact IH]. constructor; [exact IH|]. rewrite Forall_forall in *.
      intros y Iy. apply Hd. apply filter_In in Iy. apply Iy.
    - intro s. rewrite filter_In. unfold bt_keys at 1. rewrite in_map_iff. split.
      + intros [([s' ts] & <- & I) C]. simpl. split; [eauto|]. simpl in C.
        unfold is_complete in C. apply Nat.eqb_eq in C. unfold todo. apply skipn_all2. rewrite <- C.
        unfold elements, elements_iter, num_elements. rewrite map_length. apply le_n.
      + intros [(ts & I) Td]. split; [exists (s, ts); auto|]. rewrite Forall_forall in F. destruct (F _ I) as (_ & P & _).
        apply position_inv in P. destruct P as [_ L]. simpl in L. unfold is_complete. apply Nat.eqb_eq.
        unfold num_elements. fold (prod_elements (ps_prod s)). unfold todo in Td.
        assert (X : length (skipn (ps_index s) (elements (ps_prod s))) = 0) by (rewrite Td; reflexivity).
        rewrite skipn_length in X. unfold elements, elements_iter in X. rewrite map_length in X. unfold prod_elements in *. lia.
  Qed.
End Actions.
