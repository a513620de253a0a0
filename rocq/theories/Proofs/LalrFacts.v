(** [from_prod_lookahead]. *)
From Coq Require Import String List Arith Lia Bool NArith Permutation Sorted.
From Verif.Model Require Import Ord BTree Outcome Utils Grammar Nullable Firsts State Lalr.
From Verif.Spec Require Import Reach Cfg BuildSpec NullSpec StateSpec LalrSpec.
From Verif.Proofs Require Import OrdFacts BTreeFacts LoopFacts UtilsFacts GrammarFacts NullableFacts CfgFacts
  FirstsFacts FollowsFacts FirstsMore StateFacts StateMore StateSets.
Import ListNotations.

(** ** [CollectMap::insert_iter] when keys are only compared up to a preorder *)
Section Pre.
  Context {K V : Type} `{TotalPre K} `{OrdEq V}.

  Lemma bt_insert_same_pre k (v : V) (m : btmap K V) : msorted m -> bt_get k m = Some v -> bt_insert k v m = m.
  Proof.
    induction m as [|[k' v'] m IH]; intros S G; [discriminate|]. simpl in G |- *.
    destruct (cmp k k') eqn:C.
    - injection G as ->. reflexivity.
    - exfalso. apply bt_get_Some_In in G. destruct G as (y & Iy & Ey).
      unfold msorted in S. simpl in S. apply sorted_inv in S. destruct S as [_ F]. rewrite Forall_forall in F.
      assert (L : cmp k' y = Lt) by (apply F; apply (in_map fst) in Iy; exact Iy).
      assert (cmp k y = Lt) by (exact (cmp_lt_trans _ _ _ C L)). congruence.
    - unfold msorted in S. simpl in S. apply sorted_inv in S. rewrite IH; [reflexivity | apply S | exact G].
  Qed.

End Pre.

Section Pre2.
  Context {K V : Type} `{TotalPre K} `{OrdEq V}.

  Lemma cm_wf_insert_pre (m : btmap K (btset V)) k s : cm_wf m -> sorted s -> cm_wf (bt_insert k s m).
  Proof.
    intros [A B] S. split; [apply bt_insert_sorted; exact A|].
    intros k' s'. rewrite bt_get_insert. destruct (eqb k' k); [|apply B].
    intro E. injection E as <-. exact S.
  Qed.

  Lemma cm_rel_compat (m : btmap K (btset V)) k k' v : cmp k k' = Eq -> (cm_rel m k v <-> cm_rel m k' v).
  Proof. intro C. unfold cm_rel. rewrite (bt_get_compat k k' m C). reflexivity. Qed.

  Lemma cm_insert_iter_pre (m : btmap K (btset V)) k vs c m' :
    cm_insert_iter m k vs = (c, m') -> cm_wf m ->
    cm_wf m' /\
    (forall k' v, cm_rel m' k' v <-> cm_rel m k' v \/ (cmp k' k = Eq /\ In v vs)) /\
    (forall x, In x (bt_keys m') -> In x (bt_keys m) \/ (x = k /\ bs_mem k (bt_keys m) = false /\ vs <> [])) /\
    incl (bt_keys m) (bt_keys m') /\
    (c = Unchanged -> m' = m) /\
    (c = Changed <-> exists v, In v vs /\ ~ cm_rel m k v).
  Proof.
    intros E W.
    assert (Keys : forall set, incl (bt_keys m) (bt_keys (bt_insert k set m)) /\
      (forall x, In x (bt_keys (bt_insert k set m)) -> In x (bt_keys m) \/ (x = k /\ bs_mem k (bt_keys m) = false))).
    { intro set. rewrite bt_keys_insert. split.
      - intros x I. apply bs_add_In_old. exact I.
      - intros x I. destruct (bs_mem k (bt_keys m)) eqn:M.
        + rewrite bs_add_mem_id in I; [auto | apply W | exact M].
        + apply bs_add_In_inv in I. destruct I; auto. }
    unfold cm_insert_iter in E. destruct (bt_get k m) as [set|] eqn:G.
    - destruct (set_insert_iter vs set Unchanged) as [c1 set1] eqn:I. injection E as <- <-.
      assert (S : sorted set) by exact (proj2 W k set G).
      destruct (set_insert_iter_spec _ _ _ _ _ I S) as (A & B & C).
      assert (Mk : bs_mem k (bt_keys m) = true).
      { rewrite <- bt_mem_keys. unfold bt_mem. rewrite G. reflexivity. }
      split; [apply cm_wf_insert_pre; assumption|]. split.
      { intros k' v. unfold cm_rel. rewrite bt_get_insert. unfold eqb. destruct (cmp k' k) eqn:C'.
        - rewrite (bt_get_compat k' k m C'), G. split.
          + intros (s & [= <-] & Iv). apply B in Iv. destruct Iv as [Iv|Iv]; [left; eauto | auto].
          + intros [(s & [= <-] & Iv)|[_ Iv]]; exists set1; (split; [reflexivity|]); apply B; auto.
        - split; [auto|]. intros [X|[X _]]; [exact X | discriminate].
        - split; [auto|]. intros [X|[X _]]; [exact X | discriminate]. }
      split. { intros x Ix. apply (Keys set1) in Ix. destruct Ix as [Ix|(_ & X)]; [auto | congruence]. }
      split; [apply Keys|]. split.
      + intro U. assert (set1 = set).
        { apply sorted_ext; [exact A | exact S|]. intro x. rewrite B. split; [|auto].
          intros [X|X]; [exact X|]. destruct (bs_mem x set) eqn:M; [apply bs_mem_In_iff; exact M|].
          exfalso. assert (c1 = Changed); [|congruence]. apply C. right. exists x. split; [exact X|].
          apply bs_mem_false_iff. exact M. }
        subst set1. apply bt_insert_same_pre; [apply W | exact G].
      + rewrite C. unfold cm_rel. rewrite G. split.
        * intros [X|(v & X & Y)]; [discriminate|]. exists v. split; [exact X|]. intros (s & [= <-] & Z). contradiction.
        * intros (v & X & Y). right. exists v. split; [exact X|]. intro Z. apply Y. exists set. auto.
    - assert (Mk : bs_mem k (bt_keys m) = false).
      { rewrite <- bt_mem_keys. unfold bt_mem. rewrite G. reflexivity. }
      destruct vs as [|v vs].
      + injection E as <- <-. split; [exact W|]. split; [intros; simpl; tauto|]. split; [auto|].
        split; [apply incl_refl|]. split; [reflexivity|]. split; [discriminate | intros (v & [] & _)].
      + injection E as <- <-. split.
        { apply cm_wf_insert_pre; [exact W|]. apply bs_extend_sorted. apply (bs_add_sorted v []). apply sorted_nil. }
        split.
        { intros k' w. unfold cm_rel. rewrite bt_get_insert. unfold eqb. destruct (cmp k' k) eqn:C'.
          - rewrite (bt_get_compat k' k m C'), G. split.
            + intros (s & [= <-] & Iv). apply bs_extend_In in Iv. right. split; [reflexivity|].
              simpl in *. intuition.
            + intros [(s & [=] & _)|[_ Iv]]. eexists. split; [reflexivity|]. apply bs_extend_In. simpl in *. intuition.
          - split; [auto|]. intros [X|[X _]]; [exact X | discriminate].
          - split; [auto|]. intros [X|[X _]]; [exact X | discriminate]. }
        split. { intros x Ix. apply Keys in Ix. destruct Ix as [Ix|(X & Y)]; [auto|]. right. repeat split; auto. discriminate. }
        split; [apply Keys|]. split; [discriminate|].
        split; [|reflexivity]. intros _. exists v. split; [left; reflexivity|]. intros (s & X & _). congruence.
  Qed.
End Pre2.

(** ** What is left to read in a state *)
Section Todo.
  Context {T NT AK AV : Type}.
  Local Notation PS := (ProdState T NT AK AV).

  Lemma offset_elem_todo (s : PS) i : offset_elem s i = nth_error (todo s) i.
  Proof.
    unfold offset_elem, offset_prod_elem, todo, elements, elements_iter.
    change (prod_elements (ps_prod s)) with (pi_elements (p_inner (ps_prod s))).
    generalize (pi_elements (p_inner (ps_prod s))). intro l. generalize (ps_index s). intro n. revert n.
    induction l as [|a l IH]; intros [|n]; simpl.
    - destruct i; reflexivity.
    - destruct i; reflexivity.
    - destruct i as [|i]; [reflexivity|]. simpl. symmetry. apply nth_error_map.
    - apply IH.
  Qed.
  Lemma next_elem_todo (s : PS) e : next_elem s = Some e <-> exists rest, todo s = e :: rest.
  Proof.
    unfold next_elem. rewrite offset_elem_todo. destruct (todo s) as [|x l]; simpl; split.
    - discriminate.
    - intros (r & [=]).
    - intros [= ->]. eauto.
    - intros (r & [= -> ->]). reflexivity.
  Qed.
End Todo.

Lemma In_skipn_in {A} n (l : list A) x : In x (skipn n l) -> In x l.
Proof. intro I. rewrite <- (firstn_skipn n l). apply in_or_app. right. exact I. Qed.

(** ** The closure loop *)
Section Loop.
  Context {T NT AK AV : Type} `{OrdEq T} `{OrdEq NT}.
  Variable lay : layout NT.
  Variable g : Grammar T NT AK AV.
  Hypothesis B : built g.
  Hypothesis Inj : lay_inj g lay.
  Local Notation PS := (ProdState T NT AK AV).
  Local Notation Map := (btmap PS (btset T)).
  #[local] Hint Extern 0 (Ord (ProdState _ _ _ _)) => exact (Ord_ProdState lay) : typeclass_instances.
  #[local] Existing Instance TotalPre_PS.

  Variable firsts : btmap NT (btset T).
  Hypothesis HF : forall A t, (exists s, firsts_get firsts A = Some s /\ In t s) <-> first_of (rhs_of g) A t.

  (** The collected items. *)
  Variable seed : Map.
  Hypothesis seed_wf : cm_wf seed.
  Hypothesis seed_g : forall s la, In (s, la) seed -> In (ps_prod s) (prods g).

  Local Notation item := (fun s la => In (s, la) seed).
  Local Notation carries := (carries g item).
  Local Notation present := (present g item).
  Local Notation looks := (looks g item).

  Lemma cmp_eq_prod (x y : PS) : In (ps_prod x) (prods g) -> In (ps_prod y) (prods g) ->
    (cmp x y = Eq <-> ps_prod x = ps_prod y).
  Proof. exact (cmp_prod lay g B Inj x y). Qed.
  Lemma cmp_prod_refl (x y : PS) : ps_prod x = ps_prod y -> cmp x y = Eq.
  Proof. intro E. unfold cmp, Ord_ProdState, prod_cmp. rewrite E. apply N.compare_refl. Qed.

  Definition Inv (m : Map) : Prop :=
    cm_wf m /\
    (forall s, In s (bt_keys m) -> present s /\ In (ps_prod s) (prods g)) /\
    (forall p t, In p (prods g) -> cm_rel m (from_start p) t -> carries p t) /\
    incl (bt_keys seed) (bt_keys m) /\
    (forall s t, cm_rel seed s t -> cm_rel m s t).

  Definition grows (m m' : Map) : Prop :=
    incl (bt_keys m) (bt_keys m') /\ forall s t, cm_rel m s t -> cm_rel m' s t.
  Lemma grows_refl m : grows m m.
  Proof. split; [apply incl_refl | auto]. Qed.
  Lemma grows_trans a b c : grows a b -> grows b c -> grows a c.
  Proof. intros [A1 A2] [B1 B2]. split; [exact (incl_tran A1 B1) | auto]. Qed.

  (** An expansion justified by the specification. *)
  Definition valid (e : NT * btset T) : Prop :=
    exists s rest, present s /\ todo s = NonTerm (fst e) :: rest /\ forall t, In t (snd e) -> looks s t.
  (** All consequences of an expansion are in [m]. *)
  Definition done_prod (m : Map) (la : list T) (p : Prod T NT AK AV) : Prop :=
    forall t, In t la -> cm_rel m (from_start p) t.
  Definition fresh (m m' : Map) : Prop :=
    exists p t, In p (prods g) /\ cm_rel m' (from_start p) t /\ ~ cm_rel m (from_start p) t.
  Lemma fresh_left a b c : fresh a b -> grows b c -> fresh a c.
  Proof. intros (p & t & I & R & N) [_ G]. exists p, t. auto. Qed.
  Lemma fresh_right a b c : grows a b -> fresh b c -> fresh a c.
  Proof. intros [_ G] (p & t & I & R & N). exists p, t. split; [exact I|]. split; [exact R|]. auto. Qed.

  Lemma insert_prod e p m c m' :
    valid e -> In p (prods g) -> p_head p = fst e -> Inv m -> cm_insert_iter m (from_start p) (snd e) = (c, m') ->
    Inv m' /\ grows m m' /\
    match c with Changed => fresh m m' | Unchanged => m' = m /\ done_prod m (snd e) p end.
  Proof.
    intros (s0 & rest & Ps0 & Td & Lk) Ip Hp (W & Kp & Ca & Ks & Kr) E.
    destruct (cm_insert_iter_pre m _ _ _ _ E W) as (W' & R' & K' & Kincl & U & Ch).
    assert (CaS : forall t, In t (snd e) -> carries p t).
    { intros t It. apply (carries_step g item s0 (fst e) rest p t); auto. }
    assert (Gr : grows m m').
    { split; [exact Kincl|]. intros s t X. apply R'. auto. }
    split; [|split; [exact Gr|]].
    - split; [exact W'|]. split; [|split; [|split]].
      + intros s Is. apply K' in Is. destruct Is as [Is|(-> & Mf & Ne)]; [exact (Kp s Is)|].
        split; [|exact Ip]. destruct (snd e) as [|t ts] eqn:Ee; [congruence|].
        apply (present_new g item p t); [apply CaS; left; reflexivity|].
        intros s1 la1 I1 E1. assert (M : bs_mem (from_start p) (bt_keys m) = true); [|congruence].
        apply bs_mem_iff. exists s1. split.
        * apply Ks. apply (in_map fst) in I1. exact I1.
        * apply cmp_prod_refl. simpl. congruence.
      + intros q t Iq X. apply R' in X. destruct X as [X|[X It]]; [exact (Ca q t Iq X)|].
        apply cmp_eq_prod in X; [|exact Iq|exact Ip]. simpl in X. subst q. exact (CaS t It).
      + exact (incl_tran Ks Kincl).
      + intros s t X. apply R'. auto.
    - destruct c.
      + destruct (proj1 Ch eq_refl) as (v & Iv & Nv). exists p, v. split; [exact Ip|]. split; [|exact Nv].
        apply R'. right. split; [apply cmp_refl | exact Iv].
      + split; [exact (U eq_refl)|]. intros t It.
        destruct (bt_get (from_start p) m) as [set|] eqn:G.
        * destruct (bs_mem t set) eqn:M.
          -- exists set. split; [exact G | apply bs_mem_In_iff; exact M].
          -- exfalso. assert (Unchanged = Changed); [|discriminate]. apply Ch. exists t. split; [exact It|].
             intros (s & X & Y). rewrite G in X. injection X as <-. apply bs_mem_false_iff in M. contradiction.
        * exfalso. assert (Unchanged = Changed); [|discriminate]. apply Ch. exists t. split; [exact It|].
          intros (s & X & Y). congruence.
  Qed.

  Lemma insert_prods e ps c m :
    valid e -> (forall p, In p ps -> In p (prods g) /\ p_head p = fst e) -> Inv m ->
    exists c' m', change_iter_from (fun s m => Ret (cm_insert_iter m s (snd e))) c (map from_start ps) m = Ret (c', m') /\
      Inv m' /\ grows m m' /\
      match c' with
      | Changed => c = Changed \/ fresh m m'
      | Unchanged => c = Unchanged /\ m' = m /\ forall p, In p ps -> done_prod m (snd e) p
      end.
  Proof.
    intro V. revert c m. induction ps as [|p ps IH]; intros c m Hp I.
    - exists c, m. split; [reflexivity|]. split; [exact I|]. split; [apply grows_refl|].
      destruct c; [auto|]. repeat split; auto. intros p [].
    - cbn [map change_iter_from obind]. destruct (cm_insert_iter m (from_start p) (snd e)) as [d m1] eqn:E.
      destruct (Hp p (or_introl eq_refl)) as [Ip Hh].
      destruct (insert_prod e p m d m1 V Ip Hh I E) as (I1 & G1 & D1).
      destruct (IH (wc_join c d) m1 (fun q Q => Hp q (or_intror Q)) I1) as (c' & m' & E' & I' & G' & D').
      exists c', m'. split; [exact E'|]. split; [exact I'|]. split; [exact (grows_trans _ _ _ G1 G')|].
      destruct c'.
      + destruct D' as [D'|D'].
        * apply wc_join_Changed in D'. destruct D' as [-> | ->]; [auto|]. right. exact (fresh_left _ _ _ D1 G').
        * right. exact (fresh_right _ _ _ G1 D').
      + destruct D' as (D1' & -> & D2'). apply wc_join_Unchanged in D1'. destruct D1' as [-> ->].
        destruct D1 as [-> D1]. repeat split; auto. intros q [<-|Iq]; auto.
  Qed.

  Lemma get_rule_prods A : gdefined g A -> exists r, get_rule g A = Ret r /\
    forall p, In p (rule_prods r) <-> In p (prods g) /\ p_head p = A.
  Proof.
    intro D. unfold get_rule, try_get_rule. apply bt_keys_In in D. destruct D as (r & G). rewrite G.
    exists r. split; [reflexivity|]. intro p.
    pose proof (built_rs_wf g B) as W. apply bt_get_In in G as IG.
    destruct W as [Ws Wh]. pose proof (Wh A r IG) as Hr. rewrite rule_prods_In, Hr.
    rewrite (prods_In g (conj Ws Wh)). unfold nth_prod. split.
    - intros [E N]. split; [|exact E]. exists r. rewrite E. auto.
    - intros [(r' & I' & N) E]. rewrite E in I'. apply bt_get_iff in I'; [|exact Ws].
      rewrite G in I'. injection I' as <-. auto.
  Qed.

  Lemma todo_mentions (s : PS) A rest : In (ps_prod s) (prods g) -> todo s = NonTerm A :: rest -> gdefined g A.
  Proof.
    intros I E. destruct (built_accepted g B) as [Wf _ Mn _ _].
    apply (Mn (p_head (ps_prod s)) A). apply (prods_In g Wf) in I. destruct I as (r & Ir & N).
    exists r, (p_inner (ps_prod s)). split; [exact Ir|]. split; [exact (nth_error_In _ _ N)|].
    apply (In_skipn_in (ps_index s)). unfold todo, elements in E. rewrite E. left. reflexivity.
  Qed.

  Lemma present_g s : present s -> In (ps_prod s) (prods g).
  Proof.
    intros [s1 la I|p t C _]; [exact (seed_g s1 la I)|]. simpl.
    destruct C as [s2 ts t2 I2 _|s2 A rest p t2 _ _ Ip _ _]; [exact (seed_g s2 ts I2) | exact Ip].
  Qed.

  Lemma expand_one_spec e m :
    valid e -> Inv m ->
    exists d m', expand_one lay g e m = Ret (d, m') /\ Inv m' /\ grows m m' /\
      match d with
      | Changed => fresh m m'
      | Unchanged => m' = m /\ forall p, In p (prods g) -> p_head p = fst e -> done_prod m (snd e) p
      end.
  Proof.
    intros V I. destruct e as [A la]. unfold expand_one.
    destruct V as (s & rest & Ps & Td & Lk).
    destruct (get_rule_prods A) as (r & -> & Hr).
    { exact (todo_mentions s A rest (present_g s Ps) Td). }
    cbn [obind]. unfold change_iter.
    destruct (insert_prods (A, la) (rule_prods r) Unchanged m) as (c' & m' & E & I' & G & D).
    - exists s, rest. auto.
    - intros p Ip. apply Hr. exact Ip.
    - exact I.
    - cbn [snd] in E. exists c', m'. split; [exact E|]. split; [exact I'|]. split; [exact G|]. destruct c'.
      + destruct D as [D|D]; [discriminate | exact D].
      + destruct D as (_ & -> & D). split; [reflexivity|]. intros p Ip Hp. apply D. apply Hr. auto.
  Qed.

  Lemma expand_all_spec exps c m :
    (forall e, In e exps -> valid e) -> Inv m ->
    exists c' m', change_iter_from (expand_one lay g) c exps m = Ret (c', m') /\ Inv m' /\ grows m m' /\
      match c' with
      | Changed => c = Changed \/ fresh m m'
      | Unchanged => c = Unchanged /\ m' = m /\
          forall e p, In e exps -> In p (prods g) -> p_head p = fst e -> done_prod m (snd e) p
      end.
  Proof.
    revert c m. induction exps as [|e exps IH]; intros c m V I.
    - exists c, m. split; [reflexivity|]. split; [exact I|]. split; [apply grows_refl|].
      destruct c; [auto|]. repeat split; auto. intros e p [].
    - destruct (expand_one_spec e m (V e (or_introl eq_refl)) I) as (d & m1 & E & I1 & G1 & D1).
      cbn [change_iter_from]. unfold CollectMap in *. rewrite E. cbn [obind].
      destruct (IH (wc_join c d) m1 (fun q Q => V q (or_intror Q)) I1) as (c' & m' & E' & I' & G' & D').
      exists c', m'. split; [exact E'|]. split; [exact I'|]. split; [exact (grows_trans _ _ _ G1 G')|].
      destruct c'.
      + destruct D' as [D'|D'].
        * apply wc_join_Changed in D'. destruct D' as [-> | ->]; [auto|]. right. exact (fresh_left _ _ _ D1 G').
        * right. exact (fresh_right _ _ _ G1 D').
      + destruct D' as (D1' & -> & D2'). apply wc_join_Unchanged in D1'. destruct D1' as [-> ->].
        destruct D1 as [-> D1]. repeat split; auto. intros q p [<-|Iq] Ip Hp; [apply D1; auto | apply (D2' q); auto].
  Qed.

  (** Where the [unwrap] fails. *)
  Definition stuck (s : PS) : Prop :=
    exists A C rest, todo s = NonTerm A :: NonTerm C :: rest /\ firsts_get firsts C = None.

  Lemma new_lookahead_spec s la A rest : todo s = NonTerm A :: rest ->
    match new_lookahead firsts s la with
    | Ret la' => ~ stuck s /\ forall t, In t la' <->
        (exists r', rest = Term t :: r') \/
        (exists C r', rest = NonTerm C :: r' /\ first_of (rhs_of g) C t) \/
        (rest = [] /\ In t la)
    | Panic _ => stuck s
    | NoFuel => False
    end.
  Proof.
    intro E. unfold new_lookahead. rewrite offset_elem_todo, E. cbn [nth_error].
    destruct rest as [|[t|C] rest]; cbn [nth_error].
    - split.
      + intros (A' & C & r & X & _). rewrite E in X. discriminate.
      + intro t. split; [auto|]. intros [(r & [=])|[(C & r & [=] & _)|[_ I]]]. exact I.
    - split.
      + intros (A' & C & r & X & _). rewrite E in X. discriminate.
      + intro u. split.
        * intros [<-|[]]. left. eauto.
        * intros [(r & [= -> _])|[(C & r & [=] & _)|[[=] _]]]. left. reflexivity.
    - destruct (firsts_get firsts C) as [fs|] eqn:G; cbn [expect].
      + split.
        * intros (A' & C' & r & X & Y). rewrite E in X. injection X as <- <- <-. congruence.
        * intro t. split.
          -- intro I. right. left. exists C, rest. split; [reflexivity|]. apply HF. eauto.
          -- intros [(r & [=])|[(C' & r & [= <- <-] & Fo)|[[=] _]]].
             apply HF in Fo. destruct Fo as (s' & G' & I). congruence.
      + exists A, C, rest. auto.
  Qed.

  Lemma new_expansions_spec (m l : Map) : Inv m -> incl l m ->
    match new_expansions firsts l with
    | Ret exps => (forall e, In e exps -> valid e) /\
        forall s la A rest, In (s, la) l -> todo s = NonTerm A :: rest ->
          exists la', In (A, la') exps /\ new_lookahead firsts s la = Ret la'
    | Panic _ => exists s, present s /\ stuck s
    | NoFuel => False
    end.
  Proof.
    intro I. induction l as [|[s la] l IH]; intro Sub; cbn [new_expansions].
    - split; [intros e [] | intros s la A rest []].
    - assert (Sub' : incl l m) by (intros x X; apply Sub; right; exact X).
      specialize (IH Sub'). pose proof (Sub (s, la) (or_introl eq_refl)) as Im.
      destruct I as (W & Kp & Ca & _).
      assert (Ps : present s /\ In (ps_prod s) (prods g)) by (apply Kp; apply (in_map fst) in Im; exact Im).
      destruct (next_elem s) as [[t|A]|] eqn:N.
      + destruct (new_expansions firsts l) as [exps|msg|]; [|exact IH|exact IH].
        destruct IH as [V C]. split; [exact V|]. intros s' la' A rest [[= <- <-]|I'] Td; [|exact (C s' la' A rest I' Td)].
        assert (next_elem s = Some (NonTerm A)) by (apply next_elem_todo; eauto). congruence.
      + apply next_elem_todo in N. destruct N as (rest & Td).
        pose proof (new_lookahead_spec s la A rest Td) as L.
        destruct (new_lookahead firsts s la) as [la'|msg|] eqn:NL; cbn [obind].
        * destruct L as [_ L].
          destruct (new_expansions firsts l) as [exps|msg|]; cbn [obind]; [|exact IH|exact IH].
          destruct IH as [V C]. split.
          -- intros e [<-|Ie]; [|exact (V e Ie)]. exists s, rest. cbn [fst snd].
             split; [apply Ps|]. split; [exact Td|]. intros t It. apply L in It.
             destruct It as [(r & ->)|[(C' & r & -> & Fo)|[-> It]]].
             ++ exact (looks_term g item s A t r Td).
             ++ exact (looks_nonterm g item s A C' r t Td Fo).
             ++ apply (looks_end g item s A t Td). apply Ca; [apply Ps|].
                exists la. split; [|exact It].
                apply (bt_In_get (from_start (ps_prod s)) s la m); [apply W | exact Im|].
                apply cmp_prod_refl. reflexivity.
          -- intros s' la1 A' rest' [[= <- <-]|I'] Td'.
             ++ rewrite Td in Td'. injection Td' as <- <-. exists la'. split; [left; reflexivity | exact NL].
             ++ destruct (C s' la1 A' rest' I' Td') as (la2 & I2 & E2). exists la2. split; [right; exact I2 | exact E2].
        * exists s. split; [apply Ps | exact L].
        * exact L.
      + destruct (new_expansions firsts l) as [exps|msg|]; [|exact IH|exact IH].
        destruct IH as [V C]. split; [exact V|]. intros s' la' A rest [[= <- <-]|I'] Td; [|exact (C s' la' A rest I' Td)].
        assert (next_elem s = Some (NonTerm A)) by (apply next_elem_todo; eauto). congruence.
  Qed.

  (** The result is closed. *)
  Definition closed (m : Map) : Prop :=
    forall s la A rest, In (s, la) m -> todo s = NonTerm A :: rest ->
    exists la', new_lookahead firsts s la = Ret la' /\
      forall p, In p (prods g) -> p_head p = A -> done_prod m la' p.

  Lemma expand_spec m : Inv m ->
    match expand lay g firsts m with
    | Ret (Changed, m') => Inv m' /\ grows m m' /\ fresh m m'
    | Ret (Unchanged, m') => m' = m /\ closed m
    | Panic _ => exists s, present s /\ stuck s
    | NoFuel => False
    end.
  Proof.
    intro I. unfold expand. pose proof (new_expansions_spec m m I (incl_refl m)) as NE.
    destruct (new_expansions firsts m) as [exps|msg|]; cbn [obind]; [|exact NE|exact NE].
    destruct NE as [V C]. unfold change_iter.
    destruct (expand_all_spec exps Unchanged m V I) as (c' & m' & E & I' & G & D).
    unfold CollectMap in *. rewrite E. destruct c'.
    - destruct D as [D|D]; [discriminate|]. auto.
    - destruct D as (_ & -> & D). split; [reflexivity|]. intros s la A rest Is Td.
      destruct (C s la A rest Is Td) as (la' & Ie & NL). exists la'. split; [exact NL|].
      intros p Ip Hp. exact (D (A, la') p Ie Ip Hp).
  Qed.

  (** ** Termination *)
  Definition look_univ : list T := flat_map snd seed ++ terms g.
  Lemma carries_univ :
    (forall p t, carries p t -> In t look_univ) /\ (forall s, present s -> True) /\
    (forall s t, looks s t -> In (ps_prod s) (prods g) -> In t look_univ).
  Proof.
    apply (closure_mut T NT AK AV g item (fun p t _ => In t look_univ) (fun s _ => True)
      (fun s t _ => In (ps_prod s) (prods g) -> In t look_univ)); auto.
    - intros s ts t I It. apply in_or_app. left. apply in_flat_map. exists (s, ts). auto.
    - intros s A rest p t Ps _ _ _ _ _ IH. apply IH. exact (present_g s Ps).
    - intros s A t rest Td Is. apply in_or_app. right. apply (term_in_terms g (ps_prod s)); [exact Is|].
      apply (In_skipn_in (ps_index s)). unfold todo, elements in Td. unfold elements. rewrite Td. simpl. auto.
    - intros s A C rest t Td Fo Is. apply in_or_app. right.
      apply first_of_iff in Fo. apply (firstR_univ g (built_rs_wf g B)) in Fo. apply in_prod_iff in Fo. apply Fo.
  Qed.

  Definition univ : list (Prod T NT AK AV * T) := list_prod (prods g) look_univ.
  Definition relb (m : Map) (pt : Prod T NT AK AV * T) : bool :=
    match bt_get (from_start (fst pt)) m with Some s => bs_mem (snd pt) s | None => false end.
  Lemma relb_iff m p t : relb m (p, t) = true <-> cm_rel m (from_start p) t.
  Proof.
    unfold relb, cm_rel. simpl. destruct (bt_get (from_start p) m) as [s|].
    - rewrite bs_mem_In_iff. split; [intro I; exists s; auto|]. intros (s' & E & I). injection E as <-. exact I.
    - split; [discriminate|]. intros (s' & E & _). discriminate.
  Qed.
  Definition mu (m : Map) : nat := length (filter (fun pt => negb (relb m pt)) univ).

  Lemma mu_decreases m m' : Inv m' -> grows m m' -> fresh m m' -> mu m' < mu m.
  Proof.
    intros (_ & _ & Ca & _) [_ G] (p & t & Ip & R & N). unfold mu.
    apply (filter_length_lt _ _ _ (p, t)).
    - intros [q u] _. rewrite !negb_true_iff. intro X. destruct (relb m (q, u)) eqn:Y; [|reflexivity].
      apply relb_iff in Y. apply G, relb_iff in Y. congruence.
    - apply in_prod; [exact Ip|]. apply (proj1 carries_univ p t). exact (Ca p t Ip R).
    - apply negb_false_iff. apply relb_iff. exact R.
    - apply negb_true_iff. apply not_true_iff_false. rewrite relb_iff. exact N.
  Qed.

  Lemma Inv_seed : Inv seed.
  Proof.
    split; [exact seed_wf|]. split; [|split; [|split; [apply incl_refl | auto]]].
    - intros s Is. apply in_map_iff in Is. destruct Is as ([s' la] & <- & I). simpl.
      split; [exact (present_item g item s' la I) | exact (seed_g s' la I)].
    - intros p t Ip (la & G & It). apply bt_get_Some_In in G. destruct G as (k & Ik & C).
      apply cmp_eq_prod in C; [|exact Ip | exact (seed_g k la Ik)]. simpl in C. subst p.
      exact (carries_item g item k la t Ik It).
  Qed.

  Lemma loop_spec : exists r, runs_to (fun n => change_loop (expand lay g firsts) n seed) r /\
    match r with
    | Ret m => Inv m /\ closed m
    | Panic _ => exists s, present s /\ stuck s
    | NoFuel => False
    end.
  Proof.
    destruct (change_loop_wf (expand lay g firsts) Inv (fun a b => mu a < mu b) (fun m => Inv m /\ closed m)
      (fun _ => exists s, present s /\ stuck s)) with (s := seed) as (r & R & P).
    - apply (well_founded_lt_compat _ mu). auto.
    - intros m I. pose proof (expand_spec m I) as E. unfold CollectMap in *.
      destruct (expand lay g firsts m) as [[[] m']|msg|]; [| |exact E|exact E].
      + destruct E as (I' & G & F). split; [exact I'|]. exact (mu_decreases m m' I' G F).
      + destruct E as [-> C]. auto.
    - exact Inv_seed.
    - exists r. split; [exact R | exact P].
  Qed.

  (** ** Completeness of a closed map *)
  Lemma closed_complete m : Inv m -> closed m ->
    (forall p t, carries p t -> cm_rel m (from_start p) t) /\
    (forall s, present s -> In s (bt_keys m)) /\
    (forall s t, looks s t -> forall la la', In (s, la) m -> new_lookahead firsts s la = Ret la' -> In t la').
  Proof.
    intros (W & Kp & Ca & Ks & Kr) Cl.
    apply (closure_mut T NT AK AV g item (fun p t _ => cm_rel m (from_start p) t)
      (fun s _ => In s (bt_keys m))
      (fun s t _ => forall la la', In (s, la) m -> new_lookahead firsts s la = Ret la' -> In t la')).
    - intros s ts t I It. apply (cm_rel_compat m s); [apply cmp_prod_refl; reflexivity|].
      apply Kr. exists ts. split; [|exact It]. apply (bt_In_get s s ts seed); [apply seed_wf | exact I | apply cmp_refl].
    - intros s A rest p t Ps IHp Td Ip Hp _ IHl. apply in_map_iff in IHp. destruct IHp as ([s' la] & E & I).
      simpl in E. subst s'. destruct (Cl s la A rest I Td) as (la' & NL & D).
      apply (D p Ip Hp). exact (IHl la la' I NL).
    - intros s ts I. apply Ks. apply (in_map fst) in I. exact I.
    - intros p t Cp IH Nw. destruct IH as (la & G & It). apply bt_get_Some_In in G. destruct G as (k & Ik & C).
      assert (Ikk : In k (bt_keys m)) by (apply (in_map fst) in Ik; exact Ik).
      destruct (Kp k Ikk) as [Pk Gk].
      assert (Ip : In p (prods g)) by exact (present_g (from_start p) (present_new g item p t Cp Nw)).
      apply cmp_eq_prod in C; [|exact Ip|exact Gk]. simpl in C.
      destruct Pk as [s1 la1 I1|q u _ _].
      + exfalso. exact (Nw s1 la1 I1 (eq_sym C)).
      + simpl in C. subst q. exact Ikk.
    - intros s A t rest Td la la' I NL. pose proof (new_lookahead_spec s la A _ Td) as L. rewrite NL in L.
      apply L. left. eauto.
    - intros s A C rest t Td Fo la la' I NL. pose proof (new_lookahead_spec s la A _ Td) as L. rewrite NL in L.
      apply L. right. left. eauto.
    - intros s A t Td Ct IH la la' I NL. pose proof (new_lookahead_spec s la A _ Td) as L. rewrite NL in L.
      apply L. right. right. split; [reflexivity|]. destruct IH as (la1 & G & It).
      assert (E : bt_get (from_start (ps_prod s)) m = Some la).
      { apply (bt_In_get _ s la m); [apply W | exact I | apply cmp_prod_refl; reflexivity]. }
      congruence.
  Qed.

  (** The final map: exactly the present states with exactly their lookaheads. *)
  Lemma closed_exact m : Inv m -> closed m ->
    msorted m /\ (forall s, In s (bt_keys m) <-> present s) /\
    (forall s la, In (s, la) m -> sorted la /\ forall t, In t la <-> carries (ps_prod s) t) /\
    (forall s, present s -> ~ stuck s).
  Proof.
    intros I Cl. destruct (closed_complete m I Cl) as (C1 & C2 & _). destruct I as (W & Kp & Ca & Ks & Kr).
    split; [apply W|]. split; [|split].
    - intro s. split; [intro Is; apply Kp; exact Is | apply C2].
    - intros s la Is.
      assert (G : bt_get s m = Some la) by (apply (bt_In_get s s la m); [apply W | exact Is | apply cmp_refl]).
      assert (Gk : In (ps_prod s) (prods g)) by (apply Kp; apply (in_map fst) in Is; exact Is).
      assert (Gs : bt_get (from_start (ps_prod s)) m = Some la).
      { rewrite <- G. apply bt_get_compat. apply cmp_prod_refl. reflexivity. }
      split; [exact (proj2 W s la G)|]. intro t. split.
      + intro It. apply Ca; [exact Gk|]. exists la. auto.
      + intro Ct. apply C1 in Ct. destruct Ct as (la' & G' & It). congruence.
    - intros s Ps St. apply C2 in Ps. apply in_map_iff in Ps. destruct Ps as ([s' la] & E & I). simpl in E. subst s'.
      pose proof St as (A & C & rest & Td & _). destruct (Cl s la A _ I Td) as (la' & NL & _).
      pose proof (new_lookahead_spec s la A _ Td) as L. rewrite NL in L. apply L. exact St.
  Qed.
End Loop.
