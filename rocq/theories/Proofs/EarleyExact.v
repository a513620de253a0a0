(** The forest the Earley parser builds, exactly: which node every entry has, and what each node holds, without
    reference to memory or to the tree parsed into. *)
From Coq Require Import String List Arith NArith Lia Bool Sorted.
From Verif.Model Require Import Ord BTree Outcome Utils Grammar StartGrammar Tokens Tree State Earley.
From Verif.Spec Require Import Reach Cfg BuildSpec NullSpec EarleySpec.
From Verif.Proofs Require Import BuildMore OrdFacts BTreeFacts LoopFacts GrammarFacts StartFacts NullableFacts TreeFacts TreeHist EarleyItems EarleyRun EarleyParse EarleyMain EarleyMem.
Import ListNotations.

(** ** The forest, declaratively *)
Section Decl.
  Context {T NT AK AV V : Type} `{OrdEq T} `{OrdEq NT} `{OrdEq AK} `{OrdEq V}.
  Variable g : Grammar T NT AK AV.
  Hypothesis Bg : accepted g.
  Local Notation SP := (Prod (StreamTerminal T) (StartNonTerminal NT) (StartActionKey AK) (StartActionValue AV)).
  Local Notation sg := (wrapg g).
  Variable w : list (Token T V).

  Definition it K (p : SP) d i : Prop := exists ls, item g w ulf ubr K p d i ls.
  Definition scans k (q : SP) d i tok : Prop :=
    it k q d i /\ nth_error (elements q) d = Some (Term (STerm (tk_kind tok))) /\ nth_error w k = Some tok.
  Definition seed K (q : SP) d i : Prop :=
    match K with
    | 0 => q = p0 g /\ d = 0 /\ i = 0
    | S k => exists d0 tok, d = S d0 /\ scans k q d0 i tok
    end.
  Definition at_ (R : SP -> nat -> nat -> Prop) K j (q : SP) d i : Prop := if Nat.eqb j K then R q d i else it j q d i.
  (** [p], begun at [j], is complete and advances [q]. *)
  Definition comp (R : SP -> nat -> nat -> Prop) K (q : SP) d i (p : SP) j : Prop :=
    R p (length (elements p)) j /\ at_ R K j q d i /\ nth_error (elements q) d = Some (NonTerm (p_head p)).
  (** What is in set [K] after [r] rounds. *)
  Fixpoint rit K r : SP -> nat -> nat -> Prop :=
    match r with
    | 0 => seed K
    | S r => fun q d i => rit K r q d i \/
        (d = 0 /\ i = K /\ In q (prods sg) /\ exists q' d' i', rit K r q' d' i' /\ nth_error (elements q') d' = Some (NonTerm (p_head q))) \/
        exists d0 p j, d = S d0 /\ comp (rit K r) K q d0 i p j
    end.
  (** The set from which [q]'s entry with [S d] symbols in set [K] was made first. *)
  Definition prior K (q : SP) d i j : Prop :=
    (seed K q (S d) i /\ K = S j) \/
    exists r p, ~ rit K r q (S d) i /\ comp (rit K r) K q d i p j /\
      forall p' j', comp (rit K r) K q d i p' j' -> p_ix p < p_ix p' \/ (p_ix p = p_ix p' /\ j <= j').
  Inductive chain : nat -> SP -> nat -> nat -> list nat -> Prop :=
  | chain_nil K q i : chain K q 0 i []
  | chain_snoc K q d i j ks : prior K q d i j -> chain j q d i ks -> chain K q (S d) i (ks ++ [K]).

  Lemma rit_it K : K <= length w -> forall r q d i, rit K r q d i -> it K q d i.
  Proof.
    intro LK. induction r as [|r IH]; intros q d i R.
    - destruct K as [|k]; simpl in R.
      + destruct R as (-> & -> & ->). exists []. constructor.
      + destruct R as (d0 & tok & -> & (ls & It) & N & E). eexists. apply it_scan with (1 := It) (2 := N) (3 := E).
    - destruct R as [R|[(-> & -> & Ip & q' & d' & i' & R & N)|(d0 & p & j & -> & R & A & N)]]; [exact (IH _ _ _ R)| |].
      + destruct (IH _ _ _ R) as (ls & It). eexists. apply it_predict with (1 := It) (2 := N) (3 := Ip).
      + destruct (IH _ _ _ R) as (ls & It). assert (A' : it j q d0 i) by (unfold at_ in A; destruct (Nat.eqb_spec j K) as [->|]; [exact (IH _ _ _ A)|exact A]).
        destruct A' as (ls' & It'). eexists. apply it_complete with (1 := It') (2 := N) (3 := It).
  Qed.
  Lemma rit_mono K r r' q d i : r <= r' -> rit K r q d i -> rit K r' q d i.
  Proof. intro L. induction L as [|r' _ IH]; [auto|]. intro R. left. exact (IH R). Qed.
  Lemma prior_fun K q d i j j' : prior K q d i j -> prior K q d i j' -> j = j'.
  Proof.
    assert (X : forall j r p, seed K q (S d) i -> ~ rit K r q (S d) i -> comp (rit K r) K q d i p j -> False).
    { intros j0 r p S N _. apply N. apply (rit_mono K 0); [lia|exact S]. }
    intros [[S1 E1]|(r & p & N & C & M)] [[S2 E2]|(r' & p' & N' & C' & M')].
    - lia.
    - destruct (X _ _ _ S1 N' C').
    - destruct (X _ _ _ S2 N C).
    - assert (r = r').
      { destruct (Nat.lt_trichotomy r r') as [L|[E|L]]; [|exact E|]; exfalso.
        - apply N'. apply (rit_mono K (S r)); [exact L|]. right. right. exists d, p, j. auto.
        - apply N. apply (rit_mono K (S r')); [exact L|]. right. right. exists d, p', j'. auto. }
      subst r'. specialize (M p' j' C'). specialize (M' p j C). lia.
  Qed.
  Lemma chain_inv K q d i ks : chain K q d i ks ->
    match d with
    | 0 => ks = []
    | S d => exists j ks', ks = ks' ++ [K] /\ prior K q d i j /\ chain j q d i ks'
    end.
  Proof. intros [K0 q0 i0|K0 q0 d0 i0 j ks' P C]; [reflexivity|]. exists j, ks'. auto. Qed.
  Lemma chain_fun d : forall K q i ks ks', chain K q d i ks -> chain K q d i ks' -> ks = ks'.
  Proof.
    induction d as [|d IH]; intros K q i ks ks' C C'; apply chain_inv in C; apply chain_inv in C'; [congruence|].
    destruct C as (j & k1 & -> & P & C). destruct C' as (j' & k1' & -> & P' & C'). rewrite (prior_fun _ _ _ _ _ _ P P') in C.
    rewrite (IH _ _ _ _ _ C C'). reflexivity.
  Qed.
  Lemma chain_length d : forall K q i ks, chain K q d i ks -> length ks = d.
  Proof.
    induction d as [|d IH]; intros K q i ks C; apply chain_inv in C; [subst; reflexivity|].
    destruct C as (j & k1 & -> & _ & C). rewrite app_length, (IH _ _ _ _ C). simpl. lia.
  Qed.

  (** What a node holds: the node of [q] with [S x] symbols in set [k]. *)
  Inductive acon := ALeaf (tok : Token T V) | ABr (K : nat) (p : SP) (j : nat).
  Definition completes K (q : SP) d i (p : SP) j : Prop :=
    it K p (length (elements p)) j /\ it j q d i /\ nth_error (elements q) d = Some (NonTerm (p_head p)).
  (** What the nodes hold when set [J] is closed; a completion in set [J] passes on what is there at that time. *)
  Inductive ac : nat -> nat -> SP -> nat -> nat -> acon -> Prop :=
  | ac_old J k q x i c : ac J k q x i c -> ac (S J) k q x i c
  | ac_leaf k q d i tok : scans k q d i tok -> ac (S k) (S k) q d i (ALeaf tok)
  | ac_br K q d i p j : completes K q d i p j -> ac K K q d i (ABr K p j)
  | ac_prop K q d i p j ks ks1 x k k1 c : completes K q d i p j ->
      chain K q (S d) i (ks1 ++ [K]) -> chain j q d i ks -> nth_error ks x = Some k -> nth_error ks1 x = Some k1 ->
      ac K k q x i c -> ac K k1 q x i c.

  (** Reading the trees. *)
  Inductive areads : nat -> SP -> nat -> nat -> ptree T AK V -> Prop :=
  | ard_leaf k q x i tok : ac (length w) k q x i (ALeaf tok) -> areads k q x i (PLeaf (tk_kind tok) (tk_value tok))
  | ard_br k q x i K p j ak ks cs : ac (length w) k q x i (ABr K p j) -> action_key p = ActionKey ak -> chain K p (length (elements p)) j ks ->
      areads_all p j 0 ks cs -> areads k q x i (PBranch ak cs)
  with areads_all : SP -> nat -> nat -> list nat -> list (ptree T AK V) -> Prop :=
  | arda_nil p j x : areads_all p j x [] []
  | arda_cons p j x k ks c cs : areads k p x j c -> areads_all p j (S x) ks cs -> areads_all p j x (k :: ks) (c :: cs).
  Scheme areads_mind := Minimality for areads Sort Prop with areads_all_mind := Minimality for areads_all Sort Prop.
  Combined Scheme areads_areads_all_ind from areads_mind, areads_all_mind.
End Decl.


(** ** One run *)
Section Exact.
  Context {T NT AK AV V : Type} `{OrdEq T} `{OrdEq NT} `{OrdEq AK} `{OrdEq V}.
  Variable g : Grammar T NT AK AV.
  Hypothesis Bg : accepted g.
  Local Notation SP := (Prod (StreamTerminal T) (StartNonTerminal NT) (StartActionKey AK) (StartActionValue AV)).
  Local Notation sg := (wrapg g).
  Local Notation tree := (Inner T AK V).
  Local Notation C := (ContentInner T AK V).
  Local Notation Key := (EarleyStateKey T NT AK AV).
  Local Notation ESet := (EarleyStateSet T NT AK AV).
  Local Notation EState := (EarleyState T NT AK AV).
  Variable w : list (Token T V).
  Local Notation itm := (item g w ulf ubr).
  Local Notation ulabs := (nat -> option unit).
  Local Notation LInv := (LInv g w ulf ubr).
  Local Notation it := (it g w).
  Local Notation rit := (rit g w).
  Local Notation chain := (chain g w).
  Local Notation ac := (ac g w).
  Local Notation comp := (comp g w).
  Implicit Types (t : tree) (n m : nat) (s : ESet) (st self e : EState) (sets : list ESet).

  Definition owns sets k (q : SP) x i n : Prop := exists s v, nth_error sets k = Some s /\ In (mkk q (S x) i, v ++ [n]) s.
  Fixpoint vals sets (q : SP) i x (ks v : list nat) : Prop :=
    match ks, v with
    | [], [] => True
    | k :: ks, n :: v => owns sets k q x i n /\ vals sets q i (S x) ks v
    | _, _ => False
    end.
  Definition cc sets (c : C) (c' : acon) : Prop :=
    match c, c' with
    | CLeaf k v, ALeaf tok => tok = Build_Token k v
    | CBranch ak v, ABr K p j => action_key p = ActionKey ak /\ exists s, nth_error sets K = Some s /\ In (mkk p (length (elements p)) j, v) s
    | _, _ => False
    end.
  Definition sle sets sets' : Prop := forall k s, nth_error sets k = Some s -> exists s', nth_error sets' k = Some s' /\ incl s s'.

  Lemma owns_mono sets sets' k q x i n : sle sets sets' -> owns sets k q x i n -> owns sets' k q x i n.
  Proof. intros L (s & v & E & I). destruct (L _ _ E) as (s' & E' & Inc). exists s', v. auto. Qed.
  Lemma vals_mono sets sets' q i : sle sets sets' -> forall ks v x, vals sets q i x ks v -> vals sets' q i x ks v.
  Proof. intro L. induction ks as [|k ks IH]; intros [|n v] x; simpl; auto. intros [O R]. split; [exact (owns_mono _ _ _ _ _ _ _ L O)|apply IH; exact R]. Qed.
  Lemma cc_mono sets sets' c c' : sle sets sets' -> cc sets c c' -> cc sets' c c'.
  Proof. intro L. destruct c as [k v|ak v], c' as [tok|K p j]; simpl; auto. intros (A & s & E & I). split; [exact A|]. destruct (L _ _ E) as (s' & E' & Inc). exists s'. auto. Qed.
  Lemma vals_snoc sets q i k n : forall ks v x, vals sets q i x (ks ++ [k]) (v ++ [n]) <-> vals sets q i x ks v /\ owns sets k q (x + length ks) i n.
  Proof.
    induction ks as [|k0 ks IH]; intros [|n0 v] x; simpl.
    - rewrite Nat.add_0_r. tauto.
    - split; [intros [_ X]; destruct v; destruct X|tauto].
    - split; [intros [_ X]; destruct ks; destruct X|tauto].
    - rewrite IH. replace (x + S (length ks)) with (S x + length ks) by lia. tauto.
  Qed.
  Lemma vals_length sets q i : forall ks v x, vals sets q i x ks v -> length ks = length v.
  Proof. induction ks as [|k ks IH]; intros [|n v] x; simpl; try tauto. intros [_ X]. f_equal. exact (IH _ _ X). Qed.
  Lemma vals_nth sets q i : forall ks v x y n, vals sets q i x ks v -> nth_error v y = Some n -> exists k, nth_error ks y = Some k /\ owns sets k q (x + y) i n.
  Proof.
    induction ks as [|k ks IH]; intros [|n0 v] x y n X E; simpl in X; try contradiction; try (destruct y; discriminate). destruct X as [O X].
    destruct y as [|y]; simpl in E.
    - injection E as <-. exists k. rewrite Nat.add_0_r. auto.
    - destruct (IH v (S x) y n) as (k1 & E1 & O1); [exact X|exact E|]. exists k1. split; [exact E1|]. replace (x + S y) with (S x + y) by lia. exact O1.
  Qed.

  Definition VInv sets : Prop := forall k s q d i v, nth_error sets k = Some s -> In (mkk q d i, v) s ->
    exists ks, chain k q d i ks /\ vals sets q i 0 ks v.
  Definition DInv sets : Prop := forall k q x i k' q' x' i' n, owns sets k q x i n -> owns sets k' q' x' i' n -> k = k' /\ q = q' /\ x = x' /\ i = i'.
  (** [P] describes the nodes made but not yet used. *)
  Definition pend (P : list (desc * EState)) self n : Prop := exists st, In (DC self st, adv st n) P.
  Definition stage sets : nat := pred (length sets).
  Lemma stage_snoc (prev : list ESet) s : stage (prev ++ [s]) = length prev.
  Proof. unfold stage. rewrite app_length, Nat.add_comm. reflexivity. Qed.
  Definition Q sets P n (c : C) : Prop :=
    (forall k q x i, owns sets k q x i n -> exists c', cc sets c c' /\ ac (stage sets) k q x i c') /\
    (forall self, pend P self n -> exists ak, action_key (sp self) = ActionKey ak /\ c = CBranch ak (es_value self)).
  Record GI sets P t : Prop := {
    gi_v : VInv sets;
    gi_d : DInv sets;
    gi_u : forall self m k q x i, pend P self m -> ~ owns sets k q x i m;
    gi_q : forall n c, has t n c -> Q sets P n c
  }.

  (** Merging. *)
  Lemma add_all_has t n m c t' : TInv t -> node_ok t n -> node_ok t m -> in_add_all n m t = Ret (c, t') ->
    TInv t' /\ length (in_nodes t') = length (in_nodes t) /\ forall x y, has t' x y <-> has t x y \/ (x = n /\ has t m y).
  Proof.
    intros I On Om R. destruct (add_all_spec t n m I On Om) as (c0 & t0 & R0 & Ea & En & I0 & _). rewrite R in R0. injection R0 as <- <-.
    split; [exact I0|]. split; [rewrite En; apply list_set_length|].
    assert (AC : forall b, acont t' b = acont t b) by (intro b; unfold acont; rewrite Ea; reflexivity).
    assert (NL : forall x, nalts t' x = if Nat.eqb n x then bs_extend (nalts t n) (nalts t m) else nalts t x).
    { intro x. pose proof (nalts_set t n (bs_extend (nalts t n) (nalts t m)) (in_alts t) x On) as E. rewrite <- E. unfold nalts. rewrite En. reflexivity. }
    intros x y. unfold has. split.
    - intros (b & Ib & Eb). rewrite NL in Ib. rewrite AC in Eb. destruct (Nat.eqb_spec n x) as [->|].
      + apply bs_extend_In in Ib. destruct Ib as [Ib|Ib]; [right|left]; eauto.
      + left. eauto.
    - intros [(b & Ib & Eb)|(-> & b & Ib & Eb)]; exists b; rewrite AC, NL; (split; [|exact Eb]).
      + destruct (Nat.eqb_spec n x) as [->|]; [|exact Ib]. apply bs_extend_In. right. exact Ib.
      + rewrite Nat.eqb_refl. apply bs_extend_In. left. exact Ib.
  Qed.
  Lemma merge_q (Q0 : nat -> C -> Prop) : forall v0 v c t c' t', TInv t -> Forall (node_ok t) v0 -> Forall (node_ok t) v ->
    (forall n y, has t n y -> Q0 n y) -> (forall x n0 n, nth_error v0 x = Some n0 -> nth_error v x = Some n -> forall y, Q0 n y -> Q0 n0 y) ->
    change_iter_from (fun '(existing_node, new_node) t => in_add_all existing_node new_node t) c (combine v0 v) t = Ret (c', t') ->
    forall n y, has t' n y -> Q0 n y.
  Proof.
    induction v0 as [|n0 v0 IH]; intros v c t c' t' I F0 F Q1 Q2 R.
    - simpl in R. injection R as _ <-. exact Q1.
    - destruct v as [|n1 v]; [simpl in R; injection R as _ <-; exact Q1|]. simpl in R.
      inversion F0 as [|a b O0 F0']; subst. inversion F as [|a b O1 F']; subst.
      destruct (in_add_all n0 n1 t) as [[c1 t1]|x|] eqn:R1; simpl in R; try discriminate.
      destruct (add_all_has _ _ _ _ _ I O0 O1 R1) as (I1 & L1 & H1').
      assert (Mono : forall l, Forall (node_ok t) l -> Forall (node_ok t1) l).
      { intro l. apply Forall_impl. intros z. unfold node_ok. rewrite L1. auto. }
      apply (IH v (wc_join c c1) t1 c' t' I1 (Mono _ F0') (Mono _ F')); [| |exact R].
      + intros n y Hy. apply H1' in Hy. destruct Hy as [Hy|[-> Hy]]; [exact (Q1 _ _ Hy)|]. apply (Q2 0 n0 n1 eq_refl eq_refl). exact (Q1 _ _ Hy).
      + intros x a b E1 E2. exact (Q2 (S x) a b E1 E2).
  Qed.

  (** *** The order of a round *)
  Lemma ss_app {A} (R : A -> A -> Prop) l1 l2 : StronglySorted R l1 -> StronglySorted R l2 -> (forall x y, In x l1 -> In y l2 -> R x y) -> StronglySorted R (l1 ++ l2).
  Proof.
    intros S1 S2 X. induction S1 as [|x l1 S1 IH F]; simpl; [exact S2|]. constructor.
    - apply IH. intros a b Ia Ib. apply X; [right; exact Ia|exact Ib].
    - apply Forall_app. split; [exact F|]. apply Forall_forall. intros y Iy. apply X; [left; reflexivity|exact Iy].
  Qed.
  Lemma nodup_tail {A} (l l' : list A) : NoDup (l ++ l') -> NoDup l'.
  Proof. induction l as [|x l IH]; simpl; [auto|]. intro N. inversion N; subst. auto. Qed.
  Lemma ss_all {A} (R : A -> A -> Prop) l : (forall x y, In x l -> In y l -> R x y) -> StronglySorted R l.
  Proof.
    induction l as [|x l IH]; intro X; constructor.
    - apply IH. intros a b Ia Ib. apply X; right; assumption.
    - apply Forall_forall. intros y Iy. apply X; [left; reflexivity|right; exact Iy].
  Qed.
  Lemma numd_fst (D : list desc) : forall n, map fst (numd n D) = D :> list (@desc T NT AK AV).
  Proof. induction D as [|[st|self st] D IH]; intro n; simpl; f_equal; apply IH. Qed.

  Variable lay : layout (StartNonTerminal NT).
  Hypothesis Inj : lay_inj sg lay.
  Hypothesis Up : lay_up sg lay.
  Hypothesis NC : forall K, K <= length w -> ~ collision g w ulf ubr K.
  Local Notation SInv := (SInv g lay w ulf ubr).
  Local Notation stok := (stok g w ulf ubr).
  Local Hint Extern 0 (Ord (EarleyStateKey _ _ _ _)) => exact (EarleyRun.OK lay) : typeclass_instances.
  Local Hint Extern 0 (@TotalPre (EarleyStateKey _ _ _ _) _) => exact (EarleyRun.TP lay) : typeclass_instances.

  Definition dle (d d' : @desc T NT AK AV) : Prop :=
    match d, d' with DC a _, DC b _ => cmp (es_key b) (es_key a) <> Lt | _, _ => True end.
  Lemma ddesc_self K prev cur st self st' : In (DC self st') (ddesc g K prev cur st) -> self = st.
  Proof.
    unfold ddesc. rewrite in_app_iff. intros [I|I].
    - apply in_map_iff in I. destruct I as (x & E & _). discriminate.
    - destruct (is_complete _); [|destruct I]. destruct (nth_error _ _) as [sj|]; [|destruct I].
      unfold dcomp in I. apply in_map_iff in I. destruct I as (x & E & _). injection E as <- _. reflexivity.
  Qed.
  Lemma dlist_sorted K prev cur : forall sts, StronglySorted (fun a b : EState => cmp (es_key a) (es_key b) = Lt) sts -> StronglySorted dle (dlist g K prev cur sts).
  Proof.
    intros sts S. induction S as [|st sts S IH F]; simpl; [constructor|]. apply ss_app; [|exact IH|].
    - apply ss_all. intros [a|a b] [a'|a' b'] I1 I2; simpl; auto. apply ddesc_self in I1. apply ddesc_self in I2. subst. rewrite cmp_refl. discriminate.
    - intros [a|a b] [a'|a' b'] I1 I2; simpl; auto. apply ddesc_self in I1. subst a. unfold dlist in I2. apply in_flat_map in I2.
      destruct I2 as (st' & Is & I2). apply ddesc_self in I2. subst a'. rewrite Forall_forall in F. specialize (F _ Is). cbv beta in F.
      rewrite cmp_sym, F. discriminate.
  Qed.
  Lemma states_sorted s : msorted s -> StronglySorted (fun a b : EState => cmp (es_key a) (es_key b) = Lt) (states s).
  Proof.
    unfold msorted, sorted, bt_keys, states. induction s as [|[k v] s IH]; simpl; intro S; [constructor|].
    apply StronglySorted_inv in S. destruct S as [S F]. constructor; [exact (IH S)|]. rewrite Forall_forall in *. intros e Ie.
    apply in_map_iff in Ie. destruct Ie as ([k' v'] & <- & I). simpl. apply F. apply (in_map fst) in I. exact I.
  Qed.
  Lemma dlist_DP K prev cur sts st : In (DP st) (dlist g K prev cur sts) <-> exists q d i v p, In (mkst q d i v) sts /\
    st = mkst p 0 K [] /\ In p (prods sg) /\ nth_error (elements q) d = Some (NonTerm (p_head p)).
  Proof.
    unfold dlist. rewrite in_flat_map. split.
    - intros (x & Ix & J). unfold ddesc in J. apply in_app_or in J. destruct J as [J|J].
      + apply in_map_iff in J. destruct J as (y & [= ->] & J). destruct (st_eta x) as (q & d & i & v & ->). apply predict_In in J.
        destruct J as (p & E & Ip & N). exists q, d, i, v, p. auto.
      + exfalso. destruct (is_complete _); [|destruct J]. destruct (nth_error _ _); [|destruct J]. unfold dcomp in J. apply in_map_iff in J.
        destruct J as (y & E & _). discriminate.
    - intros (q & d & i & v & p & I & -> & Ip & N). exists (mkst q d i v). split; [exact I|]. unfold ddesc. apply in_or_app. left.
      apply in_map. apply predict_In. exists p. auto.
  Qed.
  Lemma dlist_DC K prev cur sts self st : In (DC self st) (dlist g K prev cur sts) <-> exists p j v' sj q d i v,
    self = mkst p (length (elements p)) j v' /\ st = mkst q d i v /\ In self sts /\ nth_error (prev ++ [cur]) j = Some sj /\
    In (mkk q d i, v) sj /\ nth_error (elements q) d = Some (NonTerm (p_head p)).
  Proof.
    unfold dlist. rewrite in_flat_map. split.
    - intros (x & Ix & J). pose proof (ddesc_self _ _ _ _ _ _ J) as <-. unfold ddesc in J. apply in_app_or in J. destruct J as [J|J].
      { apply in_map_iff in J. destruct J as (y & E & _). discriminate. }
      destruct (st_eta self) as (p & d' & j & v' & ->). cbn [es_key ek_prod_state mkst mkk] in J. rewrite is_complete_mk in J.
      destruct (Nat.eqb_spec (length (elements p)) d') as [<-|]; [|destruct J]. change (so (mkst p (length (elements p)) j v')) with j in J.
      destruct (nth_error (prev ++ [cur]) j) as [sj|] eqn:E; [|destruct J]. unfold dcomp in J. apply in_map_iff in J. destruct J as (y & [= ->] & J).
      apply filter_In in J. destruct J as [J X]. apply states_In in J. apply expects_iff in X. destruct (st_eta st) as (q & d & i & v & ->).
      exists p, j, v', sj, q, d, i, v. split; [reflexivity|]. split; [reflexivity|]. split; [exact Ix|]. split; [exact E|]. split; [exact J|exact X].
    - intros (p & j & v' & sj & q & d & i & v & -> & -> & I & E & J & N). eexists. split; [exact I|]. unfold ddesc. apply in_or_app. right.
      cbn [es_key ek_prod_state mkst mkk]. rewrite is_complete_mk, Nat.eqb_refl. change (so (mkst p (length (elements p)) j v')) with j. rewrite E.
      unfold dcomp. apply in_map. apply filter_In. split; [apply states_In; exact J|]. apply expects_iff. exact N.
  Qed.

  (** *** Entries *)
  Lemma get_exact K s lab p d i v0 : K <= length w -> SInv K s lab -> it K p d i -> bt_get (mkk p d i) s = Some v0 -> In (mkk p d i, v0) s.
  Proof.
    intros LK S (ls & It) G. destruct (bt_get_Some_In _ _ _ G) as (k0 & I0 & E0). rewrite (key_eta k0) in I0, E0.
    destruct (SInv_entry _ _ _ _ _ _ _ _ _ _ _ _ S I0) as (ls0 & It0 & F0).
    pose proof (SInv_prod g Bg lay w ulf ubr _ _ _ _ _ _ _ S I0) as Iq.
    destruct (item_facts g Bg w ulf ubr _ _ _ _ _ It) as (_ & _ & _ & _ & Ip). apply (mkk_eq g lay Inj) in E0; [|exact Ip|exact Iq].
    destruct E0 as [Ep Ei]. rewrite <- Ep, <- Ei in *.
    destruct (Nat.eq_dec d (ps_index (ek_prod_state k0))) as [Ed|Nd]; [rewrite Ed; exact I0|]. exfalso. apply (NC K LK).
    exists p, d, (ps_index (ek_prod_state k0)), i, ls, ls0. auto.
  Qed.
  Lemma insert_In (k : Key) v s : bt_get k s = None -> forall k' v', In (k', v') (bt_insert k v s) <-> (k' = k /\ v' = v) \/ In (k', v') s.
  Proof.
    intro G. induction s as [|[k0 v0] s IH]; simpl in *.
    - intros k' v'. split; [intros [[= <- <-]|[]]; auto|intros [[-> ->]|[]]; auto].
    - intros k' v'. destruct (cmp k k0) eqn:E; simpl; [discriminate| |].
      + split; [intros [[= <- <-]|I]; auto|intros [[-> ->]|I]; auto].
      + rewrite (IH G). tauto.
  Qed.
  Lemma sle_snoc (prev : list ESet) s s' : incl s s' -> sle (prev ++ [s]) (prev ++ [s']).
  Proof.
    intros I k x E. rewrite nth_error_snoc in *. destruct (Nat.eqb k (length prev)); [injection E as <-; eauto|]. exists x. split; [exact E|apply incl_refl].
  Qed.

  Lemma vacant_notin (k : Key) v s : msorted s -> bt_get k s = None -> ~ In (k, v) s.
  Proof. intros S G I. pose proof (bt_In_get k k v s S I (cmp_refl _)). congruence. Qed.

  (** Adding an entry. *)
  Lemma gi_add (prev : list ESet) s P t q d i v m : (forall v0, ~ In (mkk q (S d) i, v0) s) ->
    forall s', (forall k x, In (k, x) s' <-> (k = mkk q (S d) i /\ x = v ++ [m]) \/ In (k, x) s) ->
    GI (prev ++ [s]) P t ->
    (exists ks, chain (length prev) q (S d) i (ks ++ [length prev]) /\ vals (prev ++ [s]) q i 0 ks v /\ length ks = d) ->
    (forall k q x i, ~ owns (prev ++ [s]) k q x i m) ->
    (forall c, has t m c -> exists c', cc (prev ++ [s]) c c' /\ ac (length prev) (length prev) q d i c') ->
    forall P', (forall self n, pend P' self n -> pend P self n /\ n <> m) ->
    GI (prev ++ [s']) P' t.
  Proof.
    intros Nk s' Is' G (ks & Ch & Vs & Lks) Fm Cm P' HP.
    assert (Le : sle (prev ++ [s]) (prev ++ [s'])).
    { apply sle_snoc. intros [k x] I. apply Is'. right. exact I. }
    assert (Own : forall k q0 x i0 n, owns (prev ++ [s']) k q0 x i0 n -> owns (prev ++ [s]) k q0 x i0 n \/ (k = length prev /\ q0 = q /\ x = d /\ i0 = i /\ n = m)).
    { intros k q0 x i0 n (s1 & v1 & E & I). rewrite nth_error_snoc in E. destruct (Nat.eqb_spec k (length prev)) as [Ek|Nk'].
      - injection E as <-. apply Is' in I. destruct I as [[E1 E2]|I].
        + injection E1 as -> -> ->. apply app_inj_tail in E2. destruct E2 as [_ ->]. right. auto.
        + left. exists s, v1. split; [|exact I]. rewrite nth_error_snoc, Ek, Nat.eqb_refl. reflexivity.
      - left. exists s1, v1. split; [|exact I]. rewrite nth_error_snoc. destruct (Nat.eqb_spec k (length prev)); [congruence|exact E]. }
    assert (Onew : owns (prev ++ [s']) (length prev) q d i m).
    { exists s', v. split; [rewrite nth_error_snoc, Nat.eqb_refl; reflexivity|]. apply Is'. auto. }
    constructor.
    - intros k s1 q0 d0 i0 v0 E I. rewrite nth_error_snoc in E. destruct (Nat.eqb_spec k (length prev)) as [Ek|Nk'].
      + injection E as <-. apply Is' in I. destruct I as [[E1 ->]|I].
        * injection E1 as -> -> ->. subst k. exists (ks ++ [length prev]). split; [exact Ch|]. apply vals_snoc. split; [exact (vals_mono _ _ _ _ Le _ _ _ Vs)|].
          rewrite Lks. exact Onew.
        * destruct (gi_v _ _ _ G k s q0 d0 i0 v0) as (ks0 & C0 & V0); [rewrite nth_error_snoc, Ek, Nat.eqb_refl; reflexivity|exact I|].
          exists ks0. split; [exact C0|exact (vals_mono _ _ _ _ Le _ _ _ V0)].
      + destruct (gi_v _ _ _ G k s1 q0 d0 i0 v0) as (ks0 & C0 & V0); [rewrite nth_error_snoc; destruct (Nat.eqb_spec k (length prev)); [congruence|exact E]|exact I|].
        exists ks0. split; [exact C0|exact (vals_mono _ _ _ _ Le _ _ _ V0)].
    - intros k q1 x i1 k' q1' x' i1' n O1 O2. apply Own in O1. apply Own in O2.
      destruct O1 as [O1|(-> & -> & -> & -> & ->)], O2 as [O2|(-> & -> & -> & -> & E)]; auto.
      + exact (gi_d _ _ _ G _ _ _ _ _ _ _ _ _ O1 O2).
      + subst n. destruct (Fm _ _ _ _ O1).
      + destruct (Fm _ _ _ _ O2).
    - intros self n k q1 x i1 Pn O. destruct (HP _ _ Pn) as [Pn' Nn]. apply Own in O. destruct O as [O|(_ & _ & _ & _ & E)]; [|congruence].
      exact (gi_u _ _ _ G _ _ _ _ _ _ Pn' O).
    - intros n c Hc. destruct (gi_q _ _ _ G n c Hc) as [Q1 Q2]. split.
      + intros k q1 x i1 O. apply Own in O. destruct O as [O|(-> & -> & -> & -> & ->)].
        * destruct (Q1 _ _ _ _ O) as (c' & Cc & A). exists c'. split; [exact (cc_mono _ _ _ _ Le Cc)|rewrite stage_snoc in *; exact A].
        * destruct (Cm c Hc) as (c' & Cc & A). exists c'. split; [exact (cc_mono _ _ _ _ Le Cc)|rewrite stage_snoc in *; exact A].
      + intros self Pn. apply Q2. exact (proj1 (HP _ _ Pn)).
  Qed.
  Lemma gi_add0 (prev : list ESet) s P t p i :
    forall s', (forall k x, In (k, x) s' <-> (k = mkk p 0 i /\ x = []) \/ In (k, x) s) -> GI (prev ++ [s]) P t -> GI (prev ++ [s']) P t.
  Proof.
    intros s' Is' G.
    assert (Le : sle (prev ++ [s]) (prev ++ [s'])).
    { apply sle_snoc. intros [k x] I. apply Is'. right. exact I. }
    assert (Own : forall k q0 x i0 n, owns (prev ++ [s']) k q0 x i0 n -> owns (prev ++ [s]) k q0 x i0 n).
    { intros k q0 x i0 n (s1 & v1 & E & I). rewrite nth_error_snoc in E. destruct (Nat.eqb_spec k (length prev)) as [Ek|Nk'].
      - injection E as <-. apply Is' in I. destruct I as [[E1 E2]|I]; [discriminate|].
        exists s, v1. split; [|exact I]. rewrite nth_error_snoc, Ek, Nat.eqb_refl. reflexivity.
      - exists s1, v1. split; [|exact I]. rewrite nth_error_snoc. destruct (Nat.eqb_spec k (length prev)); [congruence|exact E]. }
    constructor.
    - intros k s1 q0 d0 i0 v0 E I. rewrite nth_error_snoc in E. destruct (Nat.eqb_spec k (length prev)) as [Ek|Nk'].
      + injection E as <-. apply Is' in I. destruct I as [[E1 ->]|I].
        * injection E1 as -> -> ->. exists []. split; [constructor|exact Logic.I].
        * destruct (gi_v _ _ _ G k s q0 d0 i0 v0) as (ks0 & C0 & V0); [rewrite nth_error_snoc, Ek, Nat.eqb_refl; reflexivity|exact I|].
          exists ks0. split; [exact C0|exact (vals_mono _ _ _ _ Le _ _ _ V0)].
      + destruct (gi_v _ _ _ G k s1 q0 d0 i0 v0) as (ks0 & C0 & V0); [rewrite nth_error_snoc; destruct (Nat.eqb_spec k (length prev)); [congruence|exact E]|exact I|].
        exists ks0. split; [exact C0|exact (vals_mono _ _ _ _ Le _ _ _ V0)].
    - intros k q1 x i1 k' q1' x' i1' n O1 O2. exact (gi_d _ _ _ G _ _ _ _ _ _ _ _ _ (Own _ _ _ _ _ O1) (Own _ _ _ _ _ O2)).
    - intros self n k q1 x i1 Pn O. exact (gi_u _ _ _ G _ _ _ _ _ _ Pn (Own _ _ _ _ _ O)).
    - intros n c Hc. destruct (gi_q _ _ _ G n c Hc) as [Q1 Q2]. split; [|exact Q2].
      intros k q1 x i1 O. destruct (Q1 _ _ _ _ (Own _ _ _ _ _ O)) as (c' & Cc & A). exists c'. split; [exact (cc_mono _ _ _ _ Le Cc)|rewrite stage_snoc in *; exact A].
  Qed.
  Lemma gi_sub sets P P' t : (forall self n, pend P' self n -> pend P self n) -> GI sets P t -> GI sets P' t.
  Proof.
    intros Sub G. constructor; [exact (gi_v _ _ _ G)|exact (gi_d _ _ _ G)|intros self m k q x i Pn; exact (gi_u _ _ _ G _ _ _ _ _ _ (Sub _ _ Pn))|].
    intros n c Hc. destruct (gi_q _ _ _ G n c Hc) as [Q1 Q2]. split; [exact Q1|]. intros self Pn. exact (Q2 _ (Sub _ _ Pn)).
  Qed.

  Section Round.
    Variables (K : nat) (prev : list ESet) (s0 : ESet) (r n0 : nat).
    Hypothesis LK : length prev = K.
    Hypothesis Lw : K <= length w.
    Hypothesis Kall : forall j sj, nth_error prev j = Some sj -> forall q d i, (exists v, In (mkk q d i, v) sj) <-> it j q d i.
    Hypothesis Kcur : forall q d i, (exists v, In (mkk q d i, v) s0) <-> rit K r q d i.
    Hypothesis S0 : msorted s0.
    Local Notation D := (dlist g K prev s0 (states s0)).

    Lemma cur_nth s : nth_error (prev ++ [s]) K = Some s.
    Proof. rewrite nth_error_snoc, LK, Nat.eqb_refl. reflexivity. Qed.
    Lemma at_nth s j q d i v sj : incl s0 s -> nth_error (prev ++ [s0]) j = Some sj -> In (mkk q d i, v) sj ->
      exists sj', nth_error (prev ++ [s]) j = Some sj' /\ In (mkk q d i, v) sj'.
    Proof. intros Inc E I. destruct (sle_snoc prev s0 s Inc _ _ E) as (s' & E' & Inc'). exists s'. auto. Qed.
    Lemma comp_DC q d i p j : comp (rit K r) K q d i p j <->
      exists v' v, In (DC (mkst p (length (elements p)) j v') (mkst q d i v)) D.
    Proof.
      split.
      - intros (R & A & N). pose proof R as Lj. apply (rit_it g w K Lw) in Lj. destruct Lj as (ls & Lj). apply (item_facts g Bg w) in Lj.
        destruct Lj as (Lj & _). apply Kcur in R. destruct R as (v' & Iv').
        assert (X : exists sj v, nth_error (prev ++ [s0]) j = Some sj /\ In (mkk q d i, v) sj).
        { unfold at_ in A. rewrite nth_error_snoc, LK. destruct (Nat.eqb_spec j K) as [->|Nj].
          - apply Kcur in A. destruct A as (v & Iv). exists s0, v. auto.
          - destruct (nth_error prev j) as [sj|] eqn:E; [|apply nth_error_None in E; lia]. apply (Kall _ _ E) in A. destruct A as (v & Iv).
            exists sj, v. auto. }
        destruct X as (sj & v & Ej & Iv). exists v', v. apply dlist_DC. exists p, j, v', sj, q, d, i, v.
        split; [reflexivity|]. split; [reflexivity|]. split; [apply states_In; exact Iv'|]. auto.
      - intros (v' & v & I). apply dlist_DC in I. destruct I as (p1 & j1 & v1 & sj & q1 & d1 & i1 & v2 & E1 & E2 & Is & Ej & Iv & N).
        injection E1 as <- _ <- <-. injection E2 as <- <- <- <-. apply states_In in Is.
        split; [apply Kcur; exists v'; exact Is|]. split; [|exact N]. unfold at_. rewrite nth_error_snoc, LK in Ej.
        destruct (Nat.eqb_spec j K) as [->|Nj]; [injection Ej as <-; apply Kcur; eauto|]. apply (Kall _ _ Ej). eauto.
    Qed.
    Lemma comp_completes q d i p j : comp (rit K r) K q d i p j -> completes g w K q d i p j.
    Proof.
      intros (R & A & N). split; [exact (rit_it g w K Lw _ _ _ _ R)|]. split; [|exact N]. unfold at_ in A.
      destruct (Nat.eqb_spec j K) as [->|]; [exact (rit_it g w K Lw _ _ _ _ A)|exact A].
    Qed.

    (** The entry of a key that is new comes from the first completion. *)
    Lemma prior_first pre post p j v' q d i v e s : numd n0 D = pre ++ (DC (mkst p (length (elements p)) j v') (mkst q d i v), e) :: post ->
      msorted s -> incl s0 s -> (forall de, In de pre -> exists x, In (dkey (fst de), x) s) -> bt_get (mkk q (S d) i) s = None ->
      prior g w K q d i j.
    Proof.
      intros En Ss Inc Pre G. right. exists r, p.
      assert (Ed : D = map fst pre ++ DC (mkst p (length (elements p)) j v') (mkst q d i v) :: map fst post).
      { rewrite <- (numd_fst D n0) at 1. rewrite En, map_app. reflexivity. }
      assert (Id : In (DC (mkst p (length (elements p)) j v') (mkst q d i v)) D) by (rewrite Ed; apply in_or_app; right; left; reflexivity).
      assert (Cm : comp (rit K r) K q d i p j) by (apply comp_DC; eauto).
      split; [|split; [exact Cm|]].
      - intro R. apply Kcur in R. destruct R as (x & Ix). exact (vacant_notin _ _ _ Ss G (Inc _ Ix)).
      - intros p' j' Cm'. pose proof Cm' as I'. apply comp_DC in I'. destruct I' as (x' & x & I').
        rewrite Ed in I'. apply in_app_or in I'. destruct I' as [I'|[I'|I']].
        + exfalso. apply in_map_iff in I'. destruct I' as (de & E & Ide). destruct (Pre _ Ide) as (y & Iy). rewrite E in Iy. cbn in Iy.
          exact (vacant_notin _ _ _ Ss G Iy).
        + injection I' as <- _ <- _ _. right. auto.
        + pose proof (dlist_sorted K prev s0 (states s0) (states_sorted s0 S0)) as So. rewrite Ed in So.
          assert (Le : dle (DC (mkst p (length (elements p)) j v') (mkst q d i v)) (DC (mkst p' (length (elements p')) j' x') (mkst q d i x))).
          { clear - So I'. induction (map fst pre) as [|y l IH]; simpl in So; apply StronglySorted_inv in So; destruct So as [So F]; [|exact (IH So)].
            rewrite Forall_forall in F. exact (F _ I'). }
          simpl in Le. rewrite key_cmp in Le. cbn [es_key mkst mkk ek_prod_state ps_prod ek_origin] in Le.
          destruct Cm as (R1 & _ & N1). destruct Cm' as (R2 & _ & N2). rewrite N1 in N2. injection N2 as Eh.
          assert (Ip : forall z y, rit K r z (length (elements z)) y -> nth_prod sg (p_head z) (p_ix z) (p_inner z)).
          { intros z y R. apply (rit_it g w K Lw) in R. destruct R as (ls & R). apply (item_facts g Bg w) in R. apply (prods_In sg (sg_wf g)). tauto. }
          pose proof (Ip _ _ R1) as P1. pose proof (Ip _ _ R2) as P2. rewrite <- Eh in P2, Le.
          destruct (Nat.lt_trichotomy (p_ix p) (p_ix p')) as [L|[E|L]]; [auto| |].
          * right. split; [exact E|]. destruct (Nat.le_gt_cases j j') as [X|X]; [exact X|]. exfalso. apply Le.
            unfold cmp, Ord_prod, cmp, Ord_N, Ord_nat. cbn [fst snd]. rewrite E, N.compare_refl. simpl. apply Nat.compare_lt_iff. exact X.
          * exfalso. apply Le. pose proof (Up _ _ _ _ _ P2 P1 L) as Lt'. unfold cmp, Ord_prod, cmp, Ord_N. cbn [fst snd].
            apply N.compare_lt_iff in Lt'. rewrite Lt'. reflexivity.
    Qed.

    Lemma insert_gi pre d e post s t lab c s' t' :
      numd n0 D = pre ++ (d, e) :: post -> LInv t lab -> SInv K s lab -> stok K lab e -> incl s0 s ->
      (forall de, In de pre -> exists x, In (dkey (fst de), x) s) ->
      GI (prev ++ [s]) ((d, e) :: post) t -> NoDup (flat_map fresh_of ((d, e) :: post)) ->
      insert lay e (s, t) = Ret (c, (s', t')) ->
      GI (prev ++ [s']) post t' /\ incl s s' /\ (forall k v, In (k, v) s' -> In (k, v) s \/ k = dkey d) /\ (exists v, In (dkey d, v) s').
    Proof.
      intros En L Sc Ok Inc Pre G Nd R.
      assert (Ide : In (d, e) (numd n0 D)) by (rewrite En; apply in_or_app; right; left; reflexivity).
      pose proof (numd_In _ _ _ _ Ide) as Id. pose proof (numd_key _ _ _ _ Ide) as Ek.
      assert (Sub : forall self n, pend post self n -> pend ((d, e) :: post) self n).
      { intros self n (st & I). exists st. right. exact I. }
      pose proof (proj1 Sc) as Ss.
      destruct d as [st|self st].
      - pose proof (numd_DP _ _ _ _ Ide) as ->. apply dlist_DP in Id. destruct Id as (q0 & d0 & i0 & v0 & p & _ & -> & _ & _).
        destruct Ok as (ls & It & Lv). cbn in It, Lv. cbn [dkey es_key mkst].
        unfold insert in R. cbn [es_key es_value mkst] in R. change (Ord_Key lay) with (EarleyRun.OK (AK := AK) (AV := AV) (T := T) lay) in R.
        destruct (bt_get (mkk p 0 K) s) as [v1|] eqn:Gt.
        + apply (get_exact K s lab) in Gt; [|exact Lw|exact Sc|exists ls; exact It].
          destruct (SInv_entry _ _ _ _ _ _ _ _ _ _ _ _ Sc Gt) as (ls1 & It1 & Lv1). pose proof (labs_length _ _ _ Lv1) as Le.
          destruct (item_facts g Bg w ulf ubr _ _ _ _ _ It1) as (_ & _ & _ & Ll & _). rewrite Ll in Le. destruct v1; [|discriminate]. cbn in R. injection R as <- <- <-.
          split; [exact (gi_sub _ _ _ _ Sub G)|]. split; [apply incl_refl|]. split; [auto|]. exists []. exact Gt.
        + injection R as <- <- <-. pose proof (insert_In _ [] _ Gt) as II.
          split; [exact (gi_sub _ _ _ _ Sub (gi_add0 prev s _ t p K _ II G))|]. split; [intros [k x] I; apply II; auto|].
          split; [intros k x I; apply II in I; destruct I as [[-> _]|I]; auto|]. exists []. apply II. auto.
      - destruct (numd_DC _ _ _ _ _ Ide) as (m & _ & ->).
        pose proof Id as Id'. apply dlist_DC in Id'. destruct Id' as (p & j & v' & sj & q & d & i & v & -> & -> & Is & Ej & Iv & N). apply states_In in Is.
        cbn [es_key es_value mkst] in Is.
        assert (Cm : comp (rit K r) K q d i p j) by (apply comp_DC; eauto). pose proof (comp_completes _ _ _ _ _ Cm) as Cs.
        cbn [dkey sp si so es_key ek_prod_state mkst mkk ps_prod ps_index ek_origin] in *.
        destruct (at_nth s j q d i v sj Inc Ej Iv) as (sj' & Ej' & Iv').
        destruct (gi_v _ _ _ G _ _ _ _ _ _ Ej' Iv') as (ks & Ch & Vs).
        assert (Pm : pend ((DC (mkst p (length (elements p)) j v') (mkst q d i v), adv (mkst q d i v) m) :: post) (mkst p (length (elements p)) j v') m).
        { exists (mkst q d i v). left. reflexivity. }
        assert (Qm : forall y, Q (prev ++ [s]) ((DC (mkst p (length (elements p)) j v') (mkst q d i v), adv (mkst q d i v) m) :: post) m y ->
                  exists c', cc (prev ++ [s]) y c' /\ ac K K q d i c').
        { intros y [_ Q2]. destruct (Q2 _ Pm) as (ak & Ak & ->). exists (ABr K p j). split; [|exact (ac_br g w K q d i p j Cs)].
          simpl. split; [exact Ak|]. exists s. split; [apply cur_nth|exact (Inc _ Is)]. }
        destruct Ok as (ls & It & Lv). cbn in It, Lv.
        unfold insert in R. change (es_key (adv (mkst q d i v) m)) with (mkk q (S d) i : Key) in R. change (es_value (adv (mkst q d i v) m)) with (v ++ [m]) in R.
        change (Ord_Key lay) with (EarleyRun.OK (AK := AK) (AV := AV) (T := T) lay) in R.
        destruct (bt_get (mkk q (S d) i) s) as [v0|] eqn:Gt.
        + apply (get_exact K s lab) in Gt; [|exact Lw|exact Sc|exists ls; exact It].
          destruct (Nat.eqb_spec (length v0) (length (v ++ [m]))) as [El|]; [|discriminate]. cbn [assert_ obind] in R.
          unfold merge_values, change_iter in R. destruct (change_iter_from _ _ _ _) as [[c1 t1]|x|] eqn:R1; cbn [obind] in R; try discriminate.
          injection R as <- <- <-.
          split; [|split; [apply incl_refl|split; [auto|exists v0; exact Gt]]].
          apply (gi_sub _ _ _ _ Sub). constructor; [exact (gi_v _ _ _ G)|exact (gi_d _ _ _ G)|exact (gi_u _ _ _ G)|].
          destruct (exists_last (l := v0)) as (v1 & m1 & ->); [intro Z; subst v0; rewrite app_length in El; simpl in El; lia|].
          destruct (gi_v _ _ _ G _ _ _ _ _ _ (cur_nth s) Gt) as (ks0 & Ch0 & Vs0). pose proof Ch0 as Ci. apply chain_inv in Ci.
          destruct Ci as (j0 & ks1 & -> & _ & Ch1). apply vals_snoc in Vs0. destruct Vs0 as [Vs1 Om1]. simpl in Om1.
          rewrite (chain_length _ _ _ _ _ _ _ Ch1) in Om1.
          rewrite !app_length in El. simpl in El. assert (El' : length v1 = length v) by lia.
          destruct (SInv_entry _ _ _ _ _ _ _ _ _ _ _ _ Sc Gt) as (ls1 & It1 & Lv1).
          apply (merge_q (Q (prev ++ [s]) ((DC (mkst p (length (elements p)) j v') (mkst q d i v), adv (mkst q d i v) m) :: post)) (v1 ++ [m1]) (v ++ [m]) Unchanged t c1 t1);
            [exact (li_t _ _ _ _ _ _ L)|exact (labs_ok _ _ _ _ _ _ _ _ L Lv1)|exact (labs_ok _ _ _ _ _ _ _ _ L Lv)|exact (gi_q _ _ _ G)| |exact R1].
          intros x n1 n E1 E2 y Qy. destruct (Nat.eq_dec x (length v1)) as [->|Nx].
          * rewrite nth_error_app2, Nat.sub_diag in E1 by lia. injection E1 as <-. rewrite El', nth_error_app2, Nat.sub_diag in E2 by lia. injection E2 as <-.
            split; [|intros self Pn; destruct (gi_u _ _ _ G _ _ _ _ _ _ Pn Om1)]. intros k1 q1 x1 i1 O1.
            destruct (gi_d _ _ _ G _ _ _ _ _ _ _ _ _ O1 Om1) as (-> & -> & -> & ->). rewrite stage_snoc, LK. exact (Qm y Qy).
          * assert (Lx : x < length v1) by (pose proof (nth_lt _ _ _ E1) as Z; rewrite app_length in Z; simpl in Z; lia).
            rewrite nth_error_app1 in E1, E2 by lia.
            destruct (vals_nth _ _ _ _ _ _ _ _ Vs1 E1) as (k1 & Ek1 & O1). destruct (vals_nth _ _ _ _ _ _ _ _ Vs E2) as (k & Ek2 & O2). simpl in O1, O2.
            split; [|intros self Pn; destruct (gi_u _ _ _ G _ _ _ _ _ _ Pn O1)]. intros k3 q3 x3 i3 O3.
            destruct (gi_d _ _ _ G _ _ _ _ _ _ _ _ _ O3 O1) as (-> & -> & -> & ->). destruct Qy as [Q1 _]. destruct (Q1 _ _ _ _ O2) as (c' & Cc & A).
            exists c'. split; [exact Cc|]. rewrite stage_snoc, LK in *. exact (ac_prop g w K q d i p j ks ks1 x k k1 c' Cs Ch0 Ch Ek2 Ek1 A).
        + injection R as <- <- <-. pose proof (insert_In _ (v ++ [m]) _ Gt) as II.
          split; [|split; [intros [k x] I; apply II; auto|split; [intros k x I; apply II in I; destruct I as [[-> _]|I]; auto|exists (v ++ [m]); apply II; auto]]].
          apply (gi_add prev s _ t q d i v m (fun x => vacant_notin _ x _ Ss Gt) _ II G).
          * exists ks. rewrite LK. split; [|split; [exact Vs|exact (chain_length _ _ _ _ _ _ _ Ch)]].
            apply chain_snoc with j; [|exact Ch]. exact (prior_first pre post p j v' q d i v _ s En Ss Inc Pre Gt).
          * intros k q1 x i1. exact (gi_u _ _ _ G _ _ _ _ _ _ Pm).
          * intros y Hy. rewrite LK. apply Qm. exact (gi_q _ _ _ G m y Hy).
          * intros self n Pn. split; [exact (Sub _ _ Pn)|]. intros ->. cbn [flat_map] in Nd. rewrite fresh_adv in Nd. simpl in Nd.
            inversion Nd as [|a b Na _]; subst. apply Na. destruct Pn as (st' & I). apply in_flat_map. eexists. split; [exact I|]. rewrite fresh_adv. left. reflexivity.
    Qed.

    Lemma inserts_gi lab : forall post pre c s t c' s' t',
      numd n0 D = pre ++ post -> LInv t lab -> SInv K s lab -> (forall de, In de post -> stok K lab (snd de)) -> incl s0 s ->
      (forall de, In de pre -> exists x, In (dkey (fst de), x) s) ->
      (forall k v, In (k, v) s -> In (k, v) s0 \/ exists d, In d D /\ k = dkey d) ->
      GI (prev ++ [s]) post t -> NoDup (flat_map fresh_of post) ->
      change_iter_from (insert lay) c (map snd post) (s, t) = Ret (c', (s', t')) ->
      GI (prev ++ [s']) [] t' /\ incl s0 s' /\ (forall k v, In (k, v) s' -> In (k, v) s0 \/ exists d, In d D /\ k = dkey d) /\
      (forall d, In d D -> exists x, In (dkey d, x) s').
    Proof.
      induction post as [|[d e] post IH]; intros pre c s t c' s' t' En L Sc Ok Inc Pre Src G Nd R.
      - simpl in R. injection R as <- <- <-. split; [exact G|]. split; [exact Inc|]. split; [exact Src|]. intros d Id. rewrite app_nil_r in En.
        destruct (numd_ex D d n0 Id) as (e & Ie). rewrite En in Ie. exact (Pre _ Ie).
      - cbn [map snd change_iter_from] in R. destruct (insert lay e (s, t)) as [[c1 [s1 t1]]|x|] eqn:R1; cbn [obind] in R; try discriminate.
        pose proof (Ok _ (or_introl eq_refl)) as Oe. cbn [snd] in Oe.
        destruct (insert_gi pre d e post s t lab c1 s1 t1 En L Sc Oe Inc Pre G Nd R1) as (G1 & I1 & Src1 & Cv1).
        destruct (st_eta e) as (p & d' & i & v & ->). destruct Oe as (ls & It & Lv). cbn in It, Lv.
        pose proof (insert_step g Bg lay Inj w ulf ubr (ulab_fun g Bg w) K s t lab p d' i v ls L Sc It Lv) as St. rewrite R1 in St.
        destruct St as (L1 & S1 & _).
        apply (IH (pre ++ [(d, mkst p d' i v)]) (wc_join c c1) s1 t1 c' s' t'); try assumption.
        + rewrite <- app_assoc. exact En.
        + intros de I. apply Ok. right. exact I.
        + intros x Ix. exact (I1 _ (Inc _ Ix)).
        + intros de I. apply in_app_or in I. destruct I as [I|[<-|[]]]; [|exact Cv1]. destruct (Pre _ I) as (x & Ix). exists x. exact (I1 _ Ix).
        + intros k x I. apply Src1 in I. destruct I as [I|Ek]; [exact (Src _ _ I)|subst k]. right. exists d. split; [|reflexivity].
          apply (numd_In D d (mkst p d' i v) n0). rewrite En. apply in_or_app. right. left. reflexivity.
        + cbn [flat_map] in Nd. exact (nodup_tail _ _ Nd).
    Qed.
  End Round.

  Definition Kall (sets : list ESet) : Prop :=
    forall j sj, nth_error sets j = Some sj -> forall q d i, (exists v, In (mkk q d i, v) sj) <-> it j q d i.
  Definition SAll (sets : list ESet) (lab : ulabs) : Prop := forall j s, nth_error sets j = Some s -> SInv j s lab.
  Lemma SAll_snoc (prev : list ESet) s lab : SAll prev lab -> SInv (length prev) s lab -> SAll (prev ++ [s]) lab.
  Proof. intros Sp Sc j x E. rewrite nth_error_snoc in E. destruct (Nat.eqb_spec j (length prev)) as [->|]; [injection E as <-; exact Sc|exact (Sp _ _ E)]. Qed.
  Lemma SAll_mono sets lab lab' : (forall n l, lab n = Some l -> lab' n = Some l) -> SAll sets lab -> SAll sets lab'.
  Proof. intros L S j s E. exact (SInv_mono _ _ _ _ _ _ _ _ _ L (S j s E)). Qed.
  Lemma owns_ok sets t lab k q x i n : LInv t lab -> SAll sets lab -> owns sets k q x i n -> node_ok t n.
  Proof.
    intros L S (s & v & E & I). destruct (SInv_entry _ _ _ _ _ _ _ _ _ _ _ _ (S _ _ E) I) as (ls & _ & Lv).
    pose proof (labs_ok _ _ _ _ _ _ _ _ L Lv) as F. rewrite Forall_forall in F. apply F. apply in_or_app. right. left. reflexivity.
  Qed.
  Lemma has_old t t1 n c : TInv t -> (forall b c0, acont t b = Some c0 -> acont t1 b = Some c0) -> nalts t1 n = nalts t n -> has t1 n c -> has t n c.
  Proof.
    intros I Keep E (b & Ib & Eb). rewrite E in Ib. destruct (ti_alts _ I _ _ Ib) as (c0 & E0). pose proof (Keep _ _ E0). exists b. split; [exact Ib|congruence].
  Qed.

  Lemma round_gi K prev r s t lab c s' t' : length prev = K -> K <= length w -> Kall prev ->
    (forall q d i, (exists v, In (mkk q d i, v) s) <-> rit K r q d i) ->
    LInv t lab -> SAll prev lab -> SInv K s lab -> GI (prev ++ [s]) [] t ->
    close_round lay sg prev (s, t) = Ret (c, (s', t')) ->
    GI (prev ++ [s']) [] t' /\ forall q d i, (exists v, In (mkk q d i, v) s') <-> rit K (S r) q d i.
  Proof.
    intros LK Lw Ka Kc L Sp Sc G R. unfold close_round in R.
    destruct (closure_step g Bg lay w ulf ubr K prev s LK (states s) t lab L Sp Sc (fun _ I => I)) as (cl & t1 & lab1 & R1 & M & O & _ & _).
    rewrite R1 in R. cbn [obind] in R.
    destruct (closure_num g Bg w lay K prev s LK (states s) t lab cl t1 L Sp Sc (fun _ I => I) R1) as [M1 ->].
    unfold change_iter in R. pose proof (ex_lab _ _ _ _ (md_ext _ _ _ _ _ _ _ _ _ M)) as Lx.
    assert (Sn : SAll (prev ++ [s]) lab) by (apply SAll_snoc; [exact Sp|rewrite LK; exact Sc]).
    assert (Pn : forall self n, pend (numd (length (in_nodes t)) (dlist g K prev s (states s))) self n -> length (in_nodes t) <= n).
    { intros self n (st & I). destruct (numd_DC _ _ _ _ _ I) as (m & Lm & E). apply (f_equal es_value) in E. cbn in E. apply app_inj_tail in E. destruct E as [_ <-]. exact Lm. }
    destruct (inserts_gi K prev s r (length (in_nodes t)) LK Lw Ka Kc (proj1 Sc) lab1 (numd (length (in_nodes t)) (dlist g K prev s (states s))) [] Unchanged s t1 c s' t') as (G' & Inc & Src & Cov).
    - reflexivity.
    - exact (md_inv _ _ _ _ _ _ _ _ _ M).
    - exact (SInv_mono _ _ _ _ _ _ _ _ _ Lx Sc).
    - intros de I. apply O. apply in_map. exact I.
    - apply incl_refl.
    - intros de [].
    - auto.
    - constructor; [exact (gi_v _ _ _ G)|exact (gi_d _ _ _ G)| |].
      + intros self m k q x i P Ow. apply (owns_ok _ _ _ _ _ _ _ _ L Sn) in Ow. apply Pn in P. unfold node_ok in Ow. lia.
      + intros n y Hy. split.
        * intros k q x i Ow. pose proof (owns_ok _ _ _ _ _ _ _ _ L Sn Ow) as On.
          apply (gi_q _ _ _ G n y); [|exact Ow]. exact (has_old t t1 n y (li_t _ _ _ _ _ _ L) (m1_keep _ _ _ M1) (m1_old _ _ _ M1 n On) Hy).
        * intros self (st & I). destruct (m1_new _ _ _ M1 _ _ _ I) as (m & a & ak & E & _ & Na & Aa & Ak). apply (f_equal es_value) in E. cbn in E.
          apply app_inj_tail in E. destruct E as [_ <-]. exists ak. split; [exact Ak|]. destruct Hy as (b & Ib & Eb). rewrite Na in Ib. destruct Ib as [<-|[]]. congruence.
    - apply numd_nodup.
    - exact R.
    - split; [exact G'|]. intros q d i. split.
      + intros (v & Iv). destruct (Src _ _ Iv) as [I|(de & Id & E)]; [left; apply Kc; eauto|]. right. destruct de as [st|self st].
        * left. apply dlist_DP in Id. destruct Id as (q' & d' & i' & v' & p & I & -> & Ip & N). cbn in E. injection E as -> -> ->.
          apply states_In in I. split; [reflexivity|]. split; [reflexivity|]. split; [exact Ip|]. exists q', d', i'. split; [apply Kc; exists v'; exact I|exact N].
        * right. pose proof Id as Id'. apply dlist_DC in Id'. destruct Id' as (p & j & v' & sj & q1 & d1 & i1 & v1 & -> & -> & _ & _ & _ & _).
          cbn in E. injection E as -> -> ->. exists d1, p, j. split; [reflexivity|]. apply (comp_DC K prev s r LK Lw Ka Kc). eauto.
      + intros [R0|[(-> & -> & Ip & q' & d' & i' & R0 & N)|(d0 & p & j & -> & Cm)]].
        * apply Kc in R0. destruct R0 as (v & Iv). exists v. exact (Inc _ Iv).
        * apply Kc in R0. destruct R0 as (v & Iv). destruct (Cov (DP (mkst q 0 K []))) as (x & Ix); [|exists x; exact Ix].
          apply dlist_DP. exists q', d', i', v, q. split; [apply states_In; exact Iv|]. auto.
        * apply (comp_DC K prev s r LK Lw Ka Kc) in Cm. destruct Cm as (v' & v & Id). destruct (Cov _ Id) as (x & Ix). exists x. exact Ix.
  Qed.

  (** *** Closing *)
  Lemma close_gi K prev : length prev = K -> K <= length w -> Kall prev -> forall fuel r s t lab s' t',
    (forall q d i, (exists v, In (mkk q d i, v) s) <-> rit K r q d i) ->
    LInv t lab -> SAll prev lab -> SInv K s lab -> GI (prev ++ [s]) [] t ->
    change_loop (close_round lay sg prev) fuel (s, t) = Ret (s', t') ->
    exists lab', LInv t' lab' /\ ext t lab t' lab' /\ incl s s' /\ SInv K s' lab' /\ GI (prev ++ [s']) [] t' /\ Closed g K prev s' t'.
  Proof.
    intros LK Lw Ka. induction fuel as [|fuel IH]; intros r s t lab s' t' Kc L Sp Sc G R; [discriminate|]. cbn [change_loop] in R.
    pose proof (round_step g Bg lay Inj w ulf ubr (ulab_fun g Bg w) K prev s t lab LK L Sp Sc) as St.
    destruct (close_round lay sg prev (s, t)) as [[c [s1 t1]]|m|] eqn:R1; cbn [obind] in R; try discriminate.
    destruct St as (lab1 & L1 & S1 & X1 & I1 & Ch).
    destruct (round_gi K prev r s t lab c s1 t1 LK Lw Ka Kc L Sp Sc G R1) as [G1 Kc1].
    destruct c.
    - destruct (IH (S r) s1 t1 lab1 s' t' Kc1 L1 (SAll_mono _ _ _ (ex_lab _ _ _ _ X1) Sp) S1 G1 R) as (lab' & L' & X' & I' & S' & G' & Cl).
      exists lab'. split; [exact L'|]. split; [exact (ext_trans _ _ _ _ _ _ X1 X')|]. split; [intros x Ix; apply I', I1; exact Ix|]. repeat (split; [assumption|]). exact Cl.
    - injection R as <- <-. exists lab1. repeat (split; [assumption|]). exact Ch.
  Qed.
  Lemma close_x K prev fuel s t lab s' t' : length prev = K -> K <= length w -> Kall prev ->
    (forall q d i, (exists v, In (mkk q d i, v) s) <-> seed g w K q d i) ->
    LInv t lab -> SAll prev lab -> SInv K s lab -> GI (prev ++ [s]) [] t ->
    close_state lay sg prev (s, t) fuel = Ret (s', t') ->
    exists lab', LInv t' lab' /\ ext t lab t' lab' /\ incl s s' /\ SInv K s' lab' /\ GI (prev ++ [s']) [] t' /\ Closed g K prev s' t' /\ Kall (prev ++ [s']).
  Proof.
    intros LK Lw Ka Kc L Sp Sc G R. unfold close_state in R. destruct (assert_ _ _) as [u|m|]; cbn [obind] in R; try discriminate.
    destruct (close_gi K prev LK Lw Ka fuel 0 s t lab s' t' Kc L Sp Sc G R) as (lab' & L' & X' & I' & S' & G' & Cl).
    exists lab'. repeat (split; [assumption|]). 
    assert (Cm : Claim g w ulf ubr urd (prev ++ [s']) t').
    { apply (Claim_close g Bg w ulf ubr urd good_urd K prev s' t' LK).
      - intros j s1 p d i ls E It. destruct (proj2 (Ka _ _ E p d i)) as (v & Iv); [exists ls; exact It|]. exists v. split; [exact Iv|exact I].
      - exact Cl.
      - intro E. destruct (proj2 (Kc (p0 g) 0 0)) as (v & Iv); [rewrite E; simpl; auto|]. apply I' in Iv.
        destruct (SInv_entry _ _ _ _ _ _ _ _ _ _ _ _ S' Iv) as (ls & It & Lv). apply labs_length in Lv. apply (item_facts g Bg w) in It.
        destruct It as (_ & _ & _ & Ll & _). rewrite Ll in Lv. destruct v; [exact Iv|discriminate].
      - intros k q d i ls tok E It N Ek. destruct (proj2 (Kc q (S d) i)) as (v & Iv); [rewrite E; simpl; exists d, tok; split; [reflexivity|]; split; [exists ls; exact It|auto]|].
        exists v. split; [apply I'; exact Iv|exact I]. }
    intros j sj E q d i. split.
    - intros (v & Iv). rewrite nth_error_snoc in E. destruct (Nat.eqb_spec j (length prev)) as [->|].
      + injection E as <-. rewrite LK. destruct (SInv_entry _ _ _ _ _ _ _ _ _ _ _ _ S' Iv) as (ls & It & _). exists ls. exact It.
      + apply (Ka _ _ E). eauto.
    - intros (ls & It). destruct (Cm j sj q d i ls E It) as (v & Iv & _). eauto.
  Qed.

  (** *** Shifting *)
  Lemma leaf_gi sets t lab k v n t1 : LInv t lab -> SAll sets lab -> GI sets [] t -> in_make_leaf_node k v t = Ret (n, t1) ->
    GI sets [] t1 /\ (forall c, has t1 n c -> c = CLeaf k v) /\ (forall k q x i, ~ owns sets k q x i n).
  Proof.
    intros L S G R. destruct (make_leaf_node_spec k v t (li_t _ _ _ _ _ _ L)) as (a & t' & R' & En & Ea & I' & Keep & _). rewrite R in R'. injection R' as -> <-.
    assert (NL : forall m, nalts t1 m = if Nat.eqb m (length (in_nodes t)) then [a] else nalts t m).
    { intro m. unfold nalts. rewrite En, nth_error_snoc. destruct (Nat.eqb m (length (in_nodes t))); reflexivity. }
    assert (F : forall k q x i, ~ owns sets k q x i (length (in_nodes t))).
    { intros k0 q x i O. apply (owns_ok _ _ _ _ _ _ _ _ L S) in O. unfold node_ok in O. lia. }
    split; [|split; [|exact F]].
    - constructor; [exact (gi_v _ _ _ G)|exact (gi_d _ _ _ G)|intros self m k0 q x i (st & [])|].
      intros m c Hc. split; [|intros self (st & [])]. intros k0 q x i O. pose proof (owns_ok _ _ _ _ _ _ _ _ L S O) as On.
      apply (gi_q _ _ _ G m c); [|exact O]. apply (has_old t t1 m c (li_t _ _ _ _ _ _ L) Keep); [|exact Hc]. rewrite NL.
      destruct (Nat.eqb_spec m (length (in_nodes t))) as [->|]; [destruct (F _ _ _ _ O)|reflexivity].
    - intros c (b & Ib & Eb). rewrite NL, Nat.eqb_refl in Ib. destruct Ib as [<-|[]]. congruence.
  Qed.

  Lemma scans_gi sets K tok last : length sets = S K -> S K <= length w -> nth_error w K = Some tok -> nth_error sets K = Some last -> Kall sets ->
    forall post pre s t lab s' t', states last = pre ++ post -> LInv t lab -> SAll sets lab -> SInv (S K) s lab ->
    (forall k v, In (k, v) s -> exists st, In st pre /\ k = mkk (sp st) (S (si st)) (so st)) ->
    GI (sets ++ [s]) [] t -> from_scans lay post tok (s, t) = Ret (s', t') ->
    exists lab', LInv t' lab' /\ ext t lab t' lab' /\ SInv (S K) s' lab' /\ GI (sets ++ [s']) [] t'.
  Proof.
    intros LS Lw Ek El Ka. induction post as [|st post IH]; intros pre s t lab s' t' Es L Sp Sc Src G R.
    - simpl in R. injection R as <- <-. exists lab. split; [exact L|]. split; [apply ext_refl|]. auto.
    - destruct (st_eta st) as (q & d & i & v & ->). cbn [from_scans] in R. rewrite scan_mk in R.
      assert (Skip : from_scans lay post tok (s, t) = Ret (s', t') -> exists lab', LInv t' lab' /\ ext t lab t' lab' /\ SInv (S K) s' lab' /\ GI (sets ++ [s']) [] t').
      { apply (IH (pre ++ [mkst q d i v])); try assumption.
        - rewrite <- app_assoc. exact Es.
        - intros k x I. destruct (Src _ _ I) as (st & Is & E). exists st. split; [apply in_or_app; auto|exact E]. }
      destruct (nth_error (elements q) d) as [[[|k]|nt]|] eqn:En; cbn [has_kind obind] in R; try exact (Skip R).
      destruct (eqb_spec k (tk_kind tok)) as [->|Nk]; [|exact (Skip R)]. clear Skip.
      assert (Il : In (mkst q d i v) (states last)) by (rewrite Es; apply in_or_app; right; left; reflexivity). apply states_In in Il. cbn [es_key es_value mkst] in Il.
      destruct (SInv_entry _ _ _ _ _ _ _ _ _ _ _ _ (Sp _ _ El) Il) as (ls & It & Lv).
      destruct (make_leaf_step g w ulf ubr t lab K tok q d i ls L Ek It En) as (n & a & t1 & lab1 & R1 & L1 & X1 & Ln & Ea & Na).
      rewrite R1 in R. cbn [obind] in R. pose proof (ex_lab _ _ _ _ X1) as Lx.
      assert (Sn : SAll (sets ++ [s]) lab) by (apply SAll_snoc; [exact Sp|rewrite LS; exact Sc]).
      destruct (leaf_gi (sets ++ [s]) t lab (tk_kind tok) (tk_value tok) n t1 L Sn G R1) as (G1 & Hn & Fn).
      assert (It1 : itm (S K) q (S d) i (ls ++ [ulf (q, d, i) K tok])) by exact (it_scan g w ulf ubr K q d i ls tok It En Ek).
      assert (Fv1 : labs lab1 (v ++ [n]) (ls ++ [ulf (q, d, i) K tok])) by (apply Forall2_app_one; [exact (labs_mono _ _ _ _ Lx Lv)|exact Ln]).
      pose proof (insert_step g Bg lay Inj w ulf ubr (ulab_fun g Bg w) (S K) s t1 lab1 q (S d) i (v ++ [n]) _ L1 (SInv_mono _ _ _ _ _ _ _ _ _ Lx Sc) It1 Fv1) as St.
      destruct (insert lay (mkst q (S d) i (v ++ [n])) (s, t1)) as [[c [s2 t2]]|m|] eqn:R2; cbn [obind] in R; try discriminate.
      destruct St as (L2 & S2 & X2 & _ & I2 & _).
      assert (Gt : bt_get (mkk q (S d) i) s = None).
      { destruct (bt_get (mkk q (S d) i) s) as [v0|] eqn:Gt; [|reflexivity]. exfalso.
        apply (get_exact (S K) s lab) in Gt; [|exact Lw|exact Sc|eexists; exact It1]. destruct (Src _ _ Gt) as (st & Is & E).
        destruct (st_eta st) as (q' & d' & i' & v' & ->). cbn in E. injection E as <- <- <-.
        pose proof (states_sorted last (proj1 (Sp _ _ El))) as So. rewrite Es in So.
        assert (F : cmp (mkk q d i : Key) (mkk q d i) = Lt).
        { clear - So Is. revert Is So. induction pre as [|y pre IH]; intros [] So.
          - subst y. simpl in So. apply StronglySorted_inv in So. destruct So as [_ F]. rewrite Forall_forall in F. specialize (F (mkst q d i v)). apply F.
            apply in_or_app. right. left. reflexivity.
          - simpl in So. apply StronglySorted_inv in So. apply IH; tauto. }
        rewrite cmp_refl in F. discriminate. }
      unfold insert in R2. cbn [es_key es_value mkst] in R2. change (Ord_Key lay) with (EarleyRun.OK (AK := AK) (AV := AV) (T := T) lay) in R2. rewrite Gt in R2. injection R2 as <- <- <-.
      pose proof (insert_In _ (v ++ [n]) _ Gt) as II.
      destruct (gi_v _ _ _ G1 K last q d i v) as (ks & Ch & Vs); [rewrite nth_error_app1 by lia; exact El|exact Il|].
      assert (Sk : scans g w K q d i tok) by (split; [exists ls; exact It|auto]).
      assert (G2 : GI (sets ++ [bt_insert (mkk q (S d) i) (v ++ [n]) s]) [] t1).
      { apply (gi_add sets s [] t1 q d i v n (fun x => vacant_notin _ x s (proj1 Sc) Gt) _ II G1).
        - exists ks. rewrite LS. split; [|split; [exact Vs|exact (chain_length _ _ _ _ _ _ _ Ch)]]. apply chain_snoc with K; [|exact Ch].
          left. split; [|reflexivity]. exists d, tok. auto.
        - exact Fn.
        - intros y Hy. apply Hn in Hy. subst y. exists (ALeaf tok). split; [destruct tok; reflexivity|]. rewrite LS. apply ac_leaf. exact Sk.
        - intros self m (st & []). }
      destruct (IH (pre ++ [mkst q d i v]) (bt_insert (mkk q (S d) i) (v ++ [n]) s) t1 lab1 s' t') as (lab' & L' & X' & S' & G'); try eassumption.
      + rewrite <- app_assoc. exact Es.
      + exact (SAll_mono _ _ _ Lx Sp).
      + intros k x I. apply II in I. destruct I as [[-> _]|I].
        * exists (mkst q d i v). split; [apply in_or_app; right; left; reflexivity|reflexivity].
        * destruct (Src _ _ I) as (st & Is & E). exists st. split; [apply in_or_app; auto|exact E].
      + exists lab'. split; [exact L'|]. split; [exact (ext_trans _ _ _ _ _ _ X1 X')|]. auto.
  Qed.
  Lemma scans_src K tok : nth_error w K = Some tok -> forall sts s t s' t',
    from_scans lay sts tok (s, t) = Ret (s', t') -> forall q d i v, In (mkk q d i, v) s' ->
    (exists v, In (mkk q d i, v) s) \/ exists d0 v0, d = S d0 /\ In (mkst q d0 i v0) sts /\ nth_error (elements q) d0 = Some (Term (STerm (tk_kind tok))).
  Proof.
    intro Ek. induction sts as [|st sts IH]; intros s t s' t' R q d i v I.
    - simpl in R. injection R as <- <-. left. eauto.
    - destruct (st_eta st) as (q0 & d0 & i0 & v0 & ->). cbn [from_scans] in R. rewrite scan_mk in R.
      assert (Skip : from_scans lay sts tok (s, t) = Ret (s', t') -> (exists v, In (mkk q d i, v) s) \/
        exists d1 v1, d = S d1 /\ In (mkst q d1 i v1) (mkst q0 d0 i0 v0 :: sts) /\ nth_error (elements q) d1 = Some (Term (STerm (tk_kind tok)))).
      { intro R'. destruct (IH _ _ _ _ R' q d i v I) as [X|(d1 & v1 & X & Y & Z)]; [auto|]. right. exists d1, v1. split; [exact X|]. split; [right; exact Y|exact Z]. }
      destruct (nth_error (elements q0) d0) as [[[|k]|nt]|] eqn:En; cbn [has_kind obind] in R; try exact (Skip R).
      destruct (eqb_spec k (tk_kind tok)) as [->|Nk]; [|exact (Skip R)]. clear Skip.
      destruct (in_make_leaf_node _ _ t) as [[n t1]|m|]; cbn [obind] in R; try discriminate.
      destruct (insert lay (mkst q0 (S d0) i0 (v0 ++ [n])) (s, t1)) as [[c [s2 t2]]|m|] eqn:R2; cbn [obind] in R; try discriminate.
      destruct (IH _ _ _ _ R q d i v I) as [(v2 & I2)|(d1 & v1 & X & Y & Z)]; [|right; exists d1, v1; split; [exact X|]; split; [right; exact Y|exact Z]].
      unfold insert in R2. cbn [es_key es_value mkst] in R2. change (Ord_Key lay) with (EarleyRun.OK (AK := AK) (AV := AV) (T := T) lay) in R2.
      destruct (bt_get (mkk q0 (S d0) i0) s) as [v3|] eqn:Gt.
      + destruct (assert_ _ _) as [u|m|]; cbn [obind] in R2; try discriminate. destruct (merge_values _ _ _) as [[c1 t3]|m|]; cbn [obind] in R2; try discriminate.
        injection R2 as <- <- <-. left. eauto.
      + injection R2 as <- <- <-. apply (insert_In _ _ _ Gt) in I2. destruct I2 as [[E _]|I2]; [|left; eauto].
        injection E as -> -> ->. right. exists d0, v0. split; [reflexivity|]. split; [left; reflexivity|exact En].
  Qed.

  (** *** The whole run *)
  Record XInv K sets t (lab : ulabs) : Prop := {
    xi_len : length sets = S K;
    xi_w : K <= length w;
    xi_l : LInv t lab;
    xi_s : SAll sets lab;
    xi_k : Kall sets;
    xi_g : GI sets [] t;
    xi_c : forall k q x i c n, ac K k q x i c -> owns sets k q x i n -> exists c', cc sets c' c /\ has t n c'
  }.

  Lemma prior_le K q d i j : K <= length w -> prior g w K q d i j -> j <= K.
  Proof.
    intros Lw [[_ ->]|(r & p & _ & (R & _) & _)]; [lia|]. apply (rit_it g w K Lw) in R. destruct R as (ls & R). apply (item_facts g Bg w) in R. tauto.
  Qed.
  Lemma chain_le d : forall K q i ks, K <= length w -> chain K q d i ks -> forall k, In k ks -> k <= K.
  Proof.
    induction d as [|d IH]; intros K q i ks Lw Ch k I; apply chain_inv in Ch; [subst; destruct I|].
    destruct Ch as (j & ks' & -> & P & Ch). apply in_app_or in I. destruct I as [I|[<-|[]]]; [|lia].
    pose proof (prior_le _ _ _ _ _ Lw P) as Lj. specialize (IH j q i ks' ltac:(lia) Ch k I). lia.
  Qed.
  Lemma it_le K p d i : it K p d i -> i <= K /\ K <= length w.
  Proof. intros (ls & It). apply (item_facts g Bg w) in It. tauto. Qed.
  Lemma ac_le J k q x i c : ac J k q x i c -> k <= J.
  Proof.
    intro A. induction A as [J k q x i c _ IH|k q d i tok Sk|K q d i p j Cs|K q d i p j ks ks1 x k k1 c Cs Ch1 Ch E1 E2 _ IH]; try lia.
    apply (chain_le _ _ _ _ _ (proj2 (it_le _ _ _ _ (proj1 Cs))) Ch1). apply in_or_app. left. exact (nth_error_In _ _ E2).
  Qed.
  Lemma owns_fun sets lab k q x i n n' : SAll sets lab -> owns sets k q x i n -> owns sets k q x i n' -> n = n'.
  Proof.
    intros Sa (s & v & E & I) (s' & v' & E' & I'). rewrite E in E'. injection E' as <-.
    destruct (SInv_unique g Bg lay Inj w ulf ubr _ _ _ _ _ _ _ _ _ (Sa _ _ E) I I') as [_ Ev]. apply app_inj_tail in Ev. tauto.
  Qed.
  Lemma has_mono t t' n c : (forall m, incl (nalts t m) (nalts t' m)) -> (forall a c, acont t a = Some c -> acont t' a = Some c) -> has t n c -> has t' n c.
  Proof. intros Ni Ak (a & Ia & Ea). exists a. split; [apply Ni; exact Ia|apply Ak; exact Ea]. Qed.

  Lemma cover prev s t lab : let K := length prev in K <= length w ->
    SAll (prev ++ [s]) lab -> Kall (prev ++ [s]) -> GI (prev ++ [s]) [] t -> Closed g K prev s t ->
    (forall J k q x i c n, K = S J -> ac J k q x i c -> owns prev k q x i n -> exists c', cc prev c' c /\ has t n c') ->
    (forall k q d i tok n, K = S k -> scans g w k q d i tok -> owns (prev ++ [s]) K q d i n -> has t n (CLeaf (tk_kind tok) (tk_value tok))) ->
    forall k q x i c n, ac K k q x i c -> owns (prev ++ [s]) k q x i n -> exists c', cc (prev ++ [s]) c' c /\ has t n c'.
  Proof.
    intros K Lw Sa Ka G [_ Cl] Old Leaf.
    assert (Le : sle prev (prev ++ [s])).
    { intros k x E. exists x. split; [rewrite nth_error_app1 by exact (nth_lt _ _ _ E); exact E|apply incl_refl]. }
    assert (Cur : nth_error (prev ++ [s]) K = Some s) by (rewrite nth_error_snoc; unfold K; rewrite Nat.eqb_refl; reflexivity).
    assert (Ent : forall q d i p j, completes g w K q d i p j -> exists v' sj v, In (mkk p (length (elements p)) j, v') s /\ nth_error (prev ++ [s]) j = Some sj /\ In (mkk q d i, v) sj).
    { intros q d i p j (C1 & C2 & _). apply (Ka _ _ Cur) in C1 as (v' & Iv'). pose proof (it_le _ _ _ _ C2) as Lj.
      destruct (it_le K p (length (elements p)) j) as [Lj' _]; [apply (Ka _ _ Cur); eauto|].
      destruct (nth_error (prev ++ [s]) j) as [sj|] eqn:E; [|apply nth_error_None in E; rewrite app_length in E; simpl in E; unfold K in *; lia].
      apply (Ka _ _ E) in C2 as (v & Iv). exists v', sj, v. auto. }
    intros k q x i c n A. remember K as J eqn:EJ in A. revert n EJ.
    induction A as [J k q x i c A _|k q d i tok Sk|J q d i p j Cs|J q d i p j ks ks1 x k k1 c Cs Ch1 Ch E1 E2 A IH]; intros n EJ Ow.
    - destruct (Old J k q x i c n (eq_sym EJ) A) as (c' & Cc & Hc).
      + destruct Ow as (s1 & v1 & E & I). exists s1, v1. split; [|exact I]. apply ac_le in A. rewrite nth_error_app1 in E by (unfold K in EJ; lia). exact E.
      + exists c'. split; [exact (cc_mono _ _ _ _ Le Cc)|exact Hc].
    - exists (CLeaf (tk_kind tok) (tk_value tok)). split; [destruct tok; reflexivity|]. apply (Leaf k q d i tok n (eq_sym EJ) Sk). rewrite EJ in Ow. exact Ow.
    - subst J. destruct (Ent _ _ _ _ _ Cs) as (v' & sj & v & Iv' & Ej & Iv).
      destruct (Cl p j v' sj q d i v Iv' Ej Iv (proj2 (proj2 Cs))) as (v1 & m1 & a & ak & J1 & J2 & J3 & J4 & J5).
      assert (n = m1) as -> by (apply (owns_fun _ lab _ _ _ _ _ _ Sa Ow); exists s, v1; auto).
      exists (CBranch ak v'). split; [|exists a; auto]. simpl. split; [exact J5|]. exists s. auto.
    - subst J. destruct (Ent _ _ _ _ _ Cs) as (v' & sj & v & Iv' & Ej & Iv).
      destruct (Cl p j v' sj q d i v Iv' Ej Iv (proj2 (proj2 Cs))) as (v1 & m1 & a & ak & J1 & J2 & J3 & J4 & J5).
      destruct (gi_v _ _ _ G _ _ _ _ _ _ Ej Iv) as (ks' & Ch' & Vs). rewrite (chain_fun g w _ _ _ _ _ _ Ch' Ch) in Vs. clear ks' Ch'.
      destruct (gi_v _ _ _ G _ _ _ _ _ _ Cur J1) as (ks' & Ch' & Vs1). rewrite (chain_fun g w _ _ _ _ _ _ Ch' Ch1) in Vs1. clear ks' Ch'.
      apply vals_snoc in Vs1. destruct Vs1 as [Vs1 _].
      assert (Nv : exists y, nth_error v x = Some y).
      { destruct (nth_error v x) eqn:E; [eauto|]. apply nth_error_None in E. rewrite <- (vals_length _ _ _ _ _ _ Vs) in E. apply nth_lt in E1. lia. }
      assert (Nv1 : exists y, nth_error v1 x = Some y).
      { destruct (nth_error v1 x) eqn:E; [eauto|]. apply nth_error_None in E. rewrite <- (vals_length _ _ _ _ _ _ Vs1) in E. apply nth_lt in E2. lia. }
      destruct Nv as (y & Ey). destruct Nv1 as (y1 & Ey1).
      destruct (vals_nth _ _ _ _ _ _ _ _ Vs Ey) as (k' & Ek' & Oy). rewrite E1 in Ek'. injection Ek' as <-. simpl in Oy.
      destruct (vals_nth _ _ _ _ _ _ _ _ Vs1 Ey1) as (k' & Ek' & Oy1). rewrite E2 in Ek'. injection Ek' as <-. simpl in Oy1.
      rewrite (owns_fun _ lab _ _ _ _ _ _ Sa Ow Oy1). destruct (IH y eq_refl Oy) as (c' & Cc & b & Ib & Eb). exists c'. split; [exact Cc|]. exists b. split; [|exact Eb].
      assert (Inc : incl (nalts t y) (nalts t y1)); [|exact (Inc _ Ib)].
      clear - J2 Ey Ey1. revert x Ey Ey1. induction J2 as [|a b l l' Q J IH]; intros [|x] Ey Ey1; simpl in *; try discriminate; [injection Ey as <-; injection Ey1 as <-; exact Q|]. exact (IH x Ey Ey1).
  Qed.

  Lemma start_x t0 fuel s t : TInv t0 -> (s1 <- new_start lay sg t0 ;; close_state lay sg [] s1 fuel) = Ret (s, t) ->
    exists lab, XInv 0 [s] t lab.
  Proof.
    intros T0 R.
    assert (R0 : new_start lay sg t0 = Ret ([(mkk (p0 g) 0 0, [])], t0)).
    { unfold new_start. change (start_nt sg) with (@Start NT).
      pose proof (wrap_start_rule g Bg) as R0. unfold start_rule in R0. change (calls_grammar Start (wrap_start_call g :: map wrap_rule_call (rules g))) with sg in R0.
      rewrite R0. reflexivity. }
    rewrite R0 in R. cbn [obind] in R.
    assert (L0 : LInv t0 (fun _ => None)) by (constructor; [exact T0|intros; discriminate|intros; discriminate]).
    assert (Sc0 : SInv 0 [(mkk (p0 g) 0 0, [])] (fun _ => None)).
    { split; [repeat constructor|]. intros k v [[= <- <-]|[]]. exists []. split; [constructor|constructor]. }
    assert (NO : forall k q x i n, ~ owns [[(mkk (p0 g) 0 0, [])]] k q x i n).
    { intros [|[|k]] q x i n (s1 & v & E & I); simpl in E; try discriminate. injection E as <-. destruct I as [I|[]]. discriminate. }
    destruct (close_x 0 [] fuel [(mkk (p0 g) 0 0, [])] t0 (fun _ => None) s t) as (lab & L & X & Inc & Sc & G & Cl & Ka); try assumption.
    - reflexivity.
    - lia.
    - intros [|j] sj E; discriminate.
    - intros q d i. simpl. split; [intros (v & [I|[]]); injection I as <- <- <- _; auto|intros (-> & -> & ->); exists []; left; reflexivity].
    - intros [|j] s1 E; discriminate.
    - simpl. constructor.
      + intros [|[|k]] s1 q d i v E I; simpl in E; try discriminate. injection E as <-. destruct I as [I|[]]. injection I as <- <- <- <-. exists []. split; [constructor|exact Logic.I].
      + intros k q x i k' q' x' i' n O. destruct (NO _ _ _ _ _ O).
      + intros self m k q x i (st & []).
      + intros n c _. split; [intros k q x i O; destruct (NO _ _ _ _ _ O)|intros self (st & [])].
    - simpl in *. assert (Sa : SAll [s] lab) by (intros [|[|j]] s1 E; simpl in E; try discriminate; injection E as <-; exact Sc).
      exists lab. constructor; try assumption; [reflexivity|lia|]. intros k q x i c n. apply (cover [] s t lab); try assumption; simpl; try lia; intros; discriminate.
  Qed.

  Lemma shift_x K sets t lab tok last fuel s t' : XInv K sets t lab -> nth_error w K = Some tok -> nth_error sets K = Some last ->
    (s1 <- shift lay last tok t ;; close_state lay sg sets s1 fuel) = Ret (s, t') -> exists lab', XInv (S K) (sets ++ [s]) t' lab'.
  Proof.
    intros I Ew El R. pose proof (xi_len _ _ _ _ I) as LS. assert (Lw : S K <= length w) by (apply nth_lt in Ew; lia).
    unfold shift in R. destruct (from_scans lay (states last) tok ([], t)) as [[s1 t1]|m|] eqn:R1; cbn [obind] in R; try discriminate.
    assert (Se : SInv (S K) [] lab) by (split; [constructor|intros k v []]).
    assert (Own0 : forall k q x i n, owns (sets ++ [[]]) k q x i n -> owns sets k q x i n).
    { intros k q x i n (s0 & v & E & J). rewrite nth_error_snoc in E. destruct (Nat.eqb k (length sets)); [injection E as <-; destruct J|]. exists s0, v. auto. }
    assert (Le0 : forall x : ESet, sle sets (sets ++ [x])).
    { intros x k y E. exists y. split; [rewrite nth_error_app1 by exact (nth_lt _ _ _ E); exact E|apply incl_refl]. }
    assert (G0 : GI (sets ++ [[]]) [] t).
    { pose proof (xi_g _ _ _ _ I) as G. constructor.
      - intros k s0 q d i v E J. rewrite nth_error_snoc in E. destruct (Nat.eqb k (length sets)); [injection E as <-; destruct J|].
        destruct (gi_v _ _ _ G _ _ _ _ _ _ E J) as (ks & Ch & Vs). exists ks. split; [exact Ch|exact (vals_mono _ _ _ _ (Le0 _) _ _ _ Vs)].
      - intros k q x i k' q' x' i' n O1 O2. exact (gi_d _ _ _ G _ _ _ _ _ _ _ _ _ (Own0 _ _ _ _ _ O1) (Own0 _ _ _ _ _ O2)).
      - intros self m k q x i (st & []).
      - intros n c Hc. split; [|intros self (st & [])]. intros k q x i O. destruct (proj1 (gi_q _ _ _ G n c Hc) _ _ _ _ (Own0 _ _ _ _ _ O)) as (c' & Cc & A).
        exists c'. split; [exact (cc_mono _ _ _ _ (Le0 _) Cc)|]. rewrite stage_snoc, LS. unfold stage in A. rewrite LS in A. apply ac_old. exact A. }
    destruct (scans_gi sets K tok last LS Lw Ew El (xi_k _ _ _ _ I) (states last) [] [] t lab s1 t1) as (lab1 & L1 & X1 & S1 & G1);
      [reflexivity|exact (xi_l _ _ _ _ I)|exact (xi_s _ _ _ _ I)|exact Se|intros k v []|exact G0|exact R1|].
    pose proof (scans_step g Bg lay Inj w ulf ubr (ulab_fun g Bg w) K tok Ew (states last) t lab [] (xi_l _ _ _ _ I) Se) as St.
    assert (Ok : forall st, In st (states last) -> stok K lab st).
    { intros st Is. apply states_In in Is. destruct st as [k v]. exact (proj2 (xi_s _ _ _ _ I _ _ El) _ _ Is). }
    specialize (St Ok).
    match type of St with match ?x with Ret _ => _ | Panic _ => _ | NoFuel => _ end => replace x with (Ret (s1, t1)) in St by (symmetry; exact R1) end.
    destruct St as (_ & _ & _ & _ & _ & Cov).
    destruct (close_x (S K) sets fuel s1 t1 lab1 s t' LS Lw (xi_k _ _ _ _ I)) as (lab2 & L2 & X2 & Inc2 & S2 & G2 & Cl2 & Ka2); try assumption.
    - intros q d i. simpl. split.
      + intros (v & Iv). destruct (scans_src K tok Ew _ _ _ _ _ R1 _ _ _ _ Iv) as [(v0 & [])|(d0 & v0 & -> & Is & N)]. exists d0, tok. split; [reflexivity|].
        apply states_In in Is. split; [|auto]. apply (xi_k _ _ _ _ I _ _ El). eauto.
      + intros (d0 & tok' & -> & (It & N & Ew')). assert (tok' = tok) as -> by congruence. apply (xi_k _ _ _ _ I _ _ El) in It. destruct It as (v & Iv).
        destruct (Cov q d0 i v) as (v1 & m1 & a & J1 & _); [apply states_In; exact Iv|exact N|]. eauto.
    - exact (SAll_mono _ _ _ (ex_lab _ _ _ _ X1) (xi_s _ _ _ _ I)).
    - exists lab2.
      assert (X : ext t lab t' lab2) by exact (ext_trans _ _ _ _ _ _ X1 X2).
      assert (Sa : SAll (sets ++ [s]) lab2).
      { apply SAll_snoc; [exact (SAll_mono _ _ _ (ex_lab _ _ _ _ X) (xi_s _ _ _ _ I))|rewrite LS; exact S2]. }
      constructor; try assumption; [rewrite app_length, LS; simpl; lia|].
      rewrite <- LS. apply (cover sets s t' lab2); try assumption; [rewrite LS; exact Lw|rewrite LS; exact Cl2| |].
      + intros J k q x i c n EJ A O. rewrite LS in EJ. injection EJ as <-. destruct (xi_c _ _ _ _ I _ _ _ _ _ _ A O) as (c' & Cc & Hc).
        exists c'. split; [exact Cc|]. exact (has_mono _ _ _ _ (ex_nalts _ _ _ _ X) (proj2 (ex_tle _ _ _ _ X)) Hc).
      + intros k q d i tok' n Ek Sk O. rewrite LS in Ek, O. injection Ek as <-. destruct Sk as (It & N & Ew'). assert (tok' = tok) as -> by congruence.
        apply (xi_k _ _ _ _ I _ _ El) in It. destruct It as (v & Iv). destruct (Cov q d i v) as (v1 & m1 & a & J1 & _ & J3 & J4); [apply states_In; exact Iv|exact N|].
        assert (n = m1) as ->.
        { apply (owns_fun _ lab2 _ _ _ _ _ _ Sa O). exists s, v1. split; [rewrite nth_error_snoc, LS, Nat.eqb_refl; reflexivity|apply Inc2; exact J1]. }
        apply (has_mono t1 t' m1 _ (ex_nalts _ _ _ _ X2) (proj2 (ex_tle _ _ _ _ X2))). exists a. auto.
  Qed.
  Lemma tokens_x fuel : forall rest K sets t lab sets' t', XInv K sets t lab -> K + length rest = length w -> skipn K w = rest ->
    parse_tokens lay sg rest sets t fuel = Ret (sets', t') -> exists lab', XInv (length w) sets' t' lab'.
  Proof.
    induction rest as [|tok rest IH]; intros K sets t lab sets' t' I Lr Er R.
    - simpl in R. injection R as <- <-. exists lab. simpl in Lr. rewrite Nat.add_0_r in Lr. rewrite <- Lr. exact I.
    - assert (Ew : nth_error w K = Some tok).
      { rewrite <- (firstn_skipn K w), Er. rewrite nth_error_app2; rewrite firstn_length_le by (simpl in Lr; lia); [|lia]. rewrite Nat.sub_diag. reflexivity. }
      cbn [parse_tokens] in R. destruct (nth_error sets K) as [last|] eqn:El; [|apply nth_error_None in El; rewrite (xi_len _ _ _ _ I) in El; lia].
      rewrite (last_nth sets K (xi_len _ _ _ _ I)), El in R. cbn [expect obind] in R.
      destruct (shift lay last tok t) as [[s1 t1]|m|] eqn:R1; cbn [obind] in R; try discriminate.
      destruct (close_state lay sg sets (s1, t1) fuel) as [[s2 t2]|m|] eqn:R2; cbn [obind] in R; try discriminate.
      destruct (shift_x K sets t lab tok last fuel s2 t2 I Ew El) as (lab2 & I2); [rewrite R1; exact R2|].
      apply (IH (S K) (sets ++ [s2]) t2 lab2 sets' t' I2); [simpl in Lr; lia| |exact R].
      rewrite (skipn_nth w K tok Ew) in Er. injection Er as Er. exact Er.
  Qed.
  Lemma parse_x t0 fuel o t : TInv t0 -> parse lay sg w t0 fuel = Ret (o, t) ->
    exists sets lab, XInv (length w) sets t lab /\ forall m, o = Some m -> owns sets (length w) (p0 g) 0 0 m.
  Proof.
    intros T0 R. unfold parse in R.
    destruct (new_start lay sg t0) as [s0|m|] eqn:R0; cbn [obind] in R; try discriminate.
    destruct (close_state lay sg [] s0 fuel) as [[s1 t1]|m|] eqn:R1; cbn [obind] in R; try discriminate.
    destruct (start_x t0 fuel s1 t1 T0) as (lab1 & I1); [rewrite R0; exact R1|].
    destruct (parse_tokens lay sg w [s1] t1 fuel) as [[sets t2]|m|] eqn:R2; cbn [obind] in R; try discriminate.
    destruct (tokens_x fuel w 0 [s1] t1 lab1 sets t2 I1 eq_refl eq_refl R2) as (lab & I).
    destruct (nth_error sets (length w)) as [last|] eqn:El; [|apply nth_error_None in El; rewrite (xi_len _ _ _ _ I) in El; lia].
    rewrite (last_nth _ _ (xi_len _ _ _ _ I)), El in R. cbn [expect obind] in R.
    destruct (final_step g Bg lay w ulf ubr _ _ _ (xi_s _ _ _ _ I _ _ El)) as (o' & Ro & Po). rewrite Ro in R. cbn [obind] in R. injection R as <- <-.
    exists sets, lab. split; [exact I|]. intros m ->. exists last, []. split; [exact El|exact Po].
  Qed.

  (** *** Reading *)
  Lemma reads_areads K sets t lab : XInv K sets t lab -> K = length w ->
    (forall n tr, reads t n tr -> forall k q x i, owns sets k q x i n -> areads g w k q x i tr) /\
    (forall ns cs, reads_all t ns cs -> forall p j x ks, vals sets p j x ks ns -> areads_all g w p j x ks cs).
  Proof.
    intros I EK. pose proof (xi_g _ _ _ _ I) as G. assert (Sg : stage sets = length w) by (unfold stage; rewrite (xi_len _ _ _ _ I); simpl; exact EK).
    apply reads_reads_all_ind.
    - intros n s a k v Gn Ia A k0 q x i O.
      assert (Hc : has t n (CLeaf k v)) by (exists a; split; [exact (get_node_In _ _ _ _ Gn Ia)|apply get_alt_acont; exact A]).
      destruct (proj1 (gi_q _ _ _ G n _ Hc) _ _ _ _ O) as (c' & Cc & Ac).
      destruct c' as [tok|K0 p j]; [|destruct Cc]. simpl in Cc. subst tok. rewrite Sg in Ac. exact (ard_leaf g w _ _ _ _ _ Ac).
    - intros n s a ak ns cs Gn Ia A _ IH k0 q x i O.
      assert (Hc : has t n (CBranch ak ns)) by (exists a; split; [exact (get_node_In _ _ _ _ Gn Ia)|apply get_alt_acont; exact A]).
      destruct (proj1 (gi_q _ _ _ G n _ Hc) _ _ _ _ O) as (c' & Cc & Ac).
      destruct c' as [tok|K0 p j]; [destruct Cc|]. simpl in Cc. destruct Cc as (Ak & s1 & E & J). destruct (gi_v _ _ _ G _ _ _ _ _ _ E J) as (ks & Ch & Vs).
      rewrite Sg in Ac. exact (ard_br g w _ _ _ _ _ _ _ _ _ _ Ac Ak Ch (IH _ _ _ _ Vs)).
    - intros p j x [|k ks] Vs; [constructor|destruct Vs].
    - intros n ns c cs _ IH1 _ IH2 p j x [|k ks] Vs; [destruct Vs|]. destruct Vs as [O Vs]. constructor; [exact (IH1 _ _ _ _ O)|exact (IH2 _ _ _ _ Vs)].
  Qed.
  Lemma areads_reads K sets t lab : XInv K sets t lab -> K = length w ->
    (forall k q x i tr, areads g w k q x i tr -> forall n, owns sets k q x i n -> reads t n tr) /\
    (forall p j x ks cs, areads_all g w p j x ks cs -> forall ns, vals sets p j x ks ns -> reads_all t ns cs).
  Proof.
    intros I EK. pose proof (xi_g _ _ _ _ I) as G. pose proof (xi_c _ _ _ _ I) as Xc. rewrite EK in Xc.
    apply areads_areads_all_ind.
    - intros k q x i tok Ac n O. destruct (Xc _ _ _ _ _ _ Ac O) as (c' & Cc & a & Ia & Ea).
      destruct c' as [kd v|ak v]; [|destruct Cc]. simpl in Cc. subst tok. exact (reads_leaf' _ _ _ _ _ Ia Ea).
    - intros k q x i K0 p j ak ks cs Ac Ak Ch _ IH n O. destruct (Xc _ _ _ _ _ _ Ac O) as (c' & Cc & a & Ia & Ea).
      destruct c' as [kd v|ak' v]; [destruct Cc|]. simpl in Cc. destruct Cc as (Ak' & s & E & J).
      rewrite Ak in Ak'. injection Ak' as <-.
      destruct (gi_v _ _ _ G _ _ _ _ _ _ E J) as (ks' & Ch' & Vs). rewrite (chain_fun g w _ _ _ _ _ _ Ch' Ch) in Vs.
      exact (reads_branch' _ _ _ _ _ _ Ia Ea (IH _ Vs)).
    - intros p j x [|n ns] Vs; [constructor|destruct Vs].
    - intros p j x k ks c cs _ IH1 _ IH2 [|n ns] Vs; [destruct Vs|]. destruct Vs as [O Vs]. constructor; [exact (IH1 _ O)|exact (IH2 _ Vs)].
  Qed.
End Exact.

(** *** The whole parse *)
Section Whole.
  Context {T NT AK AV V : Type} `{OrdEq T} `{OrdEq NT} `{OrdEq AK} `{OrdEq V}.
  Variable g : Grammar T NT AK AV.
  Hypothesis Bg : accepted g.
  Local Notation sg := (wrapg g).
  Theorem parse_areads (w : list (Token T V)) lay t0 m t : lay_inj sg lay -> lay_up sg lay -> TInv t0 ->
    runs_to (fun fuel => parse lay sg w t0 fuel) (Ret (Some m, t)) ->
    forall tr, reads t m tr <-> areads g w (length w) (p0 g) 0 0 tr.
  Proof.
    intros Inj Up T0 R tr.
    assert (NC : forall K, K <= length w -> ~ collision g w ulf ubr K).
    { intros K L C. destruct (parse_main g Bg lay Inj w t0 T0) as (r & R' & Pr).
      rewrite (runs_to_fun _ _ _ R' R) in Pr. destruct Pr as (Pr & _). apply (Pr K L). apply (bad_stuck g Bg w ulf ubr K L). right. exact C. }
    destruct R as [_ (n & R)]. specialize (R n (le_n n)).
    destruct (parse_x g Bg w lay Inj Up NC t0 n _ _ T0 R) as (sets & lab & I & O). specialize (O m eq_refl).
    split; intro X.
    - exact (proj1 (reads_areads g w lay _ _ _ _ I eq_refl) _ _ X _ _ _ _ O).
    - exact (proj1 (areads_reads g w lay _ _ _ _ I eq_refl) _ _ _ _ _ X _ O).
  Qed.
End Whole.
