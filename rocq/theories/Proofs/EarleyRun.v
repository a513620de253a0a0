(** Steps of the Earley parser: invariants of the forest and of the state sets. *)
From Coq Require Import String List Arith NArith Lia Bool.
From Verif.Model Require Import Ord BTree Outcome Utils Grammar StartGrammar Tokens Tree State Earley.
From Verif.Spec Require Import Reach Cfg BuildSpec NullSpec EarleySpec.
From Verif.Proofs Require Import OrdFacts BTreeFacts LoopFacts GrammarFacts StartFacts NullableFacts TreeFacts TreeHist EarleyItems.
Import ListNotations.

Lemma Forall2_app_one {A B} (R : A -> B -> Prop) l l' x y : Forall2 R l l' -> R x y -> Forall2 R (l ++ [x]) (l' ++ [y]).
Proof. intros F r. apply Forall2_app; [exact F|]. constructor; [exact r|constructor]. Qed.
Lemma Forall2_same {A} (R : A -> A -> Prop) l : (forall x, R x x) -> Forall2 R l l.
Proof. intro r. induction l; constructor; auto. Qed.
Lemma Forall2_impl2 {A B} (R Q : A -> B -> Prop) l l' : (forall x y, R x y -> Q x y) -> Forall2 R l l' -> Forall2 Q l l'.
Proof. intros I F. induction F; constructor; auto. Qed.

Section Run.
  Context {T NT AK AV V : Type} `{OrdEq T} `{OrdEq NT} `{OrdEq AK} `{OrdEq V}.
  Variable g : Grammar T NT AK AV.
  Hypothesis Bg : accepted g.
  Local Notation SP := (Prod (StreamTerminal T) (StartNonTerminal NT) (StartActionKey AK) (StartActionValue AV)).
  Local Notation sg := (wrapg g).
  Local Notation tree := (Inner T AK V).
  Local Notation C := (ContentInner T AK V).
  Variable lay : layout (StartNonTerminal NT).
  Hypothesis Inj : lay_inj sg lay.
  Variable w : list (Token T V).
  Context {Lb : Type}.
  Variable lfl : SP * nat * nat -> nat -> Token T V -> Lb.
  Variable brl : SP * nat * nat -> SP -> nat -> nat -> list Lb -> Lb.
  Local Notation itm := (item g w lfl brl).
  Hypothesis lab_fun : forall k p d i ls ls', itm k p d i ls -> itm k p d i ls' -> ls = ls'.

  Local Notation labelling := (nat -> option Lb).
  Implicit Types (t : tree) (lab : labelling) (n m a : nat).

  (** ** Labelled forests *)
  Definition labs lab (v : list nat) (ls : list Lb) : Prop := Forall2 (fun n l => lab n = Some l) v ls.
  Definition alt_ok lab (l : Lb) (c : C) : Prop :=
    match c with
    | CLeaf k v => exists j q d i ls0, nth_error w j = Some (Build_Token k v) /\ l = lfl (q, d, i) j (Build_Token k v) /\
        itm j q d i ls0 /\ nth_error (elements q) d = Some (Term (STerm k))
    | CBranch ak ns => exists p i k ls, itm k p (length (elements p)) i ls /\ action_key p = ActionKey ak /\
        labs lab ns ls /\ exists q d i' ls0, l = brl (q, d, i') p i k ls /\
        itm i q d i' ls0 /\ nth_error (elements q) d = Some (NonTerm (p_head p))
    end.
  Record LInv t lab : Prop := {
    li_t : TInv t;
    li_ok : forall n l, lab n = Some l -> node_ok t n;
    li_alt : forall n l a, lab n = Some l -> In a (nalts t n) -> exists c, acont t a = Some c /\ alt_ok lab l c
  }.
  Record ext t lab t' lab' : Prop := {
    ex_tle : tle t t';
    ex_lab : forall n l, lab n = Some l -> lab' n = Some l;
    ex_nalts : forall n, incl (nalts t n) (nalts t' n);
    ex_old : forall n, node_ok t n -> lab n = None -> lab' n = None /\ nalts t' n = nalts t n
  }.

  Lemma ext_refl t lab : ext t lab t lab.
  Proof. constructor; [apply tle_refl|auto|intros n x I; exact I|auto]. Qed.
  Lemma ext_trans t1 l1 t2 l2 t3 l3 : ext t1 l1 t2 l2 -> ext t2 l2 t3 l3 -> ext t1 l1 t3 l3.
  Proof.
    intros E1 E2. constructor.
    - exact (tle_trans _ _ _ (ex_tle _ _ _ _ E1) (ex_tle _ _ _ _ E2)).
    - intros n l E. apply (ex_lab _ _ _ _ E2), (ex_lab _ _ _ _ E1). exact E.
    - intros n x I. apply (ex_nalts _ _ _ _ E2), (ex_nalts _ _ _ _ E1). exact I.
    - intros n O E. destruct (ex_old _ _ _ _ E1 n O E) as [L1 N1].
      assert (O2 : node_ok t2 n) by (destruct (ex_tle _ _ _ _ E1) as [Le _]; unfold node_ok in *; lia).
      destruct (ex_old _ _ _ _ E2 n O2 L1) as [L2 N2]. split; congruence.
  Qed.
  Lemma labs_mono lab lab' v ls : (forall n l, lab n = Some l -> lab' n = Some l) -> labs lab v ls -> labs lab' v ls.
  Proof. intros L F. apply (Forall2_impl2 _ _ _ _ (fun x y => L x y) F). Qed.
  Lemma alt_ok_mono lab lab' l c : (forall n l, lab n = Some l -> lab' n = Some l) -> alt_ok lab l c -> alt_ok lab' l c.
  Proof.
    intros L. destruct c as [k v|ak ns]; simpl; [auto|]. intros (p & i & k & ls & I & A & F & E).
    exists p, i, k, ls. repeat (split; [auto|]); [exact (labs_mono _ _ _ _ L F)|exact E].
  Qed.
  Lemma labs_length lab v ls : labs lab v ls -> length v = length ls.
  Proof. intro F. induction F as [|n l v ls _ _ IH]; simpl; congruence. Qed.
  Lemma labs_ok t lab v ls : LInv t lab -> labs lab v ls -> Forall (node_ok t) v.
  Proof. intros L F. induction F as [|n l v ls E F IH]; constructor; [exact (li_ok _ _ L n l E)|exact IH]. Qed.

  Definition upd lab (n : nat) (l : Lb) : labelling := fun m => if Nat.eqb m n then Some l else lab m.

  (** A new node with one alternative. *)
  Lemma new_node_step t lab (c : C) l a t' : LInv t lab -> alt_ok lab l c ->
    in_nodes t' = in_nodes t ++ [[a]] -> acont t' a = Some c -> TInv t' ->
    (forall b d, acont t b = Some d -> acont t' b = Some d) ->
    let n := length (in_nodes t) in
    LInv t' (upd lab n l) /\ ext t lab t' (upd lab n l) /\ nalts t' n = [a] /\
    (forall m, node_ok t m -> nalts t' m = nalts t m).
  Proof.
    intros L A En Ea I' Keep n.
    assert (NL : forall m, nalts t' m = if Nat.eqb m n then [a] else nalts t m).
    { intro m. unfold nalts. rewrite En, nth_error_snoc. fold n. destruct (Nat.eqb m n); reflexivity. }
    assert (NN : lab n = None).
    { destruct (lab n) as [l'|] eqn:E; [|reflexivity]. apply (li_ok _ _ L) in E. unfold node_ok, n in E. lia. }
    assert (LE : forall m l', lab m = Some l' -> upd lab n l m = Some l').
    { intros m l' E. unfold upd. destruct (Nat.eqb_spec m n) as [->|]; [congruence|exact E]. }
    assert (TL : tle t t').
    { split; [rewrite En, app_length; lia|exact Keep]. }
    split; [|split; [|split]].
    - constructor.
      + exact I'.
      + intros m l' E. unfold upd in E. unfold node_ok. rewrite En, app_length. simpl. destruct (Nat.eqb_spec m n) as [->|]; [unfold n; lia|].
        apply (li_ok _ _ L) in E. unfold node_ok in E. lia.
      + intros m l' b E Ib. rewrite NL in Ib. unfold upd in E. destruct (Nat.eqb_spec m n) as [->|Nm].
        * injection E as <-. destruct Ib as [<-|[]]. exists c. split; [exact Ea|]. exact (alt_ok_mono _ _ _ _ LE A).
        * destruct (li_alt _ _ L m l' b E Ib) as (c' & E' & A'). exists c'. split; [apply Keep; exact E'|]. exact (alt_ok_mono _ _ _ _ LE A').
    - constructor.
      + exact TL.
      + exact LE.
      + intros m x Ix. rewrite NL. destruct (Nat.eqb_spec m n) as [->|]; [|exact Ix].
        unfold nalts in Ix. destruct (nth_error (in_nodes t) n) eqn:E; [|destruct Ix].
        apply nth_lt in E. unfold n in E. lia.
      + intros m O E. unfold upd. rewrite NL. destruct (Nat.eqb_spec m n) as [->|]; [unfold node_ok, n in O; lia|auto].
    - rewrite NL, Nat.eqb_refl. reflexivity.
    - intros m O. rewrite NL. destruct (Nat.eqb_spec m n) as [->|]; [unfold node_ok, n in O; lia|reflexivity].
  Qed.

  Lemma make_leaf_step t lab j tok q d i ls0 : LInv t lab -> nth_error w j = Some tok ->
    itm j q d i ls0 -> nth_error (elements q) d = Some (Term (STerm (tk_kind tok))) ->
    exists n a t' lab', in_make_leaf_node (tk_kind tok) (tk_value tok) t = Ret (n, t') /\
      LInv t' lab' /\ ext t lab t' lab' /\ lab' n = Some (lfl (q, d, i) j tok) /\
      acont t' a = Some (CLeaf (tk_kind tok) (tk_value tok)) /\ nalts t' n = [a].
  Proof.
    intros L E Iq Nq. destruct tok as [k v]. simpl in *.
    destruct (make_leaf_node_spec k v t (li_t _ _ L)) as (a & t' & R & En & Ea & I' & Keep & _).
    destruct (new_node_step t lab (CLeaf k v) (lfl (q, d, i) j (Build_Token k v)) a t' L) as (L' & X & N & _); auto.
    { simpl. exists j, q, d, i, ls0. auto. }
    eexists _, a, t', _. split; [exact R|]. split; [exact L'|]. split; [exact X|]. split; [|split; [exact Ea|exact N]].
    unfold upd. rewrite Nat.eqb_refl. reflexivity.
  Qed.
  Lemma make_branch_step t lab p i k ls v ak q d i' ls0 : LInv t lab -> itm k p (length (elements p)) i ls -> labs lab v ls ->
    action_key p = ActionKey ak -> itm i q d i' ls0 -> nth_error (elements q) d = Some (NonTerm (p_head p)) ->
    exists n a t' lab', in_make_branch_node ak v t = Ret (n, t') /\
      LInv t' lab' /\ ext t lab t' lab' /\ lab' n = Some (brl (q, d, i') p i k ls) /\
      acont t' a = Some (CBranch ak v) /\ nalts t' n = [a] /\ (forall m, node_ok t m -> nalts t' m = nalts t m) /\
      (forall b d, acont t' b = Some d -> acont t b = Some d \/ d = CBranch ak v).
  Proof.
    intros L It Lv Ak Iq Nq.
    destruct (make_branch_node_spec ak v t (li_t _ _ L) (labs_ok _ _ _ _ L Lv)) as (a & t' & R & En & Ea & I' & Keep & New).
    destruct (new_node_step t lab (CBranch ak v) (brl (q, d, i') p i k ls) a t' L) as (L' & X & N & Old); auto.
    { simpl. exists p, i, k, ls. repeat (split; [assumption|]). exists q, d, i', ls0. auto. }
    eexists _, a, t', _. split; [exact R|]. split; [exact L'|]. split; [exact X|]. split.
    - unfold upd. rewrite Nat.eqb_refl. reflexivity.
    - split; [exact Ea|]. split; [exact N|]. split; [exact Old|]. intros b d0 E. destruct (New b d0 E) as [|[_ ->]]; auto.
  Qed.

  (** ** Merging the nodes of an occupied entry *)
  Lemma sorted_nat_lt (s s' : btset nat) : sorted s -> sorted s' -> incl s s' -> (exists x, In x s' /\ ~ In x s) -> length s < length s'.
  Proof.
    intros S1 S2 I (x & Ix & Nx).
    assert (length (bs_add x s) <= length s').
    { apply (sorted_incl_length (bs_add x s) s'); [apply bs_add_sorted; exact S1|]. intros y Iy. apply bs_add_In in Iy. destruct Iy as [->|Iy]; auto. }
    rewrite bs_add_length_new in H7; [lia|]. apply bs_mem_false_iff. exact Nx.
  Qed.

  Lemma add_all_step t lab n m l : LInv t lab -> lab n = Some l -> lab m = Some l ->
    exists c t', in_add_all n m t = Ret (c, t') /\ LInv t' lab /\ ext t lab t' lab /\ in_alts t' = in_alts t /\
      incl (nalts t m) (nalts t' n) /\
      match c with Unchanged => t' = t | Changed => length (nalts t n) < length (nalts t' n) end.
  Proof.
    intros L En Em. pose proof (li_ok _ _ L _ _ En) as On. pose proof (li_ok _ _ L _ _ Em) as Om.
    destruct (add_all_spec t n m (li_t _ _ L) On Om) as (c & t' & R & Ea & Enodes & I' & Ch).
    exists c, t'. split; [exact R|].
    assert (AC : forall b, acont t' b = acont t b) by (intro b; unfold acont; rewrite Ea; reflexivity).
    assert (NL : forall x, nalts t' x = if Nat.eqb n x then bs_extend (nalts t n) (nalts t m) else nalts t x).
    { intro x. pose proof (nalts_set t n (bs_extend (nalts t n) (nalts t m)) (in_alts t) x On) as E. rewrite <- E.
      unfold nalts. rewrite Enodes. reflexivity. }
    split; [|split; [|split; [exact Ea|split]]].
    - constructor; [exact I'| |].
      + intros x l' E. apply (li_ok _ _ L) in E. unfold node_ok in *. rewrite Enodes, list_set_length. exact E.
      + intros x l' b E Ib. rewrite NL in Ib. rewrite AC. destruct (Nat.eqb_spec n x) as [->|].
        * apply bs_extend_In in Ib. assert (l' = l) as -> by congruence. destruct Ib as [Ib|Ib]; [exact (li_alt _ _ L m l b Em Ib)|exact (li_alt _ _ L x l b E Ib)].
        * exact (li_alt _ _ L x l' b E Ib).
    - constructor.
      + split; [rewrite Enodes, list_set_length; lia|]. intros b d E. rewrite AC. exact E.
      + auto.
      + intros x y Iy. rewrite NL. destruct (Nat.eqb_spec n x) as [->|]; [|exact Iy]. apply bs_extend_In. right. exact Iy.
      + intros x O E. rewrite NL. destruct (Nat.eqb_spec n x) as [->|]; [congruence|auto].
    - intros x Ix. rewrite NL, Nat.eqb_refl. apply bs_extend_In. left. exact Ix.
    - destruct c.
      + destruct (proj1 Ch eq_refl) as (a & I1 & I2). apply sorted_nat_lt.
        * apply (ti_sorted _ (li_t _ _ L)).
        * apply (ti_sorted _ I').
        * intros x Ix. rewrite NL, Nat.eqb_refl. apply bs_extend_In. right. exact Ix.
        * exists a. split; [|exact I2]. rewrite NL, Nat.eqb_refl. apply bs_extend_In. left. exact I1.
      + assert (Inc : incl (nalts t m) (nalts t n)).
        { intros x Ix. destruct (bs_mem x (nalts t n)) eqn:M; [apply bs_mem_In_iff; exact M|]. apply bs_mem_false_iff in M.
          exfalso. assert (Unchanged = Changed) by (apply Ch; exists x; auto). discriminate. }
        assert (bs_extend (nalts t n) (nalts t m) = nalts t n) as Eb.
        { apply sorted_ext.
          - apply bs_extend_sorted. apply (ti_sorted _ (li_t _ _ L)).
          - apply (ti_sorted _ (li_t _ _ L)).
          - intro x. rewrite bs_extend_In. split; [intros [Ix|Ix]; auto|auto]. }
        rewrite Eb in Enodes. unfold node_ok in On. rewrite list_set_same in Enodes.
        * destruct t, t'. simpl in *. congruence.
        * unfold nalts. destruct (nth_error (in_nodes t) n) eqn:E; [reflexivity|]. apply nth_error_None in E. lia.
  Qed.

  Lemma merge_step lab : forall v v' ls c t, LInv t lab -> labs lab v ls -> labs lab v' ls ->
    exists c' t', change_iter_from (fun '(existing_node, new_node) t => in_add_all existing_node new_node t) c (combine v v') t = Ret (c', t') /\
      LInv t' lab /\ ext t lab t' lab /\ in_alts t' = in_alts t /\
      Forall2 (fun n n' => incl (nalts t n') (nalts t' n)) v v' /\
      match c' with
      | Unchanged => c = Unchanged /\ t' = t
      | Changed => c = Changed \/ exists n, In n v /\ length (nalts t n) < length (nalts t' n)
      end.
  Proof.
    induction v as [|n v IH]; intros v' ls c t L F F'.
    - inversion F; subst. inversion F'; subst. exists c, t. split; [reflexivity|]. split; [exact L|]. split; [apply ext_refl|].
      split; [reflexivity|]. split; [constructor|]. destruct c; auto.
    - inversion F as [|n0 l v0 ls0 En F0]; subst. inversion F' as [|n' l0 v0' ls0' En' F0']; subst.
      destruct (add_all_step t lab n n' l L En En') as (c1 & t1 & R1 & L1 & X1 & A1 & I1 & Ch1).
      destruct (IH v0' ls0 (wc_join c c1) t1 L1 F0 F0') as (c' & t' & R2 & L2 & X2 & A2 & I2 & Ch2).
      exists c', t'. split; [simpl; rewrite R1; simpl; exact R2|]. split; [exact L2|].
      split; [exact (ext_trans _ _ _ _ _ _ X1 X2)|]. split; [congruence|]. split.
      + constructor.
        * intros x Ix. apply (ex_nalts _ _ _ _ X2), I1. exact Ix.
        * apply (Forall2_impl2 (fun n n' => incl (nalts t1 n') (nalts t' n))); [|exact I2].
          intros x y I x0 Ix0. apply I, (ex_nalts _ _ _ _ X1). exact Ix0.
      + destruct c'.
        * destruct Ch2 as [Ch2|(m & Im & Lm)].
          -- apply wc_join_Changed in Ch2. destruct Ch2 as [-> | ->]; [auto|]. right. exists n. split; [left; reflexivity|].
             assert (length (nalts t1 n) <= length (nalts t' n)); [|simpl in Ch1; lia].
             apply sorted_incl_length; [apply (ti_sorted _ (li_t _ _ L1))|]. apply (ex_nalts _ _ _ _ X2).
          -- right. exists m. split; [right; exact Im|].
             assert (length (nalts t m) <= length (nalts t1 m)); [|lia].
             apply sorted_incl_length; [apply (ti_sorted _ (li_t _ _ L))|]. apply (ex_nalts _ _ _ _ X1).
        * destruct Ch2 as [Ej ->]. apply wc_join_Unchanged in Ej. destruct Ej as [-> ->]. auto.
  Qed.

  (** ** State sets *)
  Local Notation Key := (EarleyStateKey T NT AK AV).
  Local Notation ESet := (EarleyStateSet T NT AK AV).
  Local Notation EState := (EarleyState T NT AK AV).
  Definition mkk (p : SP) (d i : nat) : Key := {| ek_prod_state := Build_ProdState p d; ek_origin := i |}.
  Definition mkst (p : SP) (d i : nat) (v : list nat) : EState := {| es_key := mkk p d i; es_value := v |}.
  Lemma key_eta (k : Key) : k = mkk (ps_prod (ek_prod_state k)) (ps_index (ek_prod_state k)) (ek_origin k).
  Proof. destruct k as [[p d] i]. reflexivity. Qed.
  Lemma st_eta (st : EState) : exists p d i v, st = mkst p d i v.
  Proof. destruct st as [[[p d] i] v]. exists p, d, i, v. reflexivity. Qed.

  Local Instance OK : Ord Key := Ord_Key lay.
  Lemma key_cmp (a b : Key) : cmp a b =
    cmp (lay (p_head (ps_prod (ek_prod_state a))) (p_ix (ps_prod (ek_prod_state a))), ek_origin a)
        (lay (p_head (ps_prod (ek_prod_state b))) (p_ix (ps_prod (ek_prod_state b))), ek_origin b).
  Proof. reflexivity. Qed.
  Local Instance TP : TotalPre Key.
  Proof.
    constructor.
    - intro a. rewrite key_cmp. apply cmp_refl.
    - intros a b. rewrite !key_cmp. apply cmp_sym.
    - intros a b c. rewrite !key_cmp. apply cmp_lt_trans.
    - intros a b c. rewrite !key_cmp. apply cmp_eq_compat.
  Qed.
  Lemma mkk_eq p d i q d' j : In p (prods sg) -> In q (prods sg) -> (cmp (mkk p d i) (mkk q d' j) = Eq <-> p = q /\ i = j).
  Proof.
    intros Ip Iq. rewrite key_cmp, cmp_eq_iff. simpl. split; [|intros [-> ->]; reflexivity].
    intros [= E ->]. split; [|reflexivity].
    apply (prods_In sg (sg_wf g)) in Ip as Np. apply (prods_In sg (sg_wf g)) in Iq as Nq.
    destruct (Inj _ _ _ _ _ _ Np Nq E) as [E1 E2]. exact (prod_eq sg (sg_wf g) p q Ip Iq E1 E2).
  Qed.

  Definition stok (K : nat) lab (st : EState) : Prop :=
    exists ls, itm K (ps_prod (ek_prod_state (es_key st))) (ps_index (ek_prod_state (es_key st))) (ek_origin (es_key st)) ls /\ labs lab (es_value st) ls.
  Definition SInv (K : nat) (s : ESet) lab : Prop :=
    msorted s /\ forall k v, In (k, v) s -> stok K lab {| es_key := k; es_value := v |}.
  Lemma stok_mono K lab lab' st : (forall n l, lab n = Some l -> lab' n = Some l) -> stok K lab st -> stok K lab' st.
  Proof. intros L (ls & I & F). exists ls. split; [exact I|exact (labs_mono _ _ _ _ L F)]. Qed.
  Lemma SInv_mono K s lab lab' : (forall n l, lab n = Some l -> lab' n = Some l) -> SInv K s lab -> SInv K s lab'.
  Proof. intros L [S I]. split; [exact S|]. intros k v Iv. exact (stok_mono _ _ _ _ L (I k v Iv)). Qed.
  Lemma SInv_entry K s lab p d i v : SInv K s lab -> In (mkk p d i, v) s ->
    exists ls, itm K p d i ls /\ labs lab v ls.
  Proof. intros [_ I] Iv. exact (I _ _ Iv). Qed.
  Lemma SInv_prod K s lab p d i v : SInv K s lab -> In (mkk p d i, v) s -> In p (prods sg).
  Proof. intros S I. destruct (SInv_entry _ _ _ _ _ _ _ S I) as (ls & It & _). apply (item_facts g Bg w) in It. tauto. Qed.
  Lemma SInv_unique K s lab p d d' i v v' : SInv K s lab -> In (mkk p d i, v) s -> In (mkk p d' i, v') s -> d = d' /\ v = v'.
  Proof.
    intros S I1 I2. pose proof (SInv_prod _ _ _ _ _ _ _ S I1) as Ip. destruct S as [S _].
    assert (E : cmp (mkk p d i) (mkk p d' i) = Eq) by (apply mkk_eq; auto).
    assert (Ek : mkk p d i = mkk p d' i).
    { apply (sorted_eq_unique (bt_keys s)); [exact S|apply (in_map fst) in I1; exact I1|apply (in_map fst) in I2; exact I2|exact E]. }
    injection Ek as ->. split; [reflexivity|].
    pose proof (bt_In_get (mkk p d' i) _ v s S I1 (cmp_refl _)) as G1. pose proof (bt_In_get (mkk p d' i) _ v' s S I2 (cmp_refl _)) as G2. congruence.
  Qed.

  Definition refs (s : ESet) : list nat := flat_map snd s.
  (** What a round adds: either an entry, or alternatives to the nodes of the entries. *)
  Definition grew (s : ESet) t (s' : ESet) t' : Prop :=
    length s < length s' \/ (s' = s /\ exists n, In n (refs s) /\ length (nalts t n) < length (nalts t' n)).

  Lemma insert_step K s t lab p d i v ls : LInv t lab -> SInv K s lab -> itm K p d i ls -> labs lab v ls ->
    match insert lay (mkst p d i v) (s, t) with
    | Ret (c, (s', t')) => LInv t' lab /\ SInv K s' lab /\ ext t lab t' lab /\ in_alts t' = in_alts t /\ incl s s' /\
        (exists v', In (mkk p d i, v') s' /\ Forall2 (fun n n' => incl (nalts t n') (nalts t' n)) v' v) /\
        match c with Unchanged => s' = s /\ t' = t | Changed => grew s t s' t' end
    | Panic m => clash g w lfl brl m K
    | NoFuel => False
    end.
  Proof.
    intros L S It Fv. destruct (item_facts g Bg w lfl brl _ _ _ _ _ It) as (_ & _ & _ & Ll & Ip).
    unfold insert. cbn [es_key es_value mkst]. destruct (bt_get (mkk p d i) s) as [v0|] eqn:G.
    - destruct (bt_get_Some_In _ _ _ G) as (k0 & I0 & E0). rewrite (key_eta k0) in I0, E0.
      destruct (SInv_entry _ _ _ _ _ _ _ S I0) as (ls0 & It0 & F0).
      pose proof (SInv_prod _ _ _ _ _ _ _ S I0) as Iq. apply mkk_eq in E0; [|exact Ip|exact Iq].
      destruct E0 as [Ep Ei]. rewrite <- Ep, <- Ei in *. clear Iq.
      destruct (item_facts g Bg w lfl brl _ _ _ _ _ It0) as (_ & _ & _ & Ll0 & _).
      pose proof (labs_length _ _ _ F0) as Le0. pose proof (labs_length _ _ _ Fv) as Le.
      destruct (Nat.eqb_spec (length v0) (length v)) as [El|Nl]; simpl.
      + assert (Ed : ps_index (ek_prod_state k0) = d) by lia. rewrite Ed in *.
        assert (ls0 = ls) as -> by exact (lab_fun _ _ _ _ _ _ It0 It).
        destruct (merge_step lab v0 v ls Unchanged t L F0 Fv) as (c & t' & R & L' & X & A & Inc & Ch).
        unfold merge_values, change_iter. rewrite R. simpl. split; [exact L'|]. split; [exact S|]. split; [exact X|]. split; [exact A|].
        split; [apply incl_refl|]. split; [exists v0; auto|].
        destruct c; [|tauto]. destruct Ch as [Ch|(n & In_ & Ln)]; [discriminate|]. right. split; [reflexivity|].
        exists n. split; [|exact Ln]. unfold refs. apply in_flat_map. exists (mkk p d i, v0). auto.
      + split; [reflexivity|]. exists p, d, (ps_index (ek_prod_state k0)), i, ls, ls0. split; [exact It|]. split; [exact It0|]. lia.
    - split; [exact L|].
      assert (In' : forall k x, In (k, x) (bt_insert (mkk p d i) v s) -> (k = mkk p d i /\ x = v) \/ In (k, x) s).
      { clear - G. induction s as [|[k0 v0] s IH]; simpl in *.
        - intros k x [[= <- <-]|[]]. auto.
        - destruct (cmp (mkk p d i) k0) eqn:E; simpl; [discriminate| |].
          + intros k x [[= <- <-]|I]; auto.
          + intros k x [I|I]; [auto|]. destruct (IH G _ _ I); auto. }
      assert (In2 : In (mkk p d i, v) (bt_insert (mkk p d i) v s)).
      { clear - G. induction s as [|[k0 v0] s IH]; simpl in *; [auto|]. destruct (cmp (mkk p d i) k0); simpl; [discriminate|auto|right; auto]. }
      assert (In3 : incl s (bt_insert (mkk p d i) v s)).
      { clear - G. induction s as [|[k0 v0] s IH]; simpl in *; [intros x []|]. destruct (cmp (mkk p d i) k0) eqn:E; [discriminate| |].
        - intros x I. right. exact I.
        - intros x [I|I]; [left; exact I|right; exact (IH G x I)]. }
      split.
      { split; [apply bt_insert_sorted; apply S|]. intros k x I. apply In' in I. destruct I as [[-> ->]|I]; [|exact (proj2 S k x I)].
        exists ls. auto. }
      split; [apply ext_refl|]. split; [reflexivity|]. split; [exact In3|]. split.
      { exists v. split; [exact In2|]. apply Forall2_same. intros x y Iy. exact Iy. }
      left. rewrite <- (map_length fst s), <- (map_length fst (bt_insert _ _ _)).
      change (map fst (bt_insert (mkk p d i) v s)) with (bt_keys (bt_insert (mkk p d i) v s)). rewrite bt_keys_insert.
      rewrite bs_add_length_new; [unfold bt_keys; lia|].
      rewrite <- bt_mem_keys. unfold bt_mem. change (@Ord_Key T NT AK AV lay) with OK in G. rewrite G. reflexivity.
  Qed.

  Lemma refs_grow s s' t lab K n : SInv K s lab -> LInv t lab -> incl s s' -> In n (refs s) -> In n (refs s').
  Proof.
    intros _ _ I Ir. unfold refs in *. apply in_flat_map in Ir. destruct Ir as (x & Ix & J). apply in_flat_map. exists x. auto.
  Qed.

  Lemma inserts_step K lab : forall l c s t, LInv t lab -> SInv K s lab -> (forall st, In st l -> stok K lab st) ->
    match change_iter_from (insert lay) c l (s, t) with
    | Ret (c', (s', t')) => LInv t' lab /\ SInv K s' lab /\ ext t lab t' lab /\ in_alts t' = in_alts t /\ incl s s' /\
        (s' = s \/ length s < length s') /\
        (forall p d i v, In (mkst p d i v) l -> exists v', In (mkk p d i, v') s' /\ Forall2 (fun n n' => incl (nalts t n') (nalts t' n)) v' v) /\
        match c' with Unchanged => c = Unchanged /\ s' = s /\ t' = t | Changed => c = Changed \/ grew s t s' t' end
    | Panic m => clash g w lfl brl m K
    | NoFuel => False
    end.
  Proof.
    induction l as [|st l IH]; intros c s t L S Ok; cbn [change_iter_from].
    - split; [exact L|]. split; [exact S|]. split; [apply ext_refl|]. split; [reflexivity|]. split; [apply incl_refl|]. split; [auto|].
      split; [intros p d i v []|]. destruct c; auto.
    - destruct (st_eta st) as (p & d & i & v & ->). destruct (Ok _ (or_introl eq_refl)) as (ls & It & Fv). cbn in It, Fv.
      pose proof (insert_step K s t lab p d i v ls L S It Fv) as St.
      destruct (insert lay (mkst p d i v) (s, t)) as [[c1 [s1 t1]]|m|]; [|exact St|destruct St].
      destruct St as (L1 & S1 & X1 & A1 & I1 & P1 & Ch1). cbn [obind].
      assert (Len1 : s1 = s \/ length s < length s1).
      { destruct c1; [destruct Ch1 as [G|[-> _]]; auto|destruct Ch1 as [-> _]; auto]. }
      pose proof (IH (wc_join c c1) s1 t1 L1 S1 (fun st I => Ok st (or_intror I))) as St.
      destruct (change_iter_from _ _ _ _) as [[c' [s' t']]|m|]; [|exact St|destruct St].
      destruct St as (L2 & S2 & X2 & A2 & I2 & Len2 & P2 & Ch2).
      split; [exact L2|]. split; [exact S2|]. split; [exact (ext_trans _ _ _ _ _ _ X1 X2)|]. split; [congruence|].
      split; [intros x I; apply I2, I1; exact I|].
      assert (Len : s' = s \/ length s < length s').
      { destruct Len1 as [->|Len1]; [exact Len2|]. destruct Len2 as [->|Len2]; [auto|right; lia]. }
      split; [exact Len|]. split.
      + intros p' d' i' v' [[= -> -> -> ->]|I].
        * destruct P1 as (v1 & Iv1 & F1). exists v1. split; [apply I2; exact Iv1|].
          apply (Forall2_impl2 (fun n n' => incl (nalts t n') (nalts t1 n))); [|exact F1].
          intros x y Q z Iz. apply (ex_nalts _ _ _ _ X2), Q. exact Iz.
        * destruct (P2 _ _ _ _ I) as (v1 & Iv1 & F1). exists v1. split; [exact Iv1|].
          apply (Forall2_impl2 (fun n n' => incl (nalts t1 n') (nalts t' n))); [|exact F1].
          intros x y Q z Iz. apply Q, (ex_nalts _ _ _ _ X1). exact Iz.
      + assert (SL : forall x, length (nalts t x) <= length (nalts t1 x)).
        { intro x. apply sorted_incl_length; [apply (ti_sorted _ (li_t _ _ L))|]. apply (ex_nalts _ _ _ _ X1). }
        assert (SL2 : forall x, length (nalts t1 x) <= length (nalts t' x)).
        { intro x. apply sorted_incl_length; [apply (ti_sorted _ (li_t _ _ L1))|]. apply (ex_nalts _ _ _ _ X2). }
        destruct c'.
        * assert (X : c = Changed \/ c1 = Changed \/ grew s1 t1 s' t').
          { destruct Ch2 as [Ej|G]; [apply wc_join_Changed in Ej; tauto|auto]. }
          destruct X as [X|[->|G]]; [auto| |].
          -- right. destruct Len as [->|Len]; [|left; exact Len]. right. split; [reflexivity|].
             destruct Ch1 as [G|(-> & n & In_ & Ln)].
             ++ exfalso. destruct Len2 as [<-|Len2]; lia.
             ++ exists n. split; [exact In_|]. specialize (SL2 n). lia.
          -- right. destruct G as [G|(-> & n & In_ & Ln)]; [left; destruct Len1 as [<-|Len1]; lia|].
             destruct c1.
             ++ destruct Ch1 as [G|(-> & _)]; [left; exact G|]. right. split; [reflexivity|]. exists n. split; [exact In_|]. specialize (SL n). lia.
             ++ destruct Ch1 as [-> ->]. right. split; [reflexivity|]. exists n. auto.
        * destruct Ch2 as (Ej & -> & ->). apply wc_join_Unchanged in Ej. destruct Ej as [-> ->]. destruct Ch1 as [-> ->]. auto.
  Qed.

  (** ** Steps that only create nodes *)
  Record made t lab t' lab' (W : C -> Prop) : Prop := {
    md_inv : LInv t' lab';
    md_ext : ext t lab t' lab';
    md_old : forall m, node_ok t m -> nalts t' m = nalts t m;
    md_new : forall b c, acont t' b = Some c -> acont t b = Some c \/ W c
  }.
  Lemma made_refl t lab W : LInv t lab -> made t lab t lab W.
  Proof. intro L. constructor; [exact L|apply ext_refl|auto|auto]. Qed.
  Lemma made_trans t1 l1 t2 l2 t3 l3 (W1 W2 W : C -> Prop) : (forall c, W1 c -> W c) -> (forall c, W2 c -> W c) ->
    made t1 l1 t2 l2 W1 -> made t2 l2 t3 l3 W2 -> made t1 l1 t3 l3 W.
  Proof.
    intros I1 I2 M1 M2. constructor.
    - apply (md_inv _ _ _ _ _ M2).
    - exact (ext_trans _ _ _ _ _ _ (md_ext _ _ _ _ _ M1) (md_ext _ _ _ _ _ M2)).
    - intros m O. rewrite (md_old _ _ _ _ _ M2); [apply (md_old _ _ _ _ _ M1); exact O|].
      destruct (ex_tle _ _ _ _ (md_ext _ _ _ _ _ M1)) as [Le _]. unfold node_ok in *. lia.
    - intros b c E. destruct (md_new _ _ _ _ _ M2 b c E) as [E'|Wc]; [|auto]. destruct (md_new _ _ _ _ _ M1 b c E'); auto.
  Qed.
  Lemma made_acont t lab t' lab' W b c : made t lab t' lab' W -> acont t b = Some c -> acont t' b = Some c.
  Proof. intros M E. exact (proj2 (ex_tle _ _ _ _ (md_ext _ _ _ _ _ M)) b c E). Qed.
  Lemma made_keep t lab t' lab' W m a : made t lab t' lab' W -> nalts t m = [a] -> nalts t' m = [a].
  Proof.
    intros M E. rewrite (md_old _ _ _ _ _ M); [exact E|]. unfold node_ok. unfold nalts in E.
    destruct (nth_error (in_nodes t) m) eqn:X; [|discriminate]. exact (nth_lt _ _ _ X).
  Qed.

  (** ** The functions on states *)
  Lemma next_elem_mk (p : SP) d : next_elem (Build_ProdState p d) = nth_error (elements p) d.
  Proof. unfold next_elem, offset_elem, offset_prod_elem, elements, elements_iter. simpl. rewrite Nat.add_0_r, nth_error_map. reflexivity. Qed.
  Lemma next_elem_state_mk (p : SP) d :
    next_elem_state (Build_ProdState p d) = option_map (fun e => (e, Build_ProdState p (S d))) (nth_error (prod_elements p) d).
  Proof. unfold next_elem_state, next_prod_elem, offset_prod_elem. simpl. rewrite Nat.add_0_r, Nat.add_1_r. reflexivity. Qed.
  Lemma elements_nth (p : SP) d : nth_error (elements p) d = option_map pe_elem (nth_error (prod_elements p) d).
  Proof. unfold elements, elements_iter. apply nth_error_map. Qed.
  Lemma is_complete_mk (p : SP) d : is_complete (Build_ProdState p d) = Nat.eqb (length (elements p)) d.
  Proof. unfold is_complete, num_elements, elements, elements_iter. simpl. rewrite map_length. reflexivity. Qed.

  Lemma predict_In q d i v K st : In st (predict sg (mkst q d i v) K) <->
    exists p, st = mkst p 0 K [] /\ In p (prods sg) /\ nth_error (elements q) d = Some (NonTerm (p_head p)).
  Proof.
    unfold predict. cbn [es_key ek_prod_state mkst mkk]. rewrite next_elem_mk.
    destruct (nth_error (elements q) d) as [[tm|nt]|] eqn:E; cbn [as_nonterm].
    - split; [intros []|]. intros (p & _ & _ & E'). discriminate.
    - unfold try_get_rule. destruct (bt_get nt (rule_set sg)) as [r|] eqn:G.
      + rewrite in_map_iff. apply bt_get_iff in G; [|apply (sg_wf g)].
        assert (Eh : r_head r = nt) by exact (proj2 (sg_wf g) _ _ G).
        split.
        * intros (p & <- & Ip). exists p. split; [reflexivity|]. apply rule_prods_In in Ip. destruct Ip as [E1 E2].
          split; [|congruence]. apply (prods_In sg (sg_wf g)). exists r. rewrite E1, Eh. auto.
        * intros (p & -> & Ip & E'). injection E' as ->. exists p. split; [reflexivity|].
          apply (prods_In sg (sg_wf g)) in Ip. destruct Ip as (r' & I' & J). apply rule_prods_In.
          assert (r' = r) as -> by (apply bt_get_iff in I'; [|apply (sg_wf g)]; apply bt_get_iff in G; [|apply (sg_wf g)]; congruence).
          split; [congruence|exact J].
      + split; [intros []|]. intros (p & _ & Ip & E'). injection E' as ->.
        apply (prods_In sg (sg_wf g)) in Ip. destruct Ip as (r' & I' & J). apply bt_get_iff in I'; [|apply (sg_wf g)]. congruence.
    - split; [intros []|]. intros (p & _ & _ & E'). discriminate.
  Qed.

  Lemma states_In (s : ESet) st : In st (states s) <-> In (es_key st, es_value st) s.
  Proof.
    unfold states. rewrite in_map_iff. split.
    - intros ([k v] & <- & I). exact I.
    - intro I. exists (es_key st, es_value st). split; [destruct st; reflexivity|exact I].
  Qed.

  Lemma complete_key K p i ls : itm K p (length (elements p)) i ls -> exists ak, action_key p = ActionKey ak.
  Proof.
    intro It. pose proof It as F. apply (item_facts g Bg w) in F. destruct F as (_ & _ & _ & _ & Ip).
    destruct (sprod_inv g Bg p Ip) as [->|(A & ix & q & -> & _)].
    - apply (item_p0 g Bg w) in It; [|reflexivity]. simpl in It. lia.
    - exists (pi_action_key q). reflexivity.
  Qed.

  Lemma complete_from_step K p j v' ls' ak : action_key p = ActionKey ak -> itm K p (length (elements p)) j ls' ->
    forall sts t lab, LInv t lab -> labs lab v' ls' -> (forall st, In st sts -> stok j lab st) ->
    exists cl t' lab', complete_from (mkst p (length (elements p)) j v') sts t = Ret (cl, t') /\
      made t lab t' lab' (fun c => c = CBranch ak v') /\
      (forall st, In st cl -> stok K lab' st) /\
      (forall q d i v, In (mkst q d i v) sts -> nth_error (elements q) d = Some (NonTerm (p_head p)) ->
         exists m a, In (mkst q (S d) i (v ++ [m])) cl /\ nalts t' m = [a] /\ acont t' a = Some (CBranch ak v')).
  Proof.
    intros Ak It. induction sts as [|st sts IH]; intros t lab L Lv Ok.
    - exists [], t, lab. split; [reflexivity|]. split; [apply made_refl; exact L|]. split; [intros st []|]. intros q d i v [].
    - destruct (st_eta st) as (q & d & i & v & ->).
      assert (Skip : nth_error (elements q) d <> Some (NonTerm (p_head p)) ->
        exists cl t' lab', complete_from (mkst p (length (elements p)) j v') sts t = Ret (cl, t') /\
          made t lab t' lab' (fun c => c = CBranch ak v') /\
          (forall st, In st cl -> stok K lab' st) /\
          (forall q0 d0 i0 v0, In (mkst q0 d0 i0 v0) (mkst q d i v :: sts) -> nth_error (elements q0) d0 = Some (NonTerm (p_head p)) ->
             exists m a, In (mkst q0 (S d0) i0 (v0 ++ [m])) cl /\ nalts t' m = [a] /\ acont t' a = Some (CBranch ak v'))).
      { intro Nx. destruct (IH t lab L Lv (fun st I => Ok st (or_intror I))) as (cl & t' & lab' & R & M & O & Cv).
        exists cl, t', lab'. split; [exact R|]. split; [exact M|]. split; [exact O|].
        intros q0 d0 i0 v0 [[= <- <- <- <-]|I] E; [congruence|]. exact (Cv _ _ _ _ I E). }
      cbn [complete_from es_key ek_prod_state mkst mkk]. rewrite next_elem_state_mk.
      pose proof (elements_nth q d) as En. destruct (nth_error (prod_elements q) d) as [e|]; cbn [option_map] in *; [|apply Skip; congruence].
      destruct (pe_elem e) as [tm|nt] eqn:Ee; cbn [as_nonterm]; [apply Skip; congruence|].
      cbn [ps_prod]. destruct (eqb_spec nt (p_head p)) as [Eh|Nh]; [|apply Skip; congruence]. subst nt. clear Skip.
      assert (Eb : ps_action_key (Build_ProdState p (length (elements p))) = ActionKey ak) by exact Ak.
      rewrite Eb. cbn [as_base expect obind es_value ek_origin].
      destruct (Ok _ (or_introl eq_refl)) as (ls & Iq & Lq). cbn in Iq, Lq.
      destruct (make_branch_step t lab p j K ls' v' ak q d i ls L It Lv Ak Iq En) as (n & a & t1 & lab1 & R1 & L1 & X1 & Ln & Ea & Na & Old1 & New1).
      change (es_value (mkst p (length (elements p)) j v')) with v'. rewrite R1. cbn [obind].
      assert (M1 : made t lab t1 lab1 (fun c => c = CBranch ak v')).
      { constructor; [exact L1|exact X1|exact Old1|]. intros b c E. exact (New1 b c E). }
      destruct (IH t1 lab1 L1) as (cl & t' & lab' & R & M & O & Cv).
      { exact (labs_mono _ _ _ _ (ex_lab _ _ _ _ X1) Lv). }
      { intros st I. exact (stok_mono _ _ _ _ (ex_lab _ _ _ _ X1) (Ok st (or_intror I))). }
      rewrite R. cbn [obind].
      eexists _, t', lab'. split; [reflexivity|]. split.
      { apply (made_trans _ _ _ _ _ _ (fun c => c = CBranch ak v') (fun c => c = CBranch ak v')) with (3 := M1) (4 := M); auto. }
      split.
      + intros st [<-|I]; [|exact (O st I)]. exists (ls ++ [brl (q, d, i) p j K ls']). cbn. split.
        * apply it_complete; [exact Iq|exact En|exact It].
        * apply Forall2_app_one.
          -- exact (labs_mono _ _ _ _ (fun n l E => ex_lab _ _ _ _ (md_ext _ _ _ _ _ M) n l (ex_lab _ _ _ _ X1 n l E)) Lq).
          -- apply (ex_lab _ _ _ _ (md_ext _ _ _ _ _ M)). exact Ln.
      + intros q0 d0 i0 v0 [[= <- <- <- <-]|I] E.
        * exists n, a. split; [left; reflexivity|]. split; [exact (made_keep _ _ _ _ _ _ _ M Na)|exact (made_acont _ _ _ _ _ _ _ M Ea)].
        * destruct (Cv _ _ _ _ I E) as (m & b & I1 & N1 & A1). exists m, b. split; [right; exact I1|auto].
  Qed.

  (** The content a complete entry stands for. *)
  Definition wanted (s : ESet) (c : C) : Prop :=
    exists p i v ak, In (mkk p (length (elements p)) i, v) s /\ action_key p = ActionKey ak /\ c = CBranch ak v.

  Lemma closure_step K (prev : list ESet) (cur : ESet) : length prev = K ->
    forall sts t lab, LInv t lab ->
    (forall j s, nth_error prev j = Some s -> SInv j s lab) -> SInv K cur lab -> (forall st, In st sts -> In st (states cur)) ->
    exists cl t' lab', closure_of sg sts prev cur t = Ret (cl, t') /\
      made t lab t' lab' (wanted cur) /\
      (forall st, In st cl -> stok K lab' st) /\
      (forall q d i v p, In (mkst q d i v) sts -> nth_error (elements q) d = Some (NonTerm (p_head p)) -> In p (prods sg) ->
         In (mkst p 0 K []) cl) /\
      (forall p j v' sj q d i v, In (mkst p (length (elements p)) j v') sts -> nth_error (prev ++ [cur]) j = Some sj ->
         In (mkk q d i, v) sj -> nth_error (elements q) d = Some (NonTerm (p_head p)) ->
         exists m a ak, In (mkst q (S d) i (v ++ [m])) cl /\ nalts t' m = [a] /\ action_key p = ActionKey ak /\ acont t' a = Some (CBranch ak v')).
  Proof.
    intro LK. induction sts as [|st sts IH]; intros t lab L Sp Sc Sub.
    - exists [], t, lab. split; [reflexivity|]. split; [apply made_refl; exact L|]. split; [intros st []|]. split; [intros q d i v p []|]. intros p j v' sj q d i v [].
    - destruct (st_eta st) as (p & d & i & v & ->).
      pose proof (Sub _ (or_introl eq_refl)) as Ic. apply states_In in Ic. cbn in Ic.
      destruct (SInv_entry _ _ _ _ _ _ _ Sc Ic) as (ls & It & Lv).
      cbn [closure_of].
      assert (St : exists cl1 t1 lab1, complete (mkst p d i v) prev cur t = Ret (cl1, t1) /\ made t lab t1 lab1 (wanted cur) /\
                (forall st, In st cl1 -> stok K lab1 st) /\
                (d = length (elements p) -> forall sj q d' i' v1, nth_error (prev ++ [cur]) i = Some sj ->
                   In (mkk q d' i', v1) sj -> nth_error (elements q) d' = Some (NonTerm (p_head p)) ->
                   exists m a ak, In (mkst q (S d') i' (v1 ++ [m])) cl1 /\ nalts t1 m = [a] /\ action_key p = ActionKey ak /\ acont t1 a = Some (CBranch ak v))).
      { unfold complete. cbn [es_key ek_prod_state mkst mkk ek_origin]. rewrite is_complete_mk.
        destruct (Nat.eqb_spec (length (elements p)) d) as [Ed|Nd].
        - subst d. destruct (complete_key _ _ _ _ It) as (ak & Ak).
          assert (Og : exists sj, (if Nat.eqb i (length prev) then Ret cur else expect (nth_error prev i) "index out of bounds") = Ret sj /\
                     nth_error (prev ++ [cur]) i = Some sj /\ SInv i sj lab).
          { destruct (item_facts g Bg w lfl brl _ _ _ _ _ It) as (Li & _). destruct (Nat.eqb_spec i (length prev)) as [E|N].
            - exists cur. split; [reflexivity|]. rewrite nth_error_snoc, E, Nat.eqb_refl. split; [reflexivity|]. rewrite LK. exact Sc.
            - destruct (nth_error prev i) as [sj|] eqn:E; [|apply nth_error_None in E; lia].
              exists sj. split; [reflexivity|]. split; [|exact (Sp i sj E)]. rewrite nth_error_app1 by exact (nth_lt _ _ _ E). exact E. }
          destruct Og as (sj & R0 & E0 & Sj). rewrite R0. cbn [obind].
          destruct (complete_from_step K p i v ls ak Ak It (states sj) t lab L Lv) as (cl & t' & lab' & R & M & O & Cv).
          { intros st I. apply states_In in I. exact (proj2 Sj _ _ I). }
          exists cl, t', lab'. split; [exact R|]. split.
          { apply (made_trans _ _ _ _ _ _ (fun c => c = CBranch ak v) (fun c => c = CBranch ak v)) with (3 := made_refl t lab _ L) (4 := M);
              intros c ->; exists p, i, v, ak; auto. }
          split; [exact O|]. intros _ sj' q d' i' v1 E1 I1 N1. rewrite E0 in E1. injection E1 as <-.
          destruct (Cv q d' i' v1) as (m & a & X1 & X2 & X3); [apply states_In; exact I1|exact N1|]. exists m, a, ak. auto.
        - exists [], t, lab. split; [reflexivity|]. split; [apply made_refl; exact L|]. split; [intros st []|]. congruence. }
      destruct St as (cl1 & t1 & lab1 & R1 & M1 & O1 & Cv1). rewrite R1. cbn [obind].
      pose proof (ex_lab _ _ _ _ (md_ext _ _ _ _ _ M1)) as Lx1.
      destruct (IH t1 lab1 (md_inv _ _ _ _ _ M1)) as (cl2 & t2 & lab2 & R2 & M2 & O2 & P2 & Cv2).
      { intros j s E. exact (SInv_mono _ _ _ _ Lx1 (Sp j s E)). }
      { exact (SInv_mono _ _ _ _ Lx1 Sc). }
      { intros st I. apply Sub. right. exact I. }
      rewrite R2. cbn [obind]. pose proof (ex_lab _ _ _ _ (md_ext _ _ _ _ _ M2)) as Lx2.
      eexists _, t2, lab2. split; [reflexivity|]. split; [exact (made_trans _ _ _ _ _ _ (wanted cur) (wanted cur) (wanted cur) (fun _ x => x) (fun _ x => x) M1 M2)|].
      split; [|split].
      + intros st I. rewrite !in_app_iff in I. destruct I as [[I|I]|I].
        * apply predict_In in I. destruct I as (p' & -> & Ip & En). exists []. cbn. split; [|constructor].
          rewrite LK. exact (it_predict g w lfl brl K p d i ls p' It En Ip).
        * exact (stok_mono _ _ _ _ Lx2 (O1 st I)).
        * exact (O2 st I).
      + intros q d' i' v0 p' [E|I] En Ip; rewrite !in_app_iff.
        * injection E as <- <- <- <-. left. left. apply predict_In. exists p'. rewrite LK. auto.
        * right. exact (P2 _ _ _ _ _ I En Ip).
      + intros p' j v' sj q d' i' v0 [E|I] Ej Iv En.
        * injection E as <- -> <- <-. destruct (Cv1 eq_refl sj q d' i' v0 Ej Iv En) as (m & a & ak & X1 & X2 & X3 & X4).
          exists m, a, ak. rewrite !in_app_iff. split; [auto|]. split; [exact (made_keep _ _ _ _ _ _ _ M2 X2)|]. split; [exact X3|exact (made_acont _ _ _ _ _ _ _ M2 X4)].
        * destruct (Cv2 _ _ _ _ _ _ _ _ I Ej Iv En) as (m & a & ak & X1 & X2). exists m, a, ak. rewrite !in_app_iff. auto.
  Qed.

  (** ** One round, and termination of the loop *)
  Definition Closed (K : nat) (prev : list ESet) (s : ESet) t : Prop :=
    (forall q d i v p, In (mkk q d i, v) s -> nth_error (elements q) d = Some (NonTerm (p_head p)) -> In p (prods sg) ->
       In (mkk p 0 K, []) s) /\
    (forall p j v' sj q d i v, In (mkk p (length (elements p)) j, v') s -> nth_error (prev ++ [s]) j = Some sj ->
       In (mkk q d i, v) sj -> nth_error (elements q) d = Some (NonTerm (p_head p)) ->
       exists v1 m1 a ak, In (mkk q (S d) i, v1 ++ [m1]) s /\ Forall2 (fun n1 n => incl (nalts t n) (nalts t n1)) v1 v /\
         In a (nalts t m1) /\ acont t a = Some (CBranch ak v') /\ action_key p = ActionKey ak).

  Definition bound (K : nat) : nat := length (prods sg) * S K.
  Lemma SInv_bound K s lab : SInv K s lab -> length s <= bound K.
  Proof.
    intros [S I].
    set (f := fun kv : Key * list nat => (ps_prod (ek_prod_state (fst kv)), ek_origin (fst kv))).
    rewrite <- (map_length f s). unfold bound. rewrite <- (seq_length (Datatypes.S K) 0), <- prod_length.
    apply NoDup_incl_length.
    - assert (Ip : forall k v, In (k, v) s -> In (ps_prod (ek_prod_state k)) (prods sg)).
      { intros k v Iv. destruct (I k v Iv) as (ls & It & _). apply (item_facts g Bg w) in It. cbn [es_key] in It. tauto. }
      clear I. unfold msorted in S. induction s as [|[k v] s IH]; simpl; [constructor|]. simpl in S.
      destruct (sorted_inv _ _ S) as [S' F]. constructor; [|apply IH; [exact S'|intros k' v' Iv; apply (Ip k' v'); right; exact Iv]].
      intro Im. apply in_map_iff in Im. destruct Im as ([k' v'] & E & Iv). unfold f in E. simpl in E. injection E as E1 E2.
      rewrite Forall_forall in F. assert (L : cmp k k' = Lt) by (apply F; apply (in_map fst) in Iv; exact Iv).
      rewrite key_cmp, E1, E2, cmp_refl in L. discriminate.
    - intros x Ix. apply in_map_iff in Ix. destruct Ix as ([k v] & <- & Iv). unfold f. cbn [fst].
      destruct (I k v Iv) as (ls & It & _). apply (item_facts g Bg w) in It. cbn [es_key] in It. apply in_prod; [tauto|]. apply in_seq. lia.
  Qed.

  Definition lacking t (kv : Key * list nat) : bool :=
    match as_base (action_key (ps_prod (ek_prod_state (fst kv)))) with
    | Some ak => match bt_get (CBranch ak (snd kv)) (value_to_id (in_alts t)) with None => true | Some _ => false end
    | None => false
    end.
  Definition m1 K (s : ESet) : nat := bound K - length s.
  Definition m2 (s : ESet) t : nat := length (filter (lacking t) s).
  Definition m3 (s : ESet) t : nat := list_sum (map (fun n => length (id_to_value (in_alts t)) - length (nalts t n)) (refs s)).
  Definition dec K (x' x : ESet * tree) : Prop :=
    m1 K (fst x') < m1 K (fst x) \/ (m1 K (fst x') <= m1 K (fst x) /\
      (m2 (fst x') (snd x') < m2 (fst x) (snd x) \/ (m2 (fst x') (snd x') <= m2 (fst x) (snd x) /\
         m3 (fst x') (snd x') < m3 (fst x) (snd x)))).
  Lemma dec_wf K : well_founded (dec K).
  Proof.
    assert (X : forall a b c x, m1 K (fst x) <= a -> m2 (fst x) (snd x) <= b -> m3 (fst x) (snd x) <= c -> Acc (dec K) x).
    { induction a as [a IHa] using lt_wf_ind. induction b as [b IHb] using lt_wf_ind. induction c as [c IHc] using lt_wf_ind.
      intros x La Lb0 Lc. constructor. intros y [D|(D1 & [D|(D2 & D)])].
      - apply (IHa (m1 K (fst y)) ltac:(lia) (m2 (fst y) (snd y)) (m3 (fst y) (snd y)) y); lia.
      - apply (IHb (m2 (fst y) (snd y)) ltac:(lia) (m3 (fst y) (snd y)) y); lia.
      - apply (IHc (m3 (fst y) (snd y)) ltac:(lia) y); lia. }
    intro x. exact (X _ _ _ x (le_n _) (le_n _) (le_n _)).
  Qed.

  Lemma nalts_bound t n : TInv t -> length (nalts t n) <= length (id_to_value (in_alts t)).
  Proof.
    intro I. rewrite <- (seq_length (length (id_to_value (in_alts t))) 0). apply NoDup_incl_length.
    - apply sorted_NoDup. apply (ti_sorted _ I).
    - intros a Ia. apply in_seq. destruct (ti_alts _ I n a Ia) as (c & E). apply nth_lt in E. lia.
  Qed.
  Lemma lacking_mono t t' kv : TInv t -> TInv t' -> (forall a c, acont t a = Some c -> acont t' a = Some c) -> lacking t' kv = true -> lacking t kv = true.
  Proof.
    intros I I' Keep. unfold lacking. destruct (as_base _) as [ak|]; [|auto].
    destruct (bt_get (CBranch ak (snd kv)) (value_to_id (in_alts t))) as [a|] eqn:E; [|reflexivity].
    apply (ti_ids _ I) in E. apply Keep in E. apply (ti_ids _ I') in E. rewrite E. auto.
  Qed.
  Lemma sum_lt {A} (f f' : A -> nat) l x : (forall y, In y l -> f' y <= f y) -> In x l -> f' x < f x -> list_sum (map f' l) < list_sum (map f l).
  Proof.
    induction l as [|y l IH]; intros Le Ix Lx; [destruct Ix|]. simpl.
    assert (list_sum (map f' l) <= list_sum (map f l)).
    { clear - Le. induction l as [|z l IH]; simpl; [lia|]. assert (f' z <= f z) by (apply Le; right; left; reflexivity).
      assert (list_sum (map f' l) <= list_sum (map f l)) by (apply IH; intros u [->|Iu]; apply Le; [left; reflexivity|right; right; exact Iu]). lia. }
    destruct Ix as [->|Ix]; [lia|]. assert (f' y <= f y) by (apply Le; left; reflexivity).
    assert (list_sum (map f' l) < list_sum (map f l)) by (apply IH; auto; intros z Iz; apply Le; right; exact Iz). lia.
  Qed.
  Lemma refs_ok K s lab t n : SInv K s lab -> LInv t lab -> In n (refs s) -> node_ok t n.
  Proof.
    intros [_ I] L Ir. apply in_flat_map in Ir. destruct Ir as ([k v] & Iv & J). simpl in J.
    destruct (I k v Iv) as (ls & _ & Fv). pose proof (labs_ok _ _ _ _ L Fv) as F. rewrite Forall_forall in F. exact (F n J).
  Qed.

  Lemma round_step K prev s t lab : length prev = K -> LInv t lab ->
    (forall j s, nth_error prev j = Some s -> SInv j s lab) -> SInv K s lab ->
    match close_round lay sg prev (s, t) with
    | Ret (c, (s', t')) => exists lab', LInv t' lab' /\ SInv K s' lab' /\ ext t lab t' lab' /\ incl s s' /\
        match c with Unchanged => Closed K prev s' t' | Changed => dec K (s', t') (s, t) end
    | Panic m => clash g w lfl brl m K
    | NoFuel => False
    end.
  Proof.
    intros LK L Sp Sc. unfold close_round.
    destruct (closure_step K prev s LK (states s) t lab L Sp Sc (fun _ I => I)) as (cl & t1 & lab1 & R & M & O & P1 & P2).
    rewrite R. cbn [obind]. unfold change_iter. pose proof (ex_lab _ _ _ _ (md_ext _ _ _ _ _ M)) as Lx.
    pose proof (inserts_step K lab1 cl Unchanged s t1 (md_inv _ _ _ _ _ M) (SInv_mono _ _ _ _ Lx Sc) O) as St.
    destruct (change_iter_from _ _ _ _) as [[c [s' t']]|m|]; [|exact St|destruct St].
    destruct St as (L' & S' & X' & A' & Inc & Len & Cov & Ch).
    exists lab1. split; [exact L'|]. split; [exact S'|]. split; [exact (ext_trans _ _ _ _ _ _ (md_ext _ _ _ _ _ M) X')|]. split; [exact Inc|].
    destruct c.
    - destruct Ch as [Ch|[Gr|(-> & n & In_ & Ln)]]; [discriminate| |].
      + left. cbn [fst]. unfold m1. pose proof (SInv_bound _ _ _ S'). lia.
      + right. cbn [fst snd]. split; [lia|].
        assert (Keep : forall a c, acont t a = Some c -> acont t' a = Some c).
        { intros a c E. apply (made_acont _ _ _ _ _ _ _ M) in E. exact (proj2 (ex_tle _ _ _ _ X') a c E). }
        assert (LM : forall x, In x s -> lacking t' x = true -> lacking t x = true).
        { intros x _. apply lacking_mono; [exact (li_t _ _ L)|exact (li_t _ _ L')|exact Keep]. }
        assert (LE : length (id_to_value (in_alts t)) <= length (id_to_value (in_alts t'))).
        { destruct (Nat.le_gt_cases (length (id_to_value (in_alts t))) (length (id_to_value (in_alts t')))) as [X|X]; [exact X|].
          destruct (acont t (length (id_to_value (in_alts t')))) as [c|] eqn:E.
          - apply Keep in E. apply nth_lt in E. lia.
          - apply nth_error_None in E. lia. }
        destruct (Nat.eq_dec (length (id_to_value (in_alts t))) (length (id_to_value (in_alts t')))) as [El|Nl].
        * right. split; [exact (filter_length_le _ _ _ LM)|]. unfold m3.
          apply (sum_lt _ _ _ n); [| exact In_|].
          -- intros y Iy. pose proof (refs_ok _ _ _ _ _ Sc L Iy) as Oy. rewrite <- El.
             assert (length (nalts t1 y) <= length (nalts t' y)) by (apply sorted_incl_length; [apply (ti_sorted _ (li_t _ _ (md_inv _ _ _ _ _ M)))|apply (ex_nalts _ _ _ _ X')]).
             rewrite (md_old _ _ _ _ _ M y Oy) in H7. lia.
          -- pose proof (refs_ok _ _ _ _ _ Sc L In_) as On. rewrite (md_old _ _ _ _ _ M n On) in Ln. rewrite <- El.
             pose proof (nalts_bound t' n (li_t _ _ L')). lia.
        * left. unfold m2.
          destruct (acont t' (length (id_to_value (in_alts t)))) as [c|] eqn:E; [|apply nth_error_None in E; lia].
          assert (E1 : acont t1 (length (id_to_value (in_alts t))) = Some c) by (unfold acont in *; rewrite <- A'; exact E).
          destruct (md_new _ _ _ _ _ M _ _ E1) as [E2|(p & i & v & ak & Iv & Ak & ->)]; [apply nth_lt in E2; lia|].
          apply (filter_length_lt _ _ _ (mkk p (length (elements p)) i, v)); [exact LM|exact Iv| |].
          -- unfold lacking. cbn. rewrite Ak. cbn. apply (ti_ids _ (li_t _ _ L')) in E. rewrite E. reflexivity.
          -- unfold lacking. cbn. rewrite Ak. cbn. destruct (bt_get _ _) as [a|] eqn:G; [|reflexivity].
             exfalso. apply (ti_ids _ (li_t _ _ L)) in G. pose proof (nth_lt _ _ _ G) as Lg. apply Keep in G.
             pose proof (acont_inj t' _ _ _ (li_t _ _ L') E G). lia.
    - destruct Ch as (_ & -> & ->). split.
      + intros q d i v p Iv En Ip. destruct (Cov p 0 K []) as (v' & Iv' & F).
        * apply (P1 q d i v p); auto. apply states_In. exact Iv.
        * inversion F; subst. exact Iv'.
      + intros p j v' sj q d i v Iv Ej Ij En.
        destruct (P2 p j v' sj q d i v) as (m & a & ak & I1 & N1 & Ak & Ea); auto; [apply states_In; exact Iv|].
        destruct (Cov _ _ _ _ I1) as (v1 & Iv1 & F). apply Forall2_app_inv_r in F.
        destruct F as (v2 & v3 & F1 & F2 & ->). inversion F2 as [|m1 x y z Im Fz]; subst. inversion Fz; subst.
        exists v2, m1, a, ak. split; [exact Iv1|]. split; [exact F1|]. split; [apply Im; rewrite N1; left; reflexivity|]. auto.
  Qed.

  (** ** Closing a set *)
  Lemma close_step K prev s0 t0 lab0 : length prev = K -> LInv t0 lab0 ->
    (forall j s, nth_error prev j = Some s -> SInv j s lab0) -> SInv K s0 lab0 ->
    exists r, runs_to (close_state lay sg prev (s0, t0)) r /\
      match r with
      | Ret (s, t) => s0 <> [] /\ exists lab, LInv t lab /\ SInv K s lab /\ ext t0 lab0 t lab /\ incl s0 s /\ Closed K prev s t
      | Panic m => (m = "assertion failed: !new_state.is_empty()"%string /\ s0 = []) \/ clash g w lfl brl m K
      | NoFuel => False
      end.
  Proof.
    intros LK L Sp Sc. destruct s0 as [|kv s0'] eqn:E0.
    - exists (Panic "assertion failed: !new_state.is_empty()"). split; [|auto]. apply runs_to_const. discriminate.
    - rewrite <- E0 in *. assert (NE : s0 <> []) by (subst; discriminate).
      destruct (change_loop_wf (close_round lay sg prev)
        (fun x => exists lab, LInv (snd x) lab /\ SInv K (fst x) lab /\ ext t0 lab0 (snd x) lab /\ incl s0 (fst x))
        (dec K)
        (fun x => exists lab, LInv (snd x) lab /\ SInv K (fst x) lab /\ ext t0 lab0 (snd x) lab /\ incl s0 (fst x) /\ Closed K prev (fst x) (snd x))
        (fun m : string => clash g w lfl brl m K) (dec_wf K)) with (s := (s0, t0)) as (r & Rr & Pr).
      + intros [s t] (lab & L1 & S1 & X1 & I1). cbn [fst snd] in *.
        pose proof (round_step K prev s t lab LK L1 (fun j s E => SInv_mono _ _ _ _ (ex_lab _ _ _ _ X1) (Sp j s E)) S1) as St.
        destruct (close_round lay sg prev (s, t)) as [[c [s' t']]|m|]; [|exact St|exact St].
        destruct St as (lab' & L2 & S2 & X2 & I2 & Ch). destruct c.
        * split; [|exact Ch]. exists lab'. cbn [fst snd]. split; [exact L2|]. split; [exact S2|]. split; [exact (ext_trans _ _ _ _ _ _ X1 X2)|].
          intros x Ix. apply I2, I1. exact Ix.
        * exists lab'. cbn [fst snd]. split; [exact L2|]. split; [exact S2|]. split; [exact (ext_trans _ _ _ _ _ _ X1 X2)|].
          split; [intros x Ix; apply I2, I1; exact Ix|exact Ch].
      + exists lab0. cbn [fst snd]. split; [exact L|]. split; [exact Sc|]. split; [apply ext_refl|apply incl_refl].
      + exists r. split.
        * apply (runs_to_ext (fun n => change_loop (close_round lay sg prev) n (s0, t0))); [|exact Rr].
          intro n. unfold close_state. cbn [fst]. rewrite E0. reflexivity.
        * destruct r as [[s t]|m|]; [|auto|exact Pr]. split; [exact NE|]. destruct Pr as (lab & X). exists lab. exact X.
  Qed.

  (** ** Shifting a token *)
  Lemma scan_mk q d i v tok t : scan (mkst q d i v) tok t =
    match nth_error (elements q) d with
    | Some (Term tm) =>
        if has_kind tm (tk_kind tok) then
          '(node, t') <- in_make_leaf_node (tk_kind tok) (tk_value tok) t ;;
          Ret (Some (mkst q (S d) i (v ++ [node])), t')
        else Ret (None, t)
    | _ => Ret (None, t)
    end.
  Proof.
    unfold scan. cbn [es_key ek_prod_state mkst mkk ek_origin]. rewrite next_elem_state_mk, elements_nth.
    destruct (nth_error (prod_elements q) d) as [e|]; [|reflexivity]. cbn [option_map]. destruct (pe_elem e); reflexivity.
  Qed.
  Lemma scans_step K tok : nth_error w K = Some tok -> forall sts t lab s, LInv t lab -> SInv (S K) s lab ->
    (forall st, In st sts -> stok K lab st) ->
    match from_scans lay sts tok (s, t) with
    | Ret (s', t') => exists lab', LInv t' lab' /\ SInv (S K) s' lab' /\ ext t lab t' lab' /\ incl s s' /\
        (forall q d i v, In (mkst q d i v) sts -> nth_error (elements q) d = Some (Term (STerm (tk_kind tok))) ->
           exists v1 m1 a, In (mkk q (S d) i, v1 ++ [m1]) s' /\ Forall2 (fun n1 n => incl (nalts t n) (nalts t' n1)) v1 v /\
             In a (nalts t' m1) /\ acont t' a = Some (CLeaf (tk_kind tok) (tk_value tok)))
    | Panic m => clash g w lfl brl m (S K)
    | NoFuel => False
    end.
  Proof.
    intro Ek. induction sts as [|st sts IH]; intros t lab s L S Ok.
    - cbn [from_scans]. exists lab. split; [exact L|]. split; [exact S|]. split; [apply ext_refl|]. split; [apply incl_refl|]. intros q d i v [].
    - destruct (st_eta st) as (q & d & i & v & ->). cbn [from_scans]. rewrite scan_mk.
      destruct (Ok _ (or_introl eq_refl)) as (ls & It & Fv). cbn in It, Fv.
      assert (Skip : nth_error (elements q) d <> Some (Term (STerm (tk_kind tok))) ->
        match from_scans lay sts tok (s, t) with
        | Ret (s', t') => exists lab', LInv t' lab' /\ SInv (Datatypes.S K) s' lab' /\ ext t lab t' lab' /\ incl s s' /\
            (forall q0 d0 i0 v0, In (mkst q0 d0 i0 v0) (mkst q d i v :: sts) -> nth_error (elements q0) d0 = Some (Term (STerm (tk_kind tok))) ->
               exists v1 m1 a, In (mkk q0 (Datatypes.S d0) i0, v1 ++ [m1]) s' /\ Forall2 (fun n1 n => incl (nalts t n) (nalts t' n1)) v1 v0 /\
                 In a (nalts t' m1) /\ acont t' a = Some (CLeaf (tk_kind tok) (tk_value tok)))
        | Panic m => clash g w lfl brl m (Datatypes.S K)
        | NoFuel => False
        end).
      { intro Nx. pose proof (IH t lab s L S (fun st I => Ok st (or_intror I))) as St.
        destruct (from_scans lay sts tok (s, t)) as [[s' t']|m|]; [|exact St|exact St].
        destruct St as (lab' & L' & S' & X' & I' & Cv). exists lab'. repeat (split; [assumption|]).
        intros q0 d0 i0 v0 [[= <- <- <- <-]|I] E; [congruence|]. exact (Cv _ _ _ _ I E). }
      destruct (nth_error (elements q) d) as [[[|k]|nt]|] eqn:En; cbn [has_kind obind]; try (apply Skip; congruence).
      destruct (eqb_spec k (tk_kind tok)) as [->|Nk]; [|apply Skip; congruence]. clear Skip.
      destruct (make_leaf_step t lab K tok q d i ls L Ek It En) as (n & a & t1 & lab1 & R1 & L1 & X1 & Ln & Ea & Na).
      rewrite R1. cbn [obind]. pose proof (ex_lab _ _ _ _ X1) as Lx.
      assert (It1 : itm (Datatypes.S K) q (Datatypes.S d) i (ls ++ [lfl (q, d, i) K tok])) by exact (it_scan g w lfl brl K q d i ls tok It En Ek).
      assert (Fv1 : labs lab1 (v ++ [n]) (ls ++ [lfl (q, d, i) K tok])) by (apply Forall2_app_one; [exact (labs_mono _ _ _ _ Lx Fv)|exact Ln]).
      pose proof (insert_step (Datatypes.S K) s t1 lab1 q (Datatypes.S d) i (v ++ [n]) _ L1 (SInv_mono _ _ _ _ Lx S) It1 Fv1) as St.
      destruct (insert lay (mkst q (Datatypes.S d) i (v ++ [n])) (s, t1)) as [[c [s2 t2]]|m|]; [|exact St|exact St].
      destruct St as (L2 & S2 & X2 & _ & I2 & (v' & Iv' & F') & _). cbn [obind].
      pose proof (IH t2 lab1 s2 L2 S2 (fun st I => stok_mono _ _ _ _ Lx (Ok st (or_intror I)))) as St.
      destruct (from_scans lay sts tok (s2, t2)) as [[s' t']|m|]; [|exact St|exact St].
      destruct St as (lab' & L' & S' & X' & I' & Cv). exists lab'. split; [exact L'|]. split; [exact S'|].
      split; [exact (ext_trans _ _ _ _ _ _ X1 (ext_trans _ _ _ _ _ _ X2 X'))|]. split; [intros x Ix; apply I', I2; exact Ix|].
      intros q0 d0 i0 v0 [E|I] E0.
      + injection E as <- <- <- <-. apply Forall2_app_inv_r in F'. destruct F' as (v2 & v3 & F1 & F2 & ->).
        inversion F2 as [|m1 x y z Im Fz]; subst. inversion Fz; subst. exists v2, m1, a.
        split; [apply I'; exact Iv'|]. split.
        * apply (Forall2_impl2 (fun n n' => incl (nalts t1 n') (nalts t2 n))); [|exact F1].
          intros x y Q z0 Iz. apply (ex_nalts _ _ _ _ X'), Q, (ex_nalts _ _ _ _ X1). exact Iz.
        * split; [apply (ex_nalts _ _ _ _ X'), Im; rewrite Na; left; reflexivity|].
          apply (proj2 (ex_tle _ _ _ _ X')), (proj2 (ex_tle _ _ _ _ X2)). exact Ea.
      + destruct (Cv _ _ _ _ I E0) as (v1 & m1 & b & J1 & J2 & J3 & J4). exists v1, m1, b. split; [exact J1|]. split; [|auto].
        apply (Forall2_impl2 (fun n n' => incl (nalts t2 n') (nalts t' n))); [|exact J2].
        intros x y Q z0 Iz. apply Q, (ex_nalts _ _ _ _ X2), (ex_nalts _ _ _ _ X1). exact Iz.
  Qed.
End Run.
