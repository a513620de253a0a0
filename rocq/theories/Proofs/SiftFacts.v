(** Exactly the derivation trees of the input, out of any forest. *)
From Coq Require Import String List Arith Lia Bool.
From Verif.Model Require Import Ord BTree Outcome Grammar Tokens Tree.
From Verif.Spec Require Import Reach Cfg TreeSpec EarleySpec SizeSpec AmbigSpec WalkSpec SiftSpec.
From Verif.Proofs Require Import UtilsFacts OrdFacts BTreeFacts LoopFacts NullableFacts TreeFacts EarleyItems EarleyParse EarleyMore EarleySize AmbigFacts WalkFacts.
Import ListNotations.

(** ** The programs *)
Section Walk.
  Context {T AK V : Type}.
  Variable W : world T AK V.
  Variable h : TreeHandle.
  Variable t : Inner T AK V.
  Hypothesis At : nth_error W h = Some t.
  Local Notation pt := (ptree T AK V).
  Local Notation N n := {| nd_index := n; nd_inner := h |}.
  Local Notation Al a := {| al_index := a; al_inner := h |}.

  Definition maxh (cs : list pt) : nat := fold_right (fun c h => max (height c) h) 0 cs.
  Lemma height_branch x cs : height (PBranch x cs : pt) = 1 + maxh cs.
  Proof. reflexivity. Qed.
  Lemma maxh_le cs k : maxh cs <= k <-> Forall (fun c => height c <= k) cs.
  Proof.
    unfold maxh. induction cs as [|c cs IH]; simpl; [split; [constructor|lia]|]. split.
    - intro L. constructor; [lia|]. apply IH. lia.
    - intro F. inversion F; subst. apply Nat.max_lub; [assumption|]. apply IH. assumption.
  Qed.
  Lemma height_pos (tr : pt) : 1 <= height tr.
  Proof. destruct tr; simpl; lia. Qed.

  Lemma each_all {A B} (f : A -> outcome B) (Q : A -> B -> Prop) l : (forall x, In x l -> exists y, f x = Ret y /\ Q x y) ->
    exists ys, each f l = Ret ys /\ Forall2 Q l ys.
  Proof.
    induction l as [|x l IH]; intro F; cbn [each]; [exists []; split; [reflexivity|constructor]|].
    destruct (F x (or_introl eq_refl)) as (y & E & Qy). destruct IH as (ys & Es & Qs); [intros z I; apply F; right; exact I|].
    exists (y :: ys). rewrite E, Es. split; [reflexivity|constructor; assumption].
  Qed.
  Lemma Forall2_upto k (css : list (list pt)) ns : Forall2 (fun n l => forall tr, In tr l <-> reads t n tr /\ height tr <= k) ns css ->
    forall cs, Forall2 (fun c l => In c l) cs css <-> reads_all t ns cs /\ maxh cs <= k.
  Proof.
    induction 1 as [|n l ns css E _ IH]; intro cs.
    - split; [intro F; inversion F; subst; split; [constructor|unfold maxh; simpl; lia]|intros [R _]; inversion R; constructor].
    - split.
      + intro F. inversion F as [|c l' cs' css' I F' E1 E2]; subst. apply E in I as [R L]. apply IH in F' as [Rs Ls].
        split; [constructor; assumption|]. unfold maxh in *. simpl. lia.
      + intros [R L]. inversion R as [|n' ns' c cs' Rc Rs E1 E2]; subst. unfold maxh in L. simpl in L. constructor; [apply E; split; [exact Rc|lia]|].
        apply IH. split; [exact Rs|]. unfold maxh. lia.
  Qed.
  Lemma upto_lists k : forall n, live t n -> exists l, trees_upto W k (N n) = Ret l /\ forall tr, In tr l <-> reads t n tr /\ height tr <= k.
  Proof.
    induction k as [|k IH]; intros n L.
    - exists []. split; [reflexivity|]. intro tr. split; [intros []|intros [_ L0]; pose proof (height_pos tr); lia].
    - destruct (L n (star_refl _ _)) as (s & G & _ & _). cbn [trees_upto]. rewrite (alts_at W h t At _ _ G). cbn [obind].
      match goal with |- exists l, obind (each ?f _) _ = _ /\ _ =>
        destruct (each_all f (fun a l => forall tr, In tr l <-> reads_alt t (al_index a) tr /\ height tr <= S k) (map (fun a => Al a) s)) as (trs & Et & F) end.
      + intros a I. apply in_map_iff in I as (a0 & <- & I). cbn [al_index]. destruct (live_alt t n s a0 L G I) as (c & Ec).
        rewrite (content_at W h t At), Ec. destruct c as [x v|x ns]; cbn [obind].
        * eexists. split; [reflexivity|]. intro tr. split.
          -- intros [<-|[]]. split; [constructor; exact Ec|simpl; lia].
          -- intros [[x' v' E'|x' ns' cs E' _] _]; rewrite Ec in E'; [|discriminate]. injection E' as <- <-. left. reflexivity.
        * destruct (each_all (trees_upto W k) (fun p l => forall tr, In tr l <-> reads t (nd_index p) tr /\ height tr <= k) (map (fun i => N i) ns)) as (css & Es & Fs).
          { intros p J. apply in_map_iff in J as (n' & <- & J). cbn [nd_index]. apply IH. exact (live_child t n s a0 x ns n' L G I Ec J). }
          rewrite Es. cbn [obind]. eexists. split; [reflexivity|].
          apply (nodes_Forall2 h (fun n l => forall tr, In tr l <-> reads t n tr /\ height tr <= k)) in Fs.
          intro tr. rewrite in_map_iff. split.
          -- intros (cs & <- & J). apply choose_In, (Forall2_upto k css ns Fs) in J as [R Lh].
             split; [exact (reads_alt_branch t a0 x ns cs Ec R)|]. rewrite height_branch. lia.
          -- intros [[x' v' E'|x' ns' cs E' R] Lh]; rewrite Ec in E'; [discriminate|]. injection E' as <- <-. exists cs. split; [reflexivity|].
             apply choose_In, (Forall2_upto k css ns Fs). split; [exact R|]. rewrite height_branch in Lh. lia.
      + rewrite Et. cbn [obind]. exists (concat trs). split; [reflexivity|]. intro tr. rewrite in_concat. split.
        * intros (y & Iy & J). destruct (Forall2_In_r _ _ _ _ F Iy) as (a & Ia & Q). apply in_map_iff in Ia as (a0 & <- & Ia).
          destruct (proj1 (Q tr) J) as [Ra Lh]. split; [exact (reads_alt_reads t n s a0 tr G Ia Ra)|exact Lh].
        * intros [R Lh]. destruct (reads_reads_alt t n tr R) as (s' & a & G' & I & Ra). rewrite G in G'. injection G' as <-.
          destruct (Forall2_In_l _ _ _ (Al a) F (in_map _ _ _ I)) as (y & Iy & Q). exists y. split; [exact Iy|]. apply Q. auto.
  Qed.
End Walk.

Section Same.
  Context {T V AK : Type} `{OrdEq T} `{OrdEq V}.
  Lemma same_tokens_iff (l : list (Token T V)) : forall l', same_tokens l l' = true <-> l = l'.
  Proof.
    induction l as [|[k v] l IH]; intros [|[k' v'] l']; simpl; try (split; [reflexivity|reflexivity]); try (split; intro X; discriminate).
    rewrite andb_true_iff, IH. unfold same_token. simpl. rewrite andb_true_iff, !eqb_true_iff. split; [intros [[-> ->] ->]; reflexivity|].
    intros [= -> -> ->]. auto.
  Qed.
  Lemma sift_In (w : list (Token T V)) (l : list (ptree T AK V)) tr : In tr (sift w l) <-> In tr l /\ yield tr = w.
  Proof. unfold sift. rewrite filter_In, same_tokens_iff. reflexivity. Qed.
  Lemma same_tree_iff `{OrdEq AK} : forall a b : ptree T AK V, same_tree a b = true <-> a = b.
  Proof.
    fix IH 1. intros [x v|x cs] [y u|y ds]; simpl; try (split; intro X; discriminate).
    - rewrite andb_true_iff, !eqb_true_iff. split; [intros [-> ->]; reflexivity|intros [= -> ->]; auto].
    - rewrite andb_true_iff, eqb_true_iff.
      match goal with |- context [?f cs ds] => assert (E : f cs ds = true <-> cs = ds) end.
      { revert ds. induction cs as [|c cs IHc]; intros [|d ds]; try (split; intro X; first [reflexivity|discriminate]).
        rewrite andb_true_iff, IH, IHc. split; [intros [-> ->]; reflexivity|intros [= -> ->]; auto]. }
      rewrite E. split; [intros [-> ->]; reflexivity|intros [= -> ->]; auto].
  Qed.
  Lemma tree_dec `{OrdEq AK} (a b : ptree T AK V) : {a = b} + {a <> b}.
  Proof.
    destruct (same_tree a b) eqn:E; [left; apply same_tree_iff; exact E|right]. intro X. apply same_tree_iff in X. congruence.
  Qed.
  Lemma token_dec (a b : Token T V) : {a = b} + {a <> b}.
  Proof.
    destruct a as [k v], b as [k' v'].
    destruct (eqb_spec k k') as [E|E]; [|right; congruence]. destruct (eqb_spec v v') as [E'|E']; [left; congruence|right; congruence].
  Qed.
End Same.

(** ** Low derivation trees *)
Section Low.
  Context {T NT AK AV V : Type} `{OrdEq T} `{OrdEq NT} `{OrdEq V}.
  Variable g : Grammar T NT AK AV.
  Variable w : list (Token T V).
  Local Notation pt := (ptree T AK V).
  Local Notation label := (NT * list (Token T V))%type.

  Definition parts : list (list (Token T V)) := flat_map (fun k => map (fun i => seg w i k) (seq 0 (k + 1))) (seq 0 (length w + 1)).
  Definition labels : list label := list_prod (map fst (rule_set g)) parts.
  Lemma parts_length : length parts = pieces (length w).
  Proof.
    unfold parts. rewrite <- tri_pieces. generalize (length w + 1). intro n. induction n as [|n IH]; [reflexivity|].
    rewrite seq_S, flat_map_app, app_length, IH. cbn [flat_map tri]. rewrite app_nil_r, map_length, seq_length. lia.
  Qed.
  Lemma labels_length : length labels = length (rule_set g) * pieces (length w).
  Proof. unfold labels. rewrite prod_length, map_length, parts_length. reflexivity. Qed.
  Lemma parts_In a ts b : w = a ++ ts ++ b -> In ts parts.
  Proof.
    intro E. unfold parts. apply in_flat_map. exists (length a + length ts). split.
    - apply in_seq. rewrite E, !app_length. lia.
    - apply in_map_iff. exists (length a). split; [rewrite E; apply seg_mid|]. apply in_seq. lia.
  Qed.
  Lemma labels_In A p a ts b : prod_of g A p -> w = a ++ ts ++ b -> In (A, ts) labels.
  Proof.
    intros (r & I & _) E. apply in_prod; [|exact (parts_In a ts b E)]. apply in_map_iff. exists (A, r). auto.
  Qed.
  Lemma label_dec (x y : label) : {x = y} + {x <> y}.
  Proof.
    destruct x as [A ts], y as [B us]. destruct (eqb_spec A B) as [E|E]; [|right; congruence].
    destruct (list_eq_dec token_dec ts us) as [E'|E']; [left; congruence|right; congruence].
  Qed.

  Local Notation sz cs := (list_sum (map psize cs)).
  Lemma low :
    (forall e ts (tr : pt), dtree g e ts tr -> forall seen a b, w = a ++ ts ++ b -> NoDup seen -> incl seen labels ->
      (exists tr', dtree g e ts tr' /\ psize tr' < psize tr) \/
      (exists B us tr', In (B, us) seen /\ dtree g (NonTerm B) us tr' /\ psize tr' <= psize tr) \/
      height tr <= length labels - length seen + 1) /\
    (forall es ts (trs : list pt), dtrees g es ts trs -> forall seen a b, w = a ++ ts ++ b -> NoDup seen -> incl seen labels ->
      (exists trs', dtrees g es ts trs' /\ sz trs' < sz trs) \/
      (exists B us tr', In (B, us) seen /\ dtree g (NonTerm B) us tr' /\ psize tr' <= sz trs) \/
      maxh trs <= length labels - length seen + 1).
  Proof.
    apply dtree_dtrees_ind.
    - intros k v seen a b E N I. right. right. simpl. lia.
    - intros A p ts cs Pr D IH seen a b E N I.
      destruct (in_dec label_dec (A, ts) seen) as [J|J].
      { right. left. exists A, ts, (PBranch (pi_action_key p) cs). split; [exact J|]. split; [constructor; assumption|lia]. }
      assert (N' : NoDup ((A, ts) :: seen)) by (constructor; assumption).
      assert (I' : incl ((A, ts) :: seen) labels) by (intros x [<-|X]; [exact (labels_In A p a ts b Pr E)|exact (I x X)]).
      pose proof (NoDup_incl_length N' I') as Le. simpl in Le.
      destruct (IH _ a b E N' I') as [(cs' & D' & L)|[(B & us & tr' & [X|X] & D' & L)|L]].
      + left. exists (PBranch (pi_action_key p) cs'). split; [constructor; assumption|]. cbn [psize]. lia.
      + injection X as <- <-. left. exists tr'. split; [exact D'|]. cbn [psize]. lia.
      + right. left. exists B, us, tr'. split; [exact X|]. split; [exact D'|]. cbn [psize]. lia.
      + right. right. rewrite height_branch. simpl in L. lia.
    - intros seen a b E N I. right. right. unfold maxh. simpl. lia.
    - intros e es ts us c cs D IH Ds IHs seen a b E N I. rewrite <- app_assoc in E.
      assert (Es : w = (a ++ ts) ++ us ++ b) by (rewrite <- app_assoc; exact E).
      destruct (IH _ a (us ++ b) E N I) as [(c' & D' & L)|[(B & vs & tr' & X & D' & L)|L]].
      + left. exists (c' :: cs). split; [constructor; assumption|]. simpl. lia.
      + right. left. exists B, vs, tr'. split; [exact X|]. split; [exact D'|]. simpl. lia.
      + destruct (IHs _ (a ++ ts) b Es N I) as [(cs' & D' & L')|[(B & vs & tr' & X & D' & L')|L']].
        * left. exists (c :: cs'). split; [constructor; assumption|]. simpl. lia.
        * right. left. exists B, vs, tr'. split; [exact X|]. split; [exact D'|]. simpl. lia.
        * right. right. unfold maxh in *. simpl. lia.
  Qed.
  Lemma low_tree e a ts b (tr : pt) : w = a ++ ts ++ b -> dtree g e ts tr -> exists tr' : pt, dtree g e ts tr' /\ height tr' <= height_bound g (length w).
  Proof.
    intro E. remember (psize tr) as n eqn:En. revert tr En. induction n as [n IH] using lt_wf_ind. intros tr -> D.
    destruct (proj1 low e ts tr D [] a b E (NoDup_nil _) (incl_nil_l _)) as [(tr' & D' & L)|[(B & us & tr' & [] & _)|L]].
    - exact (IH _ L tr' eq_refl D').
    - exists tr. split; [exact D|]. unfold height_bound. rewrite <- labels_length. simpl in L. lia.
  Qed.
End Low.

(** ** Two low derivation trees *)
Section Paths.
  Context {A : Type} (dec : forall x y : A, {x = y} + {x <> y}) (R : A -> A -> Prop).
  Inductive rpath (x : A) : A -> list A -> Prop :=
  | rp_one : rpath x x [x]
  | rp_snoc y z l : rpath x y l -> R y z -> rpath x z (z :: l).
  Lemma rpath_back x y l : rpath x y l -> forall z, In z l -> NoDup l -> exists l', rpath x z l' /\ NoDup l'.
  Proof.
    induction 1 as [|y z l P IH Rz]; intros u I N.
    - destruct I as [<-|[]]. exists [x]. split; [constructor|exact N].
    - destruct I as [<-|I]; [exists (z :: l); split; [econstructor; eassumption|exact N]|]. apply IH; [exact I|]. inversion N; assumption.
  Qed.
  Lemma rpath_simple x y : star R x y -> exists l, rpath x y l /\ NoDup l.
  Proof.
    induction 1 as [|y z _ (l & P & N) Rz]; [exists [x]; split; [constructor|repeat constructor; intros []]|].
    destruct (in_dec dec z l) as [I|I]; [exact (rpath_back x y l P z I N)|]. exists (z :: l). split; [econstructor; eassumption|constructor; assumption].
  Qed.
End Paths.

Section Two.
  Context {T NT AK AV V : Type} `{OrdEq T} `{OrdEq NT} `{OrdEq V}.
  Variable g : Grammar T NT AK AV.
  Hypothesis K : forall A p q, prod_of g A p -> prod_of g A q -> pi_action_key p = pi_action_key q -> p = q.
  Variable w : list (Token T V).
  Hypothesis Kd : forall x y : AK, {x = y} + {x <> y}.
  Hypothesis Pd : forall x y : ptree T AK V, {x = y} + {x <> y}.
  Local Notation pt := (ptree T AK V).
  Local Notation label := (NT * list (Token T V))%type.
  Local Notation B := (height_bound g (length w)).
  Local Notation labels := (labels g w).

  Definition inside (ts : list (Token T V)) : Prop := exists a b, w = a ++ ts ++ b.
  Lemma inside_l ts us : inside (ts ++ us) -> inside ts.
  Proof. intros (a & b & E). exists a, (us ++ b). rewrite <- app_assoc in E. exact E. Qed.
  Lemma inside_r ts us : inside (ts ++ us) -> inside us.
  Proof. intros (a & b & E). exists (a ++ ts), b. rewrite <- !app_assoc in *. exact E. Qed.
  Inductive lchild : label -> label -> Prop :=
  | lchild_intro A p pre C post ts us vs cs1 c cs2 :
      prod_of g A p -> map pe_elem (pi_elements p) = pre ++ NonTerm C :: post ->
      dtrees g pre ts cs1 -> dtree g (NonTerm C) us (c : pt) -> dtrees g post vs cs2 -> lchild (A, ts ++ us ++ vs) (C, us).
  (** Two trees of height at most [k]. *)
  Definition two (k : nat) (l : label) : Prop := exists tr1 tr2 : pt,
    dtree g (NonTerm (fst l)) (snd l) tr1 /\ dtree g (NonTerm (fst l)) (snd l) tr2 /\ tr1 <> tr2 /\ height tr1 <= k /\ height tr2 <= k.

  Lemma low_trees es : forall ts (cs : list pt), inside ts -> dtrees g es ts cs ->
    exists cs', dtrees g es ts cs' /\ maxh cs' <= B /\ map yield cs' = map yield cs.
  Proof.
    intros ts cs I D. induction D as [|e es ts us c cs D Ds IH].
    - exists []. split; [constructor|]. split; [unfold maxh; simpl; lia|reflexivity].
    - destruct (inside_l _ _ I) as (a & b & E). destruct (low_tree g w e a ts b c E D) as (c' & D' & L').
      destruct (IH (inside_r _ _ I)) as (cs' & Ds' & Ls' & Y). exists (c' :: cs'). split; [constructor; assumption|]. split; [unfold maxh in *; simpl; lia|].
      simpl. rewrite Y. f_equal. rewrite (proj1 (dtree_yield g) _ _ _ D), (proj1 (dtree_yield g) _ _ _ D'). reflexivity.
  Qed.
  Lemma dtrees_app es1 es2 ts1 ts2 (cs1 cs2 : list pt) : dtrees g es1 ts1 cs1 -> dtrees g es2 ts2 cs2 -> dtrees g (es1 ++ es2) (ts1 ++ ts2) (cs1 ++ cs2).
  Proof.
    intros D1 D2. induction D1 as [|e es ts us c cs D Ds IH]; [exact D2|]. simpl. rewrite <- app_assoc. constructor; assumption.
  Qed.
  Lemma prod_label A p ts : prod_of g A p -> inside ts -> In (A, ts) labels.
  Proof. intros Pr (a & b & E). exact (labels_In g w A p a ts b Pr E). Qed.

  Lemma star_left x y z : lchild x y -> star lchild y z -> star lchild x z.
  Proof. intros C S. induction S as [|z z' S IH Rz]; [econstructor; [constructor|exact C]|econstructor; eassumption]. Qed.
  Lemma descend :
    (forall e ts (tr1 : pt), dtree g e ts tr1 -> inside ts -> forall tr2, dtree g e ts tr2 -> tr1 <> tr2 ->
      exists A l, e = NonTerm A /\ star lchild (A, ts) l /\ two (B + 1) l) /\
    (forall es ts (cs : list pt), dtrees g es ts cs -> inside ts -> forall ds, dtrees g es ts ds -> map yield cs = map yield ds -> cs <> ds ->
      exists pre C post u us v cs1 c cs2 l, es = pre ++ NonTerm C :: post /\ ts = u ++ us ++ v /\ dtrees g pre u cs1 /\
        dtree g (NonTerm C) us (c : pt) /\ dtrees g post v cs2 /\ star lchild (C, us) l /\ two (B + 1) l).
  Proof.
    apply dtree_dtrees_ind.
    - intros k v _ tr2 D Ne. inversion D; subst. contradiction.
    - intros A p ts cs Pr D IH I tr2 D2 Ne. exists A. inversion D2 as [|A' p2 ts' ds Pr2 Ds2]; subst.
      assert (Loc : pi_action_key p <> pi_action_key p2 \/ map yield cs <> map yield ds -> two (B + 1) (A, ts)).
      { intro X. destruct (low_trees _ _ _ I D) as (cs' & D' & L' & Y'). destruct (low_trees _ _ _ I Ds2) as (ds' & Dd' & Ld' & Yd').
        exists (PBranch (pi_action_key p) cs'), (PBranch (pi_action_key p2) ds'). cbn [fst snd].
        split; [constructor; assumption|]. split; [constructor; assumption|]. split.
        - intros [= E1 E2]. destruct X as [X|X]; [contradiction|]. apply X. rewrite <- Y', <- Yd', E2. reflexivity.
        - rewrite !height_branch. lia. }
      destruct (Kd (pi_action_key p) (pi_action_key p2)) as [Ek|Ek]; [|exists (A, ts); split; [reflexivity|]; split; [constructor|auto]].
      destruct (list_eq_dec (list_eq_dec token_dec) (map yield cs) (map yield ds)) as [Ey|Ey]; [|exists (A, ts); split; [reflexivity|]; split; [constructor|auto]].
      pose proof (K A p p2 Pr Pr2 Ek) as <-.
      destruct (IH I ds Ds2 Ey ltac:(congruence)) as (pre & C & post & u & us & v & cs1 & c & cs2 & l & Ee & -> & D1 & Dc & D3 & S & Tw).
      exists l. split; [reflexivity|]. split; [|exact Tw]. apply (star_left _ (C, us)); [|exact S]. exact (lchild_intro A p pre C post u us v cs1 c cs2 Pr Ee D1 Dc D3).
    - intros _ ds D _ Ne. inversion D; subst. contradiction.
    - intros e es ts us c cs D IH Ds IHs I ds D2 Y Ne. inversion D2 as [|e' es' ts' us' d ds' Dd Dds E1 E2]; subst.
      simpl in Y. injection Y as Yc Ys. rewrite (proj1 (dtree_yield g) _ _ _ D), (proj1 (dtree_yield g) _ _ _ Dd) in Yc. subst ts'.
      apply app_inv_head in E2. subst us'.
      destruct (list_eq_dec Pd cs ds') as [Ec|Ec].
      + subst ds'. destruct (IH (inside_l _ _ I) d Dd ltac:(congruence)) as (A & l & -> & S & Tw).
        exists [], A, es, [], ts, us, [], c, cs, l. repeat (split; [first [reflexivity|constructor|assumption]|]). exact Tw.
      + destruct (IHs (inside_r _ _ I) ds' Dds Ys Ec) as (pre & C & post & u & us2 & v & cs1 & c2 & cs2 & l & -> & -> & D1 & Dc & D3 & S & Tw).
        exists (e :: pre), C, post, (ts ++ u), us2, v, (c :: cs1), c2, cs2, l. split; [reflexivity|]. split; [rewrite app_assoc; reflexivity|].
        split; [constructor; assumption|]. auto.
  Qed.
  Lemma lift_one k x y : lchild x y -> inside (snd x) -> B <= k -> two k y -> two (k + 1) x.
  Proof.
    intros [A p pre C post ts us vs cs1 c cs2 Pr E D1 Dc D2] I Lk (tr1 & tr2 & T1 & T2 & Ne & L1 & L2). cbn [fst snd] in *.
    destruct (low_trees _ _ _ (inside_l _ _ I) D1) as (cs1' & D1' & Lc1 & _).
    destruct (low_trees _ _ _ (inside_r _ _ (inside_r _ _ I)) D2) as (cs2' & D2' & Lc2 & _).
    assert (Mk : forall tr : pt, dtree g (NonTerm C) us tr -> height tr <= k ->
      dtree g (NonTerm A) (ts ++ us ++ vs) (PBranch (pi_action_key p) (cs1' ++ tr :: cs2')) /\ height (PBranch (pi_action_key p) (cs1' ++ tr :: cs2')) <= k + 1).
    { intros tr Dt Lt. split.
      - constructor; [exact Pr|]. rewrite E. apply dtrees_app; [exact D1'|]. constructor; assumption.
      - rewrite height_branch. apply maxh_le in Lc1, Lc2. assert (maxh (cs1' ++ tr :: cs2') <= k); [|lia]. apply maxh_le, Forall_app. split.
        + eapply Forall_impl; [|exact Lc1]. intros a La. simpl in La. lia.
        + constructor; [exact Lt|]. eapply Forall_impl; [|exact Lc2]. intros a La. simpl in La. lia. }
    destruct (Mk tr1 T1 L1) as [M1 H1']. destruct (Mk tr2 T2 L2) as [M2 H2'].
    exists (PBranch (pi_action_key p) (cs1' ++ tr1 :: cs2')), (PBranch (pi_action_key p) (cs1' ++ tr2 :: cs2')).
    cbn [fst snd]. repeat (split; [assumption|]). split; [|auto]. intros [= X]. apply app_inv_head in X. injection X as X. contradiction.
  Qed.
  Lemma lchild_inside x y : lchild x y -> inside (snd x) -> inside (snd y).
  Proof. intros [A p pre C post ts us vs cs1 c cs2 _ _ _ _ _] I. cbn [snd] in *. exact (inside_l _ _ (inside_r _ _ I)). Qed.
  Lemma lift_path x y l : rpath lchild x y l -> inside (snd x) -> inside (snd y) /\ forall k, B <= k -> two k y -> two (k + (length l - 1)) x.
  Proof.
    intros P I. induction P as [|y z l P [Iy IH] C]; [split; [exact I|intros k _ Tw; simpl; rewrite Nat.add_0_r; exact Tw]|].
    split; [exact (lchild_inside _ _ C Iy)|]. intros k Lk Tw. pose proof (IH (k + 1) ltac:(lia) (lift_one k y z C Iy Lk Tw)) as X.
    assert (1 <= length l) by (inversion P; simpl; lia). simpl. replace (k + (length l - 0)) with (k + 1 + (length l - 1)) by lia. exact X.
  Qed.
  Lemma rpath_labels x y l : rpath lchild x y l -> inside (snd x) -> In x labels -> incl l labels.
  Proof.
    intros P I Ix. induction P as [|y z l P IH C]; [intros u [<-|[]]; exact Ix|]. intros u [<-|J]; [|exact (IH u J)].
    destruct (lift_path _ _ _ P I) as [Iy _]. pose proof (lchild_inside _ _ C Iy) as Iz.
    destruct C as [A p pre C post ts us vs cs1 c cs2 _ _ _ Dc _]. cbn [snd] in Iz. inversion Dc; subst. eapply prod_label; eassumption.
  Qed.
  Lemma two_low A ts (tr1 tr2 : pt) : inside ts -> dtree g (NonTerm A) ts tr1 -> dtree g (NonTerm A) ts tr2 -> tr1 <> tr2 -> two (2 * B) (A, ts).
  Proof.
    intros I D1 D2 Ne. destruct (proj1 descend _ _ _ D1 I tr2 D2 Ne) as (A' & l & [= <-] & S & Tw).
    destruct (rpath_simple label_dec lchild _ _ S) as (p & P & N).
    assert (Ix : In (A, ts) labels) by (inversion D1; subst; eapply prod_label; eassumption).
    pose proof (NoDup_incl_length N (rpath_labels _ _ _ P I Ix)) as Le. rewrite labels_length in Le.
    destruct (lift_path _ _ _ P I) as [_ Up]. destruct (Up (B + 1) ltac:(lia) Tw) as (a & b & Da & Db & Nab & La & Lb).
    assert (B + 1 + (length p - 1) <= 2 * B).
    { assert (1 <= length p) by (inversion P; simpl; lia). unfold height_bound in *. lia. }
    exists a, b. repeat (split; [assumption|]). split; lia.
  Qed.
End Two.

Section Find.
  Context {T AK V : Type} `{OrdEq T} `{OrdEq V}.
  Variable W : world T AK V.
  Variable n : Node.
  Variable w : list (Token T V).
  Variable D : ptree T AK V -> Prop.
  Hypothesis L : forall k, exists l, trees_upto W k n = Ret l /\ forall tr, In tr (sift w l) <-> D tr /\ height tr <= k.
  Lemma find_some d : forall k tr, D tr -> height tr <= k + d -> (forall tr, D tr -> k <= height tr) ->
    exists tr', (forall fuel, d < fuel -> find_tree W fuel k w n = Ret tr') /\ D tr' /\ forall tr, D tr -> height tr' <= height tr.
  Proof.
    induction d as [|d IH]; intros k tr Dt Ht Mn; destruct (L k) as (l & El & I); destruct (sift w l) as [|tr' s] eqn:Es.
    - exfalso. apply (I tr). split; [exact Dt|lia].
    - exists tr'. destruct (proj1 (I tr') (or_introl eq_refl)) as [D' H']. split; [|split; [exact D'|intros tr2 D2; specialize (Mn tr2 D2); lia]].
      intros [|fuel] F; [lia|]. cbn [find_tree]. rewrite El. cbn [obind]. rewrite Es. reflexivity.
    - destruct (IH (S k) tr Dt ltac:(lia)) as (tr' & F & D' & M').
      { intros tr2 D2. destruct (le_lt_dec (height tr2) k) as [X|X]; [exfalso; exact (proj2 (I tr2) (conj D2 X))|lia]. }
      exists tr'. split; [|auto]. intros [|fuel] Lf; [lia|]. cbn [find_tree]. rewrite El. cbn [obind]. rewrite Es. apply F. lia.
    - exists tr'. destruct (proj1 (I tr') (or_introl eq_refl)) as [D' H']. split; [|split; [exact D'|intros tr2 D2; specialize (Mn tr2 D2); lia]].
      intros [|fuel] F; [lia|]. cbn [find_tree]. rewrite El. cbn [obind]. rewrite Es. reflexivity.
  Qed.
End Find.
