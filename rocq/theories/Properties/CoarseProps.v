(** C117: symbols and values of which equal ones need not be identical
    (src/parsers/tree.rs:63-104, 286-345, src/parsers/earley.rs:60-88). *)
From Coq Require Import String List Arith NArith Lia.
From Verif.Model Require Import Ord BTree Outcome Utils Grammar StartGrammar Tokens Tree State Earley.
From Verif.Spec Require Import Reach Cfg BuildSpec NullSpec TreeSpec EarleySpec ValueSpec CoarseSpec Examples.
From Verif.Proofs Require Import OrdFacts BTreeFacts LoopFacts GrammarFacts StartFacts BuildMore CfgFacts TreeFacts TreeHist
  EarleyItems EarleyRun EarleyParse EarleyMain EarleyMem EarleyExact TreeLink EarleyMore ValueFacts CoarseFacts.
From Verif.Properties Require Import TreeProps EarleyProps ValueProps.
Import ListNotations.

Section Trees.
  (** Kinds, action keys and values of a tree are compared by keys; equal keys are identical. *)
  Context {T AK V T' AK' V' : Type} `{Ord T} `{Ord AK} `{Ord V} `{OrdEq T'} `{OrdEq AK'} `{OrdEq V'}.
  Variable fk : T -> T'.
  Variable fa : AK -> AK'.
  Variable fv : V -> V'.
  Hypothesis Fk : compares_by fk.
  Hypothesis Fa : compares_by fa.
  Hypothesis Fv : compares_by fv.
  (** Two contents that compare equal. *)
  Definition same_content (c d : NodeContent T AK V) : Prop := map_nc fk fa fv c = map_nc fk fa fv d.

  (** C117.  A program does with such a tree what it would do with the tree of keys: the same handles, reports of
      change, lists of alternatives and panics; contents have the keys the other program sees. *)
  Theorem C117_tree_of_keys (tr : history T AK V) w : run tr w -> run (map_hist fk fa fv tr) (map (map_in fk fa fv) w).
  Proof. exact (run_map fk fa fv Fk Fa Fv tr w). Qed.

  (** C117.  What is read back equals, up to comparison, what was put in; it never changes, not even to something
      equal; and alternatives of one tree are the same exactly if their contents compare equal. *)
  Theorem C117_contents (tr : history T AK V) w : run tr w ->
    (forall a c, TreeSpec.made tr a c -> exists c0, w_content w a = Ret c0 /\ same_content c0 c) /\
    (forall tr' w' a c, run (tr' ++ tr) w' -> w_content w a = Ret c -> w_content w' a = Ret c) /\
    (forall a b, known_alt tr a -> known_alt tr b -> al_inner a = al_inner b ->
       exists c d, w_content w a = Ret c /\ w_content w b = Ret d /\ (a = b <-> same_content c d)).
  Proof.
    intro R. pose proof (run_map fk fa fv Fk Fa Fv tr w R) as R'.
    assert (Back : forall a c', w_content (map (map_in fk fa fv) w) a = Ret c' -> exists c0, w_content w a = Ret c0 /\ map_nc fk fa fv c0 = c').
    { intros a c'. rewrite w_content_map. destruct (w_content w a) as [c0| |]; cbn; try discriminate. intro E. injection E as <-. eauto. }
    split; [|split].
    - intros a c M. assert (M' : TreeSpec.made (map_hist fk fa fv tr) a (map_nc fk fa fv c)).
      { destruct M as [(h & k & v & I & ->)|(h & x & ns & I & ->)].
        - left. exists h, (fk k), (fv v). split; [exact (hist_in fk fa fv _ _ _ I)|reflexivity].
        - right. exists h, (fa x), ns. split; [exact (hist_in fk fa fv _ _ _ I)|reflexivity]. }
      exact (Back a _ (C37_content_reads_back _ _ _ _ R' M')).
    - intros tr' w' a c R2 C. destruct (run_split _ _ _ R2) as (w0 & R0 & X). rewrite (run_same _ _ R0 _ R) in X. exact (content_wext _ _ _ _ X C).
    - intros a b Ka Kb E.
      destruct (C37_content_stable _ [] _ _ a R' R' (known_alt_map fk fa fv tr a Ka)) as (c' & Ca & _).
      destruct (C37_content_stable _ [] _ _ b R' R' (known_alt_map fk fa fv tr b Kb)) as (d' & Cb & _).
      pose proof (C37_hash_consing _ _ a b R' (known_alt_map fk fa fv tr a Ka) (known_alt_map fk fa fv tr b Kb) E) as Hc.
      destruct (Back a c' Ca) as (c & Ec & Kc). destruct (Back b d' Cb) as (d & Ed & Kd). exists c, d. split; [exact Ec|]. split; [exact Ed|].
      rewrite Hc, Ca, Cb. unfold same_content. rewrite Kc, Kd. split; [intro Q; injection Q; auto|intros ->; reflexivity].
  Qed.

  (** C117.  Which of several equal contents a tree shows: the first.  Making a leaf whose content compares equal to
      that of an alternative of the tree returns that alternative and changes nothing; otherwise the new
      alternative has exactly the given content. *)
  Theorem C117_first_content (tr : history T AK V) w h k v : run tr w -> known_tree tr h ->
    exists a w', tr_step w (TMakeLeafAlt h k v) = (Ret (RAlt a), w') /\ al_inner a = h /\
      ((exists c0, w_content w a = Ret c0 /\ same_content c0 (NLeaf k v) /\ w' = w) \/
       ((forall b c, al_inner b = h -> w_content w b = Ret c -> ~ same_content c (NLeaf k v)) /\ w_content w' a = Ret (NLeaf k v))).
  Proof.
    intros R K. pose proof (run_map fk fa fv Fk Fa Fv tr w R) as R'. pose proof (known_tree_map fk fa fv tr h K) as K'.
    pose proof (hi_tree _ _ (run_inv _ _ R') h K') as L. rewrite map_length in L.
    destruct (nth_error w h) as [t|] eqn:N; [|apply nth_error_None in N; lia].
    assert (I : TInv (map_in fk fa fv t)).
    { apply (hi_w _ _ (run_inv _ _ R') h). rewrite nth_error_map, N. reflexivity. }
    cbn [tr_step]. unfold w_make_leaf_alt, w_make_alt, with_. rewrite N. cbn [expect on].
    unfold in_make_alt, altset_add. pose proof (get_map fk fa fv Fk Fa Fv (CLeaf k v) (value_to_id (in_alts t))) as G.
    assert (Ct : forall i d, w_content w {| al_index := i; al_inner := h |} = Ret d <-> exists c, acont t i = Some c /\ d = cext h c).
    { intros i d. unfold w_content, with_. cbn [al_inner al_index]. rewrite N. cbn [expect obind]. unfold get_alt, acont, expect.
      destruct (nth_error (id_to_value (in_alts t)) i) as [c|]; cbn [obind].
      - split; [intro E; injection E as <-; exists c; split; [reflexivity|destruct c; reflexivity]|]. intros (c' & E & ->). injection E as <-. destruct c; reflexivity.
      - split; [discriminate|intros (c' & E & _); discriminate]. }
    destruct (bt_get (CLeaf k v) (value_to_id (in_alts t))) as [i|] eqn:B; cbn [rmap].
    - eexists {| al_index := i; al_inner := h |}, _. split; [reflexivity|]. split; [reflexivity|]. left.
      apply (ti_ids _ I) in G. unfold acont in G. cbn in G. rewrite nth_error_map in G. fold (acont t i) in G.
      destruct (acont t i) as [c|] eqn:Ac; [|discriminate]. injection G as G. exists (cext h c). split; [apply Ct; eauto|].
      split; [destruct c; [|discriminate]; cbn in *; unfold same_content; cbn; congruence|].
      assert (X : forall (l : list (Inner T AK V)) j x, nth_error l j = Some x -> list_set l j x = l).
      { induction l as [|y l IH]; intros [|j] x E; cbn in *; try discriminate; [congruence|rewrite IH by exact E; reflexivity]. }
      unfold w_set. apply X. destruct t; exact N.
    - eexists {| al_index := length (id_to_value (in_alts t)); al_inner := h |}, _. split; [reflexivity|]. split; [reflexivity|]. right. split.
      + intros [i h'] c Eb Cb Sm. cbn in Eb. subst h'. apply Ct in Cb. destruct Cb as (d & Ad & ->).
        assert (Md : map_ci fk fa fv d = map_ci fk fa fv (CLeaf k v)) by (unfold same_content in Sm; destruct d; cbn in *; congruence).
        assert (Q : acont (map_in fk fa fv t) i = Some (map_ci fk fa fv (CLeaf k v))).
        { unfold acont. cbn. rewrite nth_error_map. unfold acont in Ad. rewrite Ad. cbn. f_equal. exact Md. }
        apply (ti_ids _ I) in Q. cbn [map_in in_alts value_to_id] in Q. rewrite G in Q. discriminate.
      + unfold w_content, with_, w_set. cbn [al_inner al_index]. rewrite (list_set_nth w h h _ t N), Nat.eqb_refl. cbn [expect obind]. unfold get_alt.
        cbn [in_alts id_to_value]. rewrite nth_error_app2 by lia. rewrite Nat.sub_diag. reflexivity.
  Qed.
End Trees.

Section Parser.
  Context {T NT AK AV V V' : Type} `{OrdEq T} `{OrdEq NT} `{OrdEq AK} `{Ord V} `{OrdEq V'}.
  Variable g : Grammar T NT AK AV.
  Variable sg : StartGrammar T NT AK AV.
  Variables lay lay' : layout (StartNonTerminal NT).
  Hypothesis Bg : built g.
  Hypothesis Wr : runs_to (wrap_grammar_with_start g) (Ret (Ok sg)).
  Hypothesis Lay : in_memory sg lay.
  Hypothesis Lay' : in_memory sg lay'.
  Variable fv : V -> V'.
  Hypothesis Fv : compares_by fv.

  (** C117.  Parsing tokens whose values are compared by a key: it ends exactly as parsing the keys does, with the
      same message if it panics, and trees read off the one forest are the trees of the other up to keys. *)
  Theorem C117_parse_of_keys (w : list (Token T V)) t0 : api_tree t0 ->
    exists t0', api_tree t0' /\
      (forall n tr', reads t0' n tr' <-> exists tr, reads t0 n tr /\ map_values fv tr = tr') /\
      exists r r', runs_to (fun fuel => parse lay sg w t0 fuel) r /\
        runs_to (fun fuel => parse lay sg (map (with_value fv) w) t0' fuel) r' /\
        match r, r' with
        | Ret (Some m, t), Ret (Some m', t') => m = m' /\ forall n tr', reads t' n tr' <-> exists tr, reads t n tr /\ map_values fv tr = tr'
        | Ret (None, _), Ret (None, _) => True
        | Panic e, Panic e' => e = e'
        | _, _ => False
        end.
  Proof.
    intro A. set (mi := map_in (fun k : T => k) (fun a : AK => a) fv).
    assert (A' : api_tree (mi t0)) by exact (api_map _ _ _ id_keeps id_keeps Fv t0 A).
    exists (mi t0). split; [exact A'|]. split; [intros; apply reads_map_iff|].
    destruct (main g sg lay Bg Wr (in_memory_inj _ _ Lay) (map (with_value fv) w) (mi t0) A') as (r' & R' & _).
    destruct R' as [NF (n & En)].
    assert (E : forall fuel, n <= fuel -> parse lay sg (map (with_value fv) w) (mi t0) fuel = r' /\
        map_out (fun x => (fst x, mi (snd x))) (parse lay sg w t0 fuel) = r').
    { intros fuel Lf. split; [exact (En fuel Lf)|]. rewrite <- (En fuel Lf). symmetry. exact (parse_map lay sg fv Fv w t0 fuel). }
    assert (Rr : runs_to (fun fuel => parse lay sg w t0 fuel) (parse lay sg w t0 n)).
    { apply (parse_vm _ _ _ _ n); [reflexivity|]. intro Q. destruct (E n (le_n _)) as [_ X]. rewrite Q in X. cbn in X. congruence. }
    exists (parse lay sg w t0 n), r'. split; [exact Rr|]. split; [split; [exact NF|exists n; exact En]|].
    destruct (E n (le_n _)) as [_ <-]. destruct (parse lay sg w t0 n) as [[[m|] t]|e|] eqn:Q; cbn; auto.
    split; [reflexivity|]. intros; apply reads_map_iff.
  Qed.

  (** C117.  Every leaf of the forest shows a value equal (as compared) to that of the token it stands for, and every
      reading of the tokens is there: the forest is the forest of positions (that C115 speaks of, the same for all
      inputs with these kinds) with values equal to those of the tokens written for the positions. *)
  Theorem C117_forest_up_to_equality (w : list (Token T V)) t0 (w2 : list (Token T V')) t2 : api_tree t0 -> api_tree t2 ->
    map tk_kind w = map tk_kind w2 ->
    exists (F : ptree T AK nat -> Prop) r r2, runs_to (fun fuel => parse lay sg w t0 fuel) r /\
      runs_to (fun fuel => parse lay' sg w2 t2 fuel) r2 /\
      alike (fun t m t' m' =>
        (forall tr', (exists tr, reads t m tr /\ map_values fv tr = tr') <-> exists x, F x /\ fills (map (with_value fv) w) x tr') /\
        (forall tr', reads t' m' tr' <-> exists x, F x /\ fills w2 x tr')) r r2.
  Proof.
    intros A A2 E. destruct (C117_parse_of_keys w t0 A) as (t0' & A' & _ & r & r' & R & R' & X).
    assert (E' : map tk_kind (map (with_value fv) w) = map tk_kind w2) by (rewrite map_map; exact E).
    destruct (C115_forest_of_positions g sg lay lay' Bg Wr Lay Lay' (map (with_value fv) w) w2 t0' t2 A' A2 E') as (F & q & q2 & Q & Q2 & Al).
    rewrite (runs_to_fun _ _ _ Q R') in *. clear q Q. exists F, r, q2. split; [exact R|]. split; [exact Q2|].
    destruct r as [[[m|] t]|e|], r' as [[[m'|] t']|e'|]; try contradiction; destruct q2 as [[[m2|] t3]|e2|]; cbn in *; try contradiction; auto; try congruence.
    destruct X as [<- X]. destruct Al as [Al1 Al2]. split; [|exact Al2]. intro tr'. rewrite <- X. apply Al1.
  Qed.
End Parser.

Print Assumptions C117_tree_of_keys.
Print Assumptions C117_contents.
Print Assumptions C117_first_content.
Print Assumptions C117_parse_of_keys.
Print Assumptions C117_forest_up_to_equality.

(** *** Cases, and a counterexample *)
(** Values of which only the first component is compared. *)
Record coarse := { co_shown : nat; co_hidden : nat }.
#[local] Instance Ord_coarse : Ord coarse := fun a b => cmp (co_shown a) (co_shown b).
Example coarse_key : compares_by co_shown.
Proof. intros x y. reflexivity. Qed.
(** Two tokens of kind 7 with values that compare equal: the first leaf's value is what the tree shows for both. *)
Definition ex_coarse_w : list (Token nat coarse) :=
  [Build_Token 7 {| co_shown := 0; co_hidden := 10 |}; Build_Token 7 {| co_shown := 0; co_hidden := 11 |};
   Build_Token 8 {| co_shown := 0; co_hidden := 12 |}].

(** C117, REFUTED as stated: "a leaf carries the value of its token".  If equal values need not be identical, the value
    of a token may be nowhere in the forest; another token's value is in its place. *)
Theorem C117_own_value_refuted : exists (g : Grammar nat nat nat nat) sg lay (w : list (Token nat coarse)) m t tr,
  built g /\ runs_to (wrap_grammar_with_start g) (Ret (Ok sg)) /\ in_memory sg lay /\
  runs_to (fun fuel => parse lay sg w in_new fuel) (Ret (Some m, t)) /\ reads t m tr /\
  exists k v, In (Build_Token k v) w /\ forall a, get_alt t a <> Ret (CLeaf k v).
Proof.
  exists ex_bbc_g, (ex_wrap ex_bbc_g), ex_slay, ex_coarse_w.
  let r := eval vm_compute in (parse ex_slay (ex_wrap ex_bbc_g) ex_coarse_w in_new 20) in
  match r with Ret (Some ?m, ?t) => exists m, t end.
  exists (PBranch 10 [PBranch 12 [PLeaf 7 {| co_shown := 0; co_hidden := 10 |}; PLeaf 7 {| co_shown := 0; co_hidden := 10 |}];
                      PBranch 14 [PLeaf 8 {| co_shown := 0; co_hidden := 12 |}]]).
  split; [exact built_bbc|]. split; [exact wrap_bbc|]. split; [apply ex_slay_mem; vm_compute; reflexivity|].
  split; [apply (parse_vm _ _ _ _ 20); [vm_compute; reflexivity|discriminate]|]. split.
  - apply (reads_branch _ 14 [6] 6 10 [2; 12]); [reflexivity|left; reflexivity|reflexivity|].
    constructor; [|constructor; [|constructor]].
    + apply (reads_branch _ 2 [1; 2] 2 12 [1; 5]); [reflexivity|right; left; reflexivity|reflexivity|].
      constructor; [|constructor; [|constructor]]; eapply (reads_leaf _ _ [0] 0); reflexivity || (left; reflexivity).
    + apply (reads_branch _ 12 [4; 5] 5 14 [11]); [reflexivity|right; left; reflexivity|reflexivity|].
      constructor; [|constructor]. eapply (reads_leaf _ _ [3] 3); reflexivity || (left; reflexivity).
  - exists 7, {| co_shown := 0; co_hidden := 11 |}. split; [right; left; reflexivity|].
    intros a Q. do 12 (destruct a as [|a]; [vm_compute in Q; discriminate|]). vm_compute in Q. destruct a; discriminate.
Qed.
Print Assumptions C117_own_value_refuted.
(** The hypotheses of the theorems on trees: a leaf made twice with values that compare equal. *)
Example C117_ex_tree : exists (tr : history nat nat coarse) w a, run tr w /\ known_tree tr 0 /\
  TreeSpec.made tr a (NLeaf 7 {| co_shown := 0; co_hidden := 11 |}) /\ w_content w a = Ret (NLeaf 7 {| co_shown := 0; co_hidden := 10 |}).
Proof.
  set (a := {| al_index := 0; al_inner := 0 |}).
  eexists [(TMakeLeafAlt 0 7 {| co_shown := 0; co_hidden := 11 |}, Ret (RAlt a));
           (TMakeLeafAlt 0 7 {| co_shown := 0; co_hidden := 10 |}, Ret (RAlt a)); (TNewTree, Ret (RHandle 0))], _, a.
  split.
  - eapply run_step; [eapply run_step; [eapply run_step; [constructor|exact Logic.I|reflexivity]| |]| |].
    + left. reflexivity.
    + vm_compute. reflexivity.
    + right. left. reflexivity.
    + vm_compute. reflexivity.
  - split; [right; right; left; reflexivity|]. split; [|reflexivity]. left. exists 0, 7, {| co_shown := 0; co_hidden := 11 |}. split; [left|]; reflexivity.
Qed.
