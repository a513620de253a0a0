(** The forest of a parse and the values of the tokens. *)
From Coq Require Import String List Arith Lia.
From Verif.Model Require Import Ord BTree Outcome Utils Grammar StartGrammar Tokens Tree State Earley.
From Verif.Spec Require Import Reach Cfg BuildSpec EarleySpec ValueSpec.
From Verif.Proofs Require Import OrdFacts BTreeFacts LoopFacts EarleyItems EarleyParse EarleyMain EarleyMem EarleyExact.
Import ListNotations.

(** ** Which items there are depends on the kinds only *)
Section Kinds.
  Context {T NT AK AV V V' : Type} `{OrdEq T} `{OrdEq NT} `{OrdEq AK}.
  Variable g : Grammar T NT AK AV.
  Local Notation SP := (Prod (StreamTerminal T) (StartNonTerminal NT) (StartActionKey AK) (StartActionValue AV)).
  Variable w : list (Token T V).
  Variable w' : list (Token T V').
  Hypothesis E : map tk_kind w = map tk_kind w'.

  Lemma kind_at k tok : nth_error w k = Some tok -> exists tok', nth_error w' k = Some tok' /\ tk_kind tok' = tk_kind tok.
  Proof.
    intro N. apply (map_nth_error tk_kind) in N. rewrite E in N. destruct (nth_error w' k) as [tok'|] eqn:N'.
    - rewrite (map_nth_error tk_kind _ _ N') in N. injection N as N. eauto.
    - apply nth_error_None in N'. assert (k < length (map tk_kind w')) by (apply nth_error_Some; congruence). rewrite map_length in *. lia.
  Qed.
  Lemma it_kinds K p d i : it g w K p d i -> it g w' K p d i.
  Proof.
    intros (ls & I). induction I as [|k q d i ls p _ (ls' & IH) N Ip|k q d i ls tok _ (ls' & IH) N En|j q d i ls k p ls0 _ (l1 & IH1) N _ (l2 & IH2)].
    - eexists. apply it_start.
    - eexists. exact (it_predict g w' ulf ubr k q d i ls' p IH N Ip).
    - destruct (kind_at _ _ En) as (tok' & En' & Ek). rewrite <- Ek in N. eexists. exact (it_scan g w' ulf ubr k q d i ls' tok' IH N En').
    - eexists. exact (it_complete g w' ulf ubr j q d i l1 k p l2 IH1 N IH2).
  Qed.
End Kinds.

Section Iff.
  Context {T NT AK AV V V' : Type} `{OrdEq T} `{OrdEq NT} `{OrdEq AK}.
  Variable g : Grammar T NT AK AV.
  Local Notation SP := (Prod (StreamTerminal T) (StartNonTerminal NT) (StartActionKey AK) (StartActionValue AV)).
  Variable f : V -> V'.
  Variable w : list (Token T V).
  Local Notation w' := (map (with_value f) w).
  Lemma kinds_f : map tk_kind w = map tk_kind w'.
  Proof. rewrite map_map. reflexivity. Qed.
  Lemma it_f K (p : SP) d i : it g w K p d i <-> it g w' K p d i.
  Proof. split; apply it_kinds; [exact kinds_f|symmetry; exact kinds_f]. Qed.
  Lemma scans_f k (q : SP) d i tok : scans g w k q d i tok -> scans g w' k q d i (with_value f tok).
  Proof. intros (I & N & En). split; [apply it_f; exact I|]. split; [exact N|]. apply map_nth_error. exact En. Qed.
  Lemma scans_b k (q : SP) d i tok' : scans g w' k q d i tok' -> exists tok, tok' = with_value f tok /\ scans g w k q d i tok.
  Proof.
    intros (I & N & En). rewrite nth_error_map in En. destruct (nth_error w k) as [tok|] eqn:Ew; [|discriminate]. injection En as <-.
    exists tok. split; [reflexivity|]. split; [apply it_f; exact I|]. auto.
  Qed.
  Lemma seed_f K (q : SP) d i : seed g w K q d i <-> seed g w' K q d i.
  Proof.
    destruct K as [|k]; [reflexivity|]. cbn [seed]. split; intros (d0 & tok & -> & S).
    - exists d0, (with_value f tok). split; [reflexivity|apply scans_f; exact S].
    - destruct (scans_b _ _ _ _ _ S) as (tok0 & _ & S0). eauto.
  Qed.
  Lemma comp_f (R R' : SP -> nat -> nat -> Prop) K q d i p j : (forall a b c, R a b c <-> R' a b c) ->
    (comp g w R K q d i p j <-> comp g w' R' K q d i p j).
  Proof. intro X. unfold comp, at_. rewrite X. destruct (Nat.eqb j K); [rewrite X|rewrite it_f]; reflexivity. Qed.
  Lemma rit_f K r : forall q d i, rit g w K r q d i <-> rit g w' K r q d i.
  Proof.
    induction r as [|r IH]; intros q d i; cbn [rit]; [apply seed_f|].
    split; (intros [X|[(X1 & X2 & X3 & q1 & d1 & i1 & X4 & X5)|(d0 & p & j & X1 & X2)]]; [left; apply IH; exact X|right; left|right; right]).
    1,3: repeat (split; [assumption|]); exists q1, d1, i1; split; [apply IH; exact X4|exact X5].
    all: exists d0, p, j; split; [exact X1|]; revert X2; apply comp_f; intros; apply IH.
  Qed.
  Lemma prior_f K q d i j : prior g w K q d i j <-> prior g w' K q d i j.
  Proof.
    unfold prior. split; (intros [[S EK]|(r & p & N & C & M)]; [left; split; [apply seed_f; exact S|exact EK]|right; exists r, p]).
    - split; [rewrite <- rit_f; exact N|]. split; [revert C; apply comp_f; intros; apply rit_f|]. intros p' j' C'. apply M. revert C'. apply comp_f. intros. apply rit_f.
    - split; [rewrite rit_f; exact N|]. split; [revert C; apply comp_f; intros; apply rit_f|]. intros p' j' C'. apply M. revert C'. apply comp_f. intros. apply rit_f.
  Qed.
  Lemma chain_f K q d i ks : chain g w K q d i ks <-> chain g w' K q d i ks.
  Proof. split; intro C; induction C as [|K q d i j ks P C IH]; econstructor; try eassumption; apply prior_f; exact P. Qed.
  Lemma completes_f K q d i p j : completes g w K q d i p j <-> completes g w' K q d i p j.
  Proof. unfold completes. rewrite !it_f. reflexivity. Qed.

  Definition cmap (c : @acon T NT AK AV V) : @acon T NT AK AV V' :=
    match c with ALeaf tok => ALeaf (with_value f tok) | ABr K p j => ABr K p j end.
  Lemma ac_f J k q x i c : ac g w J k q x i c -> ac g w' J k q x i (cmap c).
  Proof.
    induction 1 as [J k q x i c A IH|k q d i tok S|K q d i p j C|K q d i p j ks ks1 x k k1 c C Ch1 Ch2 N N1 A IH].
    - apply ac_old. exact IH.
    - apply ac_leaf. apply scans_f. exact S.
    - apply ac_br. apply completes_f. exact C.
    - apply completes_f in C. apply chain_f in Ch1. apply chain_f in Ch2. exact (ac_prop g w' K q d i p j ks ks1 x k k1 _ C Ch1 Ch2 N N1 IH).
  Qed.
  Lemma ac_b J k q x i c' : ac g w' J k q x i c' -> exists c, c' = cmap c /\ ac g w J k q x i c.
  Proof.
    induction 1 as [J k q x i c A (c0 & -> & IH)|k q d i tok S|K q d i p j C|K q d i p j ks ks1 x k k1 c C Ch1 Ch2 N N1 A (c0 & -> & IH)].
    - exists c0. split; [reflexivity|]. apply ac_old. exact IH.
    - destruct (scans_b _ _ _ _ _ S) as (tok0 & -> & S0). exists (ALeaf tok0). split; [reflexivity|]. apply ac_leaf. exact S0.
    - exists (ABr K p j). split; [reflexivity|]. apply ac_br. apply completes_f. exact C.
    - apply completes_f in C. apply chain_f in Ch1. apply chain_f in Ch2. exists c0. split; [reflexivity|].
      exact (ac_prop g w K q d i p j ks ks1 x k k1 _ C Ch1 Ch2 N N1 IH).
  Qed.
  Lemma areads_f :
    (forall k q x i tr, areads g w k q x i tr -> areads g w' k q x i (map_values f tr)) /\
    (forall p j x ks cs, areads_all g w p j x ks cs -> areads_all g w' p j x ks (map (map_values f) cs)).
  Proof.
    apply areads_areads_all_ind.
    - intros k q x i tok A. apply ac_f in A. rewrite <- (map_length (with_value f) w) in A. exact (ard_leaf g w' k q x i (with_value f tok) A).
    - intros k q x i K p j ak ks cs A Ak Ch _ IH. apply ac_f in A. rewrite <- (map_length (with_value f) w) in A. apply chain_f in Ch.
      cbn [map_values]. exact (ard_br g w' k q x i K p j ak ks _ A Ak Ch IH).
    - intros. constructor.
    - intros p j x k ks c cs _ IH1 _ IH2. constructor; assumption.
  Qed.
  Lemma areads_b :
    (forall k q x i tr', areads g w' k q x i tr' -> exists tr, areads g w k q x i tr /\ map_values f tr = tr') /\
    (forall p j x ks cs', areads_all g w' p j x ks cs' -> exists cs, areads_all g w p j x ks cs /\ map (map_values f) cs = cs').
  Proof.
    apply areads_areads_all_ind.
    - intros k q x i tok A. rewrite map_length in A. apply ac_b in A. destruct A as (c & Ec & A). destruct c as [tok0|]; [|discriminate]. injection Ec as ->.
      eexists. split; [exact (ard_leaf g w _ _ _ _ _ A)|reflexivity].
    - intros k q x i K p j ak ks cs A Ak Ch _ (cs0 & IH & <-). rewrite map_length in A. apply ac_b in A. destruct A as (c & Ec & A).
      destruct c as [|K0 p1 j0]; [discriminate|]. injection Ec as -> -> ->. apply chain_f in Ch.
      exists (PBranch ak cs0). split; [exact (ard_br g w k q x i _ _ _ ak ks _ A Ak Ch IH)|reflexivity].
    - intros. exists []. split; [constructor|reflexivity].
    - intros p j x k ks c cs _ (c0 & IH1 & <-) _ (cs0 & IH2 & <-). exists (c0 :: cs0). split; [constructor; assumption|reflexivity].
  Qed.
  Lemma areads_values k q x i tr' : areads g w' k q x i tr' <-> exists tr, areads g w k q x i tr /\ map_values f tr = tr'.
  Proof. split; [apply areads_b|intros (tr & A & <-); apply areads_f; exact A]. Qed.
End Iff.

(** ** Positions *)
Lemma map_values_ext {T AK V V'} (f h : V -> V') : (forall v, f v = h v) -> forall tr : ptree T AK V, map_values f tr = map_values h tr.
Proof.
  intro X. fix F 1. intros [k v|a cs]; cbn [map_values]; [rewrite X; reflexivity|]. f_equal. revert cs. fix Fs 1. intros [|c cs]; [reflexivity|].
  cbn [map]. rewrite (F c), (Fs cs). reflexivity.
Qed.
Section Positions.
  Context {T NT AK AV V : Type} `{OrdEq T} `{OrdEq NT} `{OrdEq AK}.
  Variable g : Grammar T NT AK AV.
  (** The tokens of [w] with their positions as values. *)
  Fixpoint numbered (n : nat) (ks : list T) : list (Token T nat) :=
    match ks with [] => [] | k :: ks => Build_Token k n :: numbered (S n) ks end.
  Lemma numbered_kinds ks : forall n, map tk_kind (numbered n ks) = ks.
  Proof. induction ks as [|k ks IH]; intro n; cbn; [|rewrite IH]; reflexivity. Qed.
  Lemma numbered_fill (w : list (Token T V)) : forall pre,
    map (with_value (fun i => option_map tk_value (nth_error (pre ++ w) i))) (numbered (length pre) (map tk_kind w)) = map (with_value Some) w.
  Proof.
    induction w as [|[k v] w IH]; intro pre; [reflexivity|]. cbn [map numbered]. f_equal.
    - unfold with_value. cbn. rewrite nth_error_app2, Nat.sub_diag by lia. reflexivity.
    - specialize (IH (pre ++ [Build_Token k v])). rewrite <- app_assoc, app_length, Nat.add_1_r in IH. exact IH.
  Qed.
  Lemma some_inj : forall x y : ptree T AK V, map_values Some x = map_values Some y -> x = y.
  Proof.
    fix F 1. intros [k v|a cs] [k' v'|a' cs'] Eq; try discriminate; cbn [map_values] in Eq; [injection Eq as -> ->; reflexivity|].
    injection Eq as -> Eq. f_equal. revert cs cs' Eq. fix Fs 1. intros [|c cs] [|c' cs'] Eq; try discriminate; [reflexivity|].
    cbn [map] in Eq. injection Eq as E1 E2. rewrite (F c c' E1), (Fs cs cs' E2). reflexivity.
  Qed.
  Lemma areads_positions (w : list (Token T V)) k q x i tr :
    areads g w k q x i tr <-> exists y, areads g (numbered 0 (map tk_kind w)) k q x i y /\ fills w y tr.
  Proof.
    assert (E1 : areads g w k q x i tr <-> areads g (map (with_value Some) w) k q x i (map_values Some tr)).
    { rewrite areads_values. split; [eauto|]. intros (tr0 & A & Eq). apply some_inj in Eq. subst. exact A. }
    rewrite E1, <- (numbered_fill w []). cbn [length app]. rewrite areads_values. reflexivity.
  Qed.
End Positions.
