(** The whole Earley parser: every item is found, every tree is read, and when it panics. *)
From Coq Require Import String List Arith NArith Lia Bool.
From Verif.Model Require Import Ord BTree Outcome Utils Grammar StartGrammar Tokens Tree State Earley.
From Verif.Spec Require Import Reach Cfg BuildSpec NullSpec EarleySpec.
From Verif.Proofs Require Import OrdFacts BTreeFacts LoopFacts GrammarFacts StartFacts NullableFacts TreeFacts TreeHist EarleyItems EarleyRun.
Import ListNotations.

(** ** Reading forests *)
Section ReadFacts.
  Context {T AK V : Type} `{OrdEq T} `{OrdEq AK} `{OrdEq V}.
  Implicit Types t : Inner T AK V.

  Scheme reads_mut := Induction for reads Sort Prop
    with reads_all_mut := Induction for reads_all Sort Prop.
  Combined Scheme reads_reads_all_ind from reads_mut, reads_all_mut.

  Lemma get_node_nalts t n a : In a (nalts t n) -> exists s, get_node t n = Ret s /\ In a s.
  Proof. unfold nalts, get_node. destruct (nth_error (in_nodes t) n) as [s|]; intro I; [exists s; auto|destruct I]. Qed.
  Lemma get_node_In t n s a : get_node t n = Ret s -> In a s -> In a (nalts t n).
  Proof. unfold nalts, get_node. destruct (nth_error (in_nodes t) n) as [s'|]; intros [= ->]; auto. Qed.
  Lemma get_alt_acont t a c : get_alt t a = Ret c <-> acont t a = Some c.
  Proof. unfold get_alt, acont. destruct (nth_error _ a) as [c'|]; simpl; split; congruence. Qed.

  Lemma reads_leaf' t n a k v : In a (nalts t n) -> acont t a = Some (CLeaf k v) -> reads t n (PLeaf k v).
  Proof. intros I A. destruct (get_node_nalts _ _ _ I) as (s & E & I'). eapply reads_leaf; [exact E|exact I'|apply get_alt_acont; exact A]. Qed.
  Lemma reads_branch' t n a x ns cs : In a (nalts t n) -> acont t a = Some (CBranch x ns) -> reads_all t ns cs -> reads t n (PBranch x cs).
  Proof. intros I A R. destruct (get_node_nalts _ _ _ I) as (s & E & I'). eapply reads_branch; [exact E|exact I'|apply get_alt_acont; exact A|exact R]. Qed.
  Lemma reads_inv t n tr : reads t n tr ->
    (exists a k v, tr = PLeaf k v /\ In a (nalts t n) /\ acont t a = Some (CLeaf k v)) \/
    (exists a x ns cs, tr = PBranch x cs /\ In a (nalts t n) /\ acont t a = Some (CBranch x ns) /\ reads_all t ns cs).
  Proof.
    intros [m s a k v G I A|m s a x ns cs G I A R].
    - left. exists a, k, v. split; [reflexivity|]. split; [exact (get_node_In _ _ _ _ G I)|]. apply get_alt_acont. exact A.
    - right. exists a, x, ns, cs. split; [reflexivity|]. split; [exact (get_node_In _ _ _ _ G I)|]. split; [apply get_alt_acont; exact A|exact R].
  Qed.
  Lemma reads_incl t n m tr : incl (nalts t n) (nalts t m) -> reads t n tr -> reads t m tr.
  Proof.
    intros Ic R. apply reads_inv in R. destruct R as [(a & k & v & -> & I & A)|(a & x & ns & cs & -> & I & A & R)].
    - exact (reads_leaf' _ _ _ _ _ (Ic _ I) A).
    - exact (reads_branch' _ _ _ _ _ _ (Ic _ I) A R).
  Qed.
  Lemma reads_all_app t v v' ts ts' : reads_all t v ts -> reads_all t v' ts' -> reads_all t (v ++ v') (ts ++ ts').
  Proof. intros R1 R2. induction R1 as [|n ns c cs R _ IH]; simpl; [exact R2|]. constructor; [exact R|exact IH]. Qed.
  Lemma reads_mono t t' : (forall n, incl (nalts t n) (nalts t' n)) -> (forall a c, acont t a = Some c -> acont t' a = Some c) ->
    (forall n tr, reads t n tr -> reads t' n tr) /\ (forall ns ts, reads_all t ns ts -> reads_all t' ns ts).
  Proof.
    intros Ni Ak. apply reads_reads_all_ind.
    - intros n s a k v G I A. apply (reads_leaf' t' n a); [apply Ni; exact (get_node_In _ _ _ _ G I)|]. apply Ak, get_alt_acont. exact A.
    - intros n s a x ns cs G I A _ IH. apply (reads_branch' t' n a x ns); [apply Ni; exact (get_node_In _ _ _ _ G I)| |exact IH].
      apply Ak, get_alt_acont. exact A.
    - constructor.
    - intros; constructor; auto.
  Qed.
End ReadFacts.

Section Parse.
  Context {T NT AK AV V : Type} `{OrdEq T} `{OrdEq NT} `{OrdEq AK} `{OrdEq V}.
  Variable g : Grammar T NT AK AV.
  Hypothesis Bg : accepted g.
  Local Notation SP := (Prod (StreamTerminal T) (StartNonTerminal NT) (StartActionKey AK) (StartActionValue AV)).
  Local Notation sg := (wrapg g).
  Local Notation tree := (Inner T AK V).
  Local Notation ESet := (EarleyStateSet T NT AK AV).
  Variable lay : layout (StartNonTerminal NT).
  Hypothesis Inj : lay_inj sg lay.
  Variable w : list (Token T V).
  Implicit Types (t : tree).

  Definition tmono t t' : Prop :=
    (forall n, incl (nalts t n) (nalts t' n)) /\ (forall a c, acont t a = Some c -> acont t' a = Some c).
  Lemma tmono_trans t1 t2 t3 : tmono t1 t2 -> tmono t2 t3 -> tmono t1 t3.
  Proof. intros [A1 B1] [A2 B2]. split; [intros n x I; apply A2, A1; exact I|auto]. Qed.

  (** ** Everything that is there is found *)
  Section Claim.
    Context {Lc : Type}.
    Variable lfc : SP * nat * nat -> nat -> Token T V -> Lc.
    Variable brc : SP * nat * nat -> SP -> nat -> nat -> list Lc -> Lc.
    Variable RD : tree -> list nat -> list Lc -> Prop.
    Local Notation itc := (item g w lfc brc).
    Record good_rd : Prop := {
      rd_nil : forall t, RD t [] [];
      rd_move : forall t t' v v1 ls, tmono t t' -> Forall2 (fun n1 n => incl (nalts t n) (nalts t' n1)) v1 v -> RD t v ls -> RD t' v1 ls;
      rd_leaf : forall t v ls m a x k tok, RD t v ls ->
        In a (nalts t m) -> acont t a = Some (CLeaf (tk_kind tok) (tk_value tok)) -> RD t (v ++ [m]) (ls ++ [lfc x k tok]);
      rd_branch : forall t v ls m a x p j k v' ls' ak, RD t v ls ->
        In a (nalts t m) -> acont t a = Some (CBranch ak v') -> action_key p = ActionKey ak -> RD t v' ls' ->
        RD t (v ++ [m]) (ls ++ [brc x p j k ls'])
    }.
    Lemma rd_mono : good_rd -> forall t t' v ls, tmono t t' -> RD t v ls -> RD t' v ls.
    Proof. intros G t t' v ls M. apply (rd_move G); [exact M|]. apply Forall2_same. exact (proj1 M). Qed.
    Hypothesis G : good_rd.
    Definition Claim (sets : list ESet) t : Prop :=
      forall j s p d i ls, nth_error sets j = Some s -> itc j p d i ls -> exists v, In (mkk p d i, v) s /\ RD t v ls.
    Lemma Claim_mono sets t t' : tmono t t' -> Claim sets t -> Claim sets t'.
    Proof. intros M C j s p d i ls E I. destruct (C j s p d i ls E I) as (v & Iv & R). exists v. split; [exact Iv|]. exact (rd_mono G _ _ _ _ M R). Qed.

    Lemma Claim_close K prev s t : length prev = K -> Claim prev t -> Closed g K prev s t ->
      (K = 0 -> In (mkk (p0 g) 0 0, []) s) ->
      (forall k q d i ls tok, K = S k -> itc k q d i ls -> nth_error (elements q) d = Some (Term (STerm (tk_kind tok))) ->
         nth_error w k = Some tok -> exists v, In (mkk q (S d) i, v) s /\ RD t v (ls ++ [lfc (q, d, i) k tok])) ->
      Claim (prev ++ [s]) t.
    Proof.
      intros LK Cp [Cl1 Cl2] Sd Sc.
      assert (X : forall j p d i ls, itc j p d i ls -> j <= K ->
        exists s', nth_error (prev ++ [s]) j = Some s' /\ exists v, In (mkk p d i, v) s' /\ RD t v ls).
      { assert (Old : forall j p d i ls, itc j p d i ls -> j < K ->
          exists s', nth_error (prev ++ [s]) j = Some s' /\ exists v, In (mkk p d i, v) s' /\ RD t v ls).
        { intros j p d i ls I L. destruct (nth_error prev j) as [s'|] eqn:E; [|apply nth_error_None in E; lia].
          exists s'. split; [rewrite nth_error_app1 by lia; exact E|]. exact (Cp j s' p d i ls E I). }
        assert (Cur : nth_error (prev ++ [s]) K = Some s) by (rewrite nth_error_app2, LK, Nat.sub_diag by lia; reflexivity).
        intros j p d i ls I. induction I as [|k q d i ls p Iq IH N Ip|k q d i ls tok Iq IH N E|j q d i ls k p ls' Iq IH1 N Ic IH2]; intro L.
        - destruct (Nat.eq_dec 0 K) as [E|]; [|apply Old; [constructor|lia]]. rewrite <- E in Cur. exists s. split; [exact Cur|].
          exists []. split; [apply Sd; auto|apply (rd_nil G)].
        - destruct (Nat.eq_dec k K) as [->|]; [|apply Old; [eapply it_predict; eassumption|lia]]. exists s. split; [exact Cur|].
          destruct (IH L) as (s' & E' & v & Iv & _). rewrite Cur in E'. injection E' as <-.
          exists []. split; [exact (Cl1 _ _ _ _ _ Iv N Ip)|apply (rd_nil G)].
        - destruct (Nat.eq_dec (S k) K) as [E'|]; [|apply Old; [eapply it_scan; eassumption|lia]]. rewrite E'. exists s. split; [exact Cur|].
          exact (Sc k q d i ls tok (eq_sym E') Iq N E).
        - destruct (Nat.eq_dec k K) as [->|]; [|apply Old; [eapply it_complete; eassumption|lia]]. exists s. split; [exact Cur|].
          destruct (item_facts g Bg w lfc brc _ _ _ _ _ Ic) as (Lj & _).
          destruct (IH1 Lj) as (s1 & E1 & v & Iv & R1). destruct (IH2 L) as (s2 & E2 & v' & Iv' & R2).
          rewrite Cur in E2. injection E2 as <-.
          destruct (Cl2 p j v' s1 q d i v Iv' E1 Iv N) as (v1 & m1 & a & ak & J1 & J2 & J3 & J4 & J5).
          exists (v1 ++ [m1]). split; [exact J1|].
          apply (rd_branch G t v1 ls m1 a (q, d, i) p j K v' ls' ak); try assumption.
          apply (rd_move G t t v v1 ls); [split; [intros n x Ix; exact Ix|auto]|exact J2|exact R1]. }
      intros j s' p d i ls E I. assert (L : j <= K).
      { assert (j < length (prev ++ [s])) by (apply nth_error_Some; congruence). rewrite app_length in H7. simpl in H7. lia. }
      destruct (X j p d i ls I L) as (s2 & E2 & R). rewrite E in E2. injection E2 as <-. exact R.
    Qed.
    Lemma scanned k p d i ls : itc k p d i ls -> forall k0, k = S k0 -> exists q d' i' ls' tok,
      itc k0 q d' i' ls' /\ nth_error (elements q) d' = Some (Term (STerm (tk_kind tok))) /\ nth_error w k0 = Some tok.
    Proof.
      intro I. induction I as [|k q d i ls p Iq IH N Ip|k q d i ls tok Iq IH N E|j q d i ls k p ls' Iq IH1 N Ic IH2]; intros k0 Ek.
      - discriminate.
      - exact (IH k0 Ek).
      - injection Ek as <-. exists q, d, i, ls, tok. auto.
      - exact (IH2 k0 Ek).
    Qed.
  End Claim.

  Definition ulf (_ : SP * nat * nat) (_ : nat) (_ : Token T V) : unit := tt.
  Definition ubr (_ : SP * nat * nat) (_ : SP) (_ _ : nat) (_ : list unit) : unit := tt.
  Definition urd (_ : tree) (_ : list nat) (_ : list unit) : Prop := True.
  Lemma good_urd : good_rd ulf ubr urd.
  Proof. constructor; intros; exact I. Qed.
  Lemma good_reads dflt : good_rd tleaf (tbranch dflt) (@reads_all T AK V).
  Proof.
    constructor.
    - constructor.
    - intros t t' v v1 ls [M1 M2] F. revert ls. induction F as [|n1 n v1 v Ic _ IH]; intros ls R; inversion R as [|n0 ns c cs Rn Rs]; subst; constructor; [|auto].
      apply reads_inv in Rn. destruct Rn as [(a & k & x & -> & I & A)|(a & x & ns & cs' & -> & I & A & R')].
      + exact (reads_leaf' _ _ _ _ _ (Ic _ I) (M2 _ _ A)).
      + apply (reads_branch' _ _ _ _ _ _ (Ic _ I) (M2 _ _ A)). apply (reads_mono t t' M1 M2). exact R'.
    - intros t v ls m a x k tok R I A. apply reads_all_app; [exact R|].
      constructor; [|constructor]. exact (reads_leaf' _ _ _ _ _ I A).
    - intros t v ls m a x p j k v' ls' ak R I A Ak R'. apply reads_all_app; [exact R|].
      constructor; [|constructor]. unfold tbranch. rewrite Ak. simpl. exact (reads_branch' _ _ _ _ _ _ I A R').
  Qed.

  (** ** Running *)
  Section WithLabels.
    Context {Lb : Type}.
    Variable lfl : SP * nat * nat -> nat -> Token T V -> Lb.
    Variable brl : SP * nat * nat -> SP -> nat -> nat -> list Lb -> Lb.
    Local Notation itm := (item g w lfl brl).
    Hypothesis lab_fun : forall k p d i ls ls', itm k p d i ls -> itm k p d i ls' -> ls = ls'.
    Local Notation LInv := (LInv g w lfl brl).
    Local Notation SInv := (SInv g lay w lfl brl).
    Implicit Types (lab : nat -> option Lb).

    Definition Claims sets t : Prop :=
      Claim ulf ubr urd sets t /\ forall dflt, Claim tleaf (tbranch dflt) (@reads_all T AK V) sets t.
    (** The parser cannot go on at [K]: nothing is there, or two keys collide. *)
    Definition bad K : Prop := ~ (exists p d i ls, itm K p d i ls) \/ collision g w lfl brl K.
    Definition badm (m : string) K : Prop :=
      (m = "assertion failed: !new_state.is_empty()"%string /\ ~ (exists p d i ls, itm K p d i ls)) \/ clash g w lfl brl m K.

    Record PInv t0 K (sets : list ESet) t lab : Prop := {
      pi_len : length sets = S K;
      pi_linv : LInv t lab;
      pi_ext : ext t0 (fun _ => None) t lab;
      pi_sets : forall j s, nth_error sets j = Some s -> SInv j s lab /\ s <> [];
      pi_claims : Claims sets t
    }.

    Lemma ext_tmono t1 l1 t2 l2 : ext (Lb := Lb) t1 l1 t2 l2 -> tmono t1 t2.
    Proof. intro X. split; [exact (ex_nalts _ _ _ _ X)|exact (proj2 (ex_tle _ _ _ _ X))]. Qed.
    Lemma item_u K p d i ls : itm K p d i ls -> exists ls', item g w ulf ubr K p d i ls'.
    Proof. apply item_change. Qed.

    Lemma PInv_good t0 K sets t lab : PInv t0 K sets t lab -> forall j, j <= K -> ~ bad j.
    Proof.
      intros I j L. assert (exists s, nth_error sets j = Some s) as (s & E).
      { destruct (nth_error sets j) as [s|] eqn:E; [eauto|]. apply nth_error_None in E. rewrite (pi_len _ _ _ _ _ I) in E. lia. }
      destruct (pi_sets _ _ _ _ _ I j s E) as [S Ne]. intros [B|(p & d & d' & i & ls & ls' & I1 & I2 & Nd)].
      - destruct s as [|[k v] s]; [congruence|]. destruct (proj2 S k v (or_introl eq_refl)) as (ls & It & _). apply B. eauto.
      - apply item_u in I1. apply item_u in I2. destruct I1 as (l1 & I1). destruct I2 as (l2 & I2).
        destruct (proj1 (pi_claims _ _ _ _ _ I) _ _ _ _ _ _ E I1) as (v1 & J1 & _).
        destruct (proj1 (pi_claims _ _ _ _ _ I) _ _ _ _ _ _ E I2) as (v2 & J2 & _).
        destruct (SInv_unique g Bg lay Inj w lfl brl _ _ _ _ _ _ _ _ _ S J1 J2). congruence.
    Qed.

    Lemma start_step t0 : TInv t0 ->
      exists r, runs_to (fun fuel => s <- new_start lay sg t0 ;; close_state lay sg [] s fuel) r /\
        match r with
        | Ret (s, t) => exists lab, PInv t0 0 [s] t lab
        | Panic m => badm m 0
        | NoFuel => False
        end.
    Proof.
      intro T0.
      assert (R0 : new_start lay sg t0 = Ret ([(mkk (p0 g) 0 0, [])], t0)).
      { unfold new_start. change (start_nt sg) with (@Start NT).
        pose proof (wrap_start_rule g Bg) as R. unfold start_rule in R. change (calls_grammar Start (wrap_start_call g :: map wrap_rule_call (rules g))) with sg in R.
        rewrite R. reflexivity. }
      assert (L0 : LInv t0 (fun _ => None)).
      { constructor; [exact T0|intros; discriminate|intros; discriminate]. }
      assert (S0 : SInv 0 [(mkk (p0 g) 0 0, [])] (fun _ => None)).
      { split; [repeat constructor|]. intros k v [[= <- <-]|[]]. exists []. split; [constructor|constructor]. }
      destruct (close_step g Bg lay Inj w lfl brl lab_fun 0 [] [(mkk (p0 g) 0 0, [])] t0 (fun _ => None) eq_refl L0) with (2 := S0) as (r & Rr & Pr).
      { intros [|j] s E; discriminate. }
      exists r. split.
      - apply (runs_to_ext (close_state lay sg [] ([(mkk (p0 g) 0 0, [])], t0))); [|exact Rr]. intro n. rewrite R0. reflexivity.
      - destruct r as [[s t]|m|]; [| |exact Pr].
        + destruct Pr as (_ & lab & L1 & S1 & X1 & Ic & Cl). exists lab.
          assert (Is : In (mkk (p0 g) 0 0, []) s) by (apply Ic; left; reflexivity).
          constructor; [reflexivity|exact L1|exact X1| |].
          * intros [|[|j]] s' E; simpl in E; try discriminate. injection E as <-. split; [exact S1|]. intro Z. rewrite Z in Is. destruct Is.
          * assert (Z : forall (Lc : Type) lfc brc (RD : tree -> list nat -> list Lc -> Prop), good_rd lfc brc RD -> Claim lfc brc RD [s] t).
            { intros Lc lfc brc RD Gd. apply (Claim_close lfc brc RD Gd 0 [] s t); [reflexivity| |exact Cl|auto|intros; discriminate].
              intros [|j] s' p d i ls E; discriminate. }
            split; [apply Z, good_urd|intro dflt; apply Z, good_reads].
        + destruct Pr as [[_ Z]|C]; [discriminate|right; exact C].
    Qed.
    Lemma last_nth {A} (l : list A) n : length l = S n -> last (map Some l) None = nth_error l n.
    Proof.
      revert n. induction l as [|x l IH]; intros n E; [discriminate|]. injection E as E. destruct l as [|y l].
      - simpl in E. subst n. reflexivity.
      - destruct n as [|n]; [discriminate|]. change (last (map Some (x :: y :: l)) None) with (last (map Some (y :: l)) None).
        rewrite (IH n E). reflexivity.
    Qed.

    Lemma shift_step t0 K sets t lab tok : PInv t0 K sets t lab -> nth_error w K = Some tok ->
      exists r, runs_to (fun fuel => last <- expect (last (map Some sets) None) "called `Option::unwrap()` on a `None` value" ;;
        s <- shift lay last tok t ;; close_state lay sg sets s fuel) r /\
        match r with
        | Ret (s, t') => exists lab', PInv t0 (S K) (sets ++ [s]) t' lab'
        | Panic m => badm m (S K)
        | NoFuel => False
        end.
    Proof.
      intros I Ew. destruct (nth_error sets K) as [last|] eqn:El; [|apply nth_error_None in El; rewrite (pi_len _ _ _ _ _ I) in El; lia].
      destruct (pi_sets _ _ _ _ _ I K last El) as [Sl _].
      pose proof (scans_step g Bg lay Inj w lfl brl lab_fun K tok Ew (states last) t lab [] (pi_linv _ _ _ _ _ I)) as St.
      rewrite (last_nth sets K (pi_len _ _ _ _ _ I)), El. cbn [expect obind].
      assert (Se : SInv (S K) [] lab) by (split; [constructor|intros k v []]).
      specialize (St Se). assert (Ok : forall st, In st (states last) -> stok g w lfl brl K lab st).
      { intros st Is. apply states_In in Is. destruct st as [k v]. exact (proj2 Sl _ _ Is). }
      specialize (St Ok). unfold shift.
      match type of St with match ?x with Ret _ => _ | Panic _ => _ | NoFuel => _ end => destruct x as [[s1 t1]|m|] eqn:Es end; [| |destruct St].
      all: match goal with |- context [from_scans lay ?a ?b ?c] => change (from_scans lay a b c) with (from_scans lay (states last) tok (@pair (EarleyStateSet T NT AK AV) tree (@nil (EarleyStateKey T NT AK AV * list nat)) t)) end.
      all: rewrite Es; cbn [obind].
      - destruct St as (lab1 & L1 & S1 & X1 & _ & Cov).
        destruct (close_step g Bg lay Inj w lfl brl lab_fun (S K) sets s1 t1 lab1 (pi_len _ _ _ _ _ I) L1) with (2 := S1) as (r & Rr & Pr).
        { intros j s E. apply (SInv_mono g lay w lfl brl _ _ lab); [exact (ex_lab _ _ _ _ X1)|]. exact (proj1 (pi_sets _ _ _ _ _ I j s E)). }
        exists r. split; [exact Rr|]. destruct r as [[s2 t2]|m|]; [| |exact Pr].
        + destruct Pr as (Ne & lab2 & L2 & S2 & X2 & Ic & Cl). exists lab2.
          assert (Sc : forall (Lc : Type) lfc brc (RD : tree -> list nat -> list Lc -> Prop), good_rd lfc brc RD -> Claim lfc brc RD sets t ->
            forall k q d i ls tok', S K = S k -> item g w lfc brc k q d i ls -> nth_error (elements q) d = Some (Term (STerm (tk_kind tok'))) ->
            nth_error w k = Some tok' -> exists v, In (mkk q (S d) i, v) s2 /\ RD t2 v (ls ++ [lfc (q, d, i) k tok'])).
          { intros Lc lfc brc RD Gd C k q d i ls tok' [= <-] It N Ek. assert (tok' = tok) as -> by congruence.
            destruct (C K last q d i ls El It) as (v & Iv & R).
            destruct (Cov q d i v) as (v1 & m1 & a & J1 & J2 & J3 & J4); [apply states_In; exact Iv|exact N|].
            exists (v1 ++ [m1]). split; [apply Ic; exact J1|].
            apply (rd_mono _ _ _ Gd t1 t2); [exact (ext_tmono _ _ _ _ X2)|].
            apply (rd_leaf _ _ _ Gd t1 v1 ls m1 a (q, d, i) K tok); [|exact J3|exact J4].
            apply (rd_move _ _ _ Gd t t1 v v1 ls); [exact (ext_tmono _ _ _ _ X1)|exact J2|exact R]. }
          constructor.
          * rewrite app_length. simpl. rewrite (pi_len _ _ _ _ _ I). lia.
          * exact L2.
          * exact (ext_trans _ _ _ _ _ _ (pi_ext _ _ _ _ _ I) (ext_trans _ _ _ _ _ _ X1 X2)).
          * intros j s E. assert (Lj : j < S (S K)).
            { assert (j < length (sets ++ [s2])) by (apply nth_error_Some; congruence). rewrite app_length, (pi_len _ _ _ _ _ I) in H7. simpl in H7. lia. }
            destruct (Nat.eq_dec j (S K)) as [->|Nj].
            -- rewrite nth_error_app2, (pi_len _ _ _ _ _ I), Nat.sub_diag in E by (rewrite (pi_len _ _ _ _ _ I); lia). injection E as <-.
               split; [exact S2|]. intro Z. rewrite Z in Ic. destruct s1; [congruence|]. exact (Ic p (or_introl eq_refl)).
            -- rewrite nth_error_app1 in E by (rewrite (pi_len _ _ _ _ _ I); lia). destruct (pi_sets _ _ _ _ _ I j s E) as [Sj Nej].
               split; [|exact Nej]. apply (SInv_mono g lay w lfl brl _ _ lab); [|exact Sj].
               intros n l E1. apply (ex_lab _ _ _ _ X2), (ex_lab _ _ _ _ X1). exact E1.
          * assert (Z : forall (Lc : Type) lfc brc (RD : tree -> list nat -> list Lc -> Prop), good_rd lfc brc RD -> Claim lfc brc RD sets t -> Claim lfc brc RD (sets ++ [s2]) t2).
            { intros Lc lfc brc RD Gd C. apply (Claim_close lfc brc RD Gd (S K) sets s2 t2); [exact (pi_len _ _ _ _ _ I)| |exact Cl|discriminate|].
              - apply (Claim_mono lfc brc RD Gd sets t t2); [|exact C]. exact (tmono_trans _ _ _ (ext_tmono _ _ _ _ X1) (ext_tmono _ _ _ _ X2)).
              - exact (Sc Lc lfc brc RD Gd C). }
            destruct (pi_claims _ _ _ _ _ I) as [Cu Cr]. split; [apply Z; [apply good_urd|exact Cu]|intro dflt; apply Z; [apply good_reads|apply Cr]].
        + destruct Pr as [[-> ->]|C]; [|right; exact C]. left. split; [reflexivity|]. intros (p & d & i & ls & It).
          destruct (item_u _ _ _ _ _ It) as (lu & Iu). destruct (scanned ulf ubr _ _ _ _ _ Iu K eq_refl) as (q & d' & i' & ls' & tok' & Iq & N & E').
          assert (tok' = tok) as -> by congruence.
          destruct (proj1 (pi_claims _ _ _ _ _ I) K last q d' i' ls' El Iq) as (v & Iv & _).
          destruct (Cov q d' i' v) as (v1 & m1 & a & [] & _); [apply states_In; exact Iv|exact N].
      - exists (Panic m). split; [apply runs_to_const; discriminate|]. right. exact St.
    Qed.

    Lemma tokens_step t0 : forall rest K sets t lab, PInv t0 K sets t lab -> K + length rest = length w -> skipn K w = rest ->
      exists r, runs_to (fun fuel => parse_tokens lay sg rest sets t fuel) r /\
        match r with
        | Ret (sets', t') => exists lab', PInv t0 (length w) sets' t' lab'
        | Panic m => exists j, j <= length w /\ badm m j /\ forall i, i < j -> ~ bad i
        | NoFuel => False
        end.
    Proof.
      induction rest as [|tok rest IH]; intros K sets t lab I Lw Er; cbn [parse_tokens].
      - exists (Ret (sets, t)). split; [apply runs_to_ret|]. simpl in Lw. rewrite Nat.add_0_r in Lw. subst K. eauto.
      - destruct (nth_skipn _ _ _ _ Er) as [Ew Er']. simpl in Lw.
        destruct (shift_step t0 K sets t lab tok I Ew) as (r & Rr & Pr).
        destruct r as [[s t']|m|]; [| |destruct Pr].
        + destruct Pr as (lab' & I'). destruct (IH (S K) (sets ++ [s]) t' lab' I') as (r2 & R2 & P2); [lia|exact Er'|].
          exists r2. split; [|exact P2].
          apply (runs_to_ext (fun fuel => '(new_state, t'') <- (last <- expect (last (map Some sets) None) "called `Option::unwrap()` on a `None` value" ;;
             s <- shift lay last tok t ;; close_state lay sg sets s fuel) ;; parse_tokens lay sg rest (sets ++ [new_state]) t'' fuel)).
          * intro n. destruct (expect _ _) as [l|m|]; [|reflexivity|reflexivity]. cbn [obind]. destruct (shift _ _ _ _) as [x|m|]; reflexivity.
          * exact (runs_to_bind _ (fun fuel '(new_state, t'') => parse_tokens lay sg rest (sets ++ [new_state]) t'' fuel) _ _ Rr R2).
        + exists (Panic m). split; [|exists (S K); split; [lia|split; [exact Pr|intros i Li; apply (PInv_good _ _ _ _ _ I); lia]]].
          apply (runs_to_ext (fun fuel => '(new_state, t'') <- (last <- expect (last (map Some sets) None) "called `Option::unwrap()` on a `None` value" ;;
             s <- shift lay last tok t ;; close_state lay sg sets s fuel) ;; parse_tokens lay sg rest (sets ++ [new_state]) t'' fuel)).
          * intro n. destruct (expect _ _) as [l|m'|]; [|reflexivity|reflexivity]. cbn [obind]. destruct (shift _ _ _ _) as [x|m'|]; reflexivity.
          * exact (runs_to_bind_panic _ (fun fuel '(new_state, t'') => parse_tokens lay sg rest (sets ++ [new_state]) t'' fuel) m Rr).
    Qed.

    (** ** The final entry *)
    Lemma final_key p d i ls K : itm K p d i ls -> is_final_key (mkk p d i) = true -> p = p0 g /\ d = 1 /\ i = 0.
    Proof.
      intros It F. unfold is_final_key in F. cbn [ek_prod_state mkk] in F. rewrite next_elem_mk in F.
      pose proof (item_facts g Bg w lfl brl _ _ _ _ _ It) as (_ & _ & _ & _ & Ip).
      destruct (sprod_inv g Bg p Ip) as [->|(A & ix & q & -> & _)].
      - destruct (item_p0 g Bg w lfl brl _ _ _ _ _ It eq_refl) as (-> & Ld & _). destruct d as [|[|d]]; [discriminate|auto|lia].
      - rewrite wP_elements, nth_error_map in F. destruct (nth_error (elements_iter q) d) as [[x|x]|]; discriminate.
    Qed.
    Lemma final_step K s lab : SInv K s lab ->
      exists o, get_final s = Ret o /\
        match o with
        | Some m => In (mkk (p0 g) 1 0, [m]) s
        | None => forall v, ~ In (mkk (p0 g) 1 0, v) s
        end.
    Proof.
      intro S. assert (X : forall s', incl s' s -> exists o, get_final s' = Ret o /\
        match o with
        | Some m => In (mkk (p0 g) 1 0, [m]) s
        | None => forall v, ~ In (mkk (p0 g) 1 0, v) s'
        end).
      { induction s' as [|[k v] s' IH]; intro Ic; cbn [get_final].
        - exists None. split; [reflexivity|]. intros v [].
        - destruct IH as (o & R & Po); [intros x Ix; apply Ic; right; exact Ix|].
          destruct (proj2 S k v (Ic _ (or_introl eq_refl))) as (ls & It & Fv). cbn [es_key es_value] in It, Fv.
          destruct (is_final_key k) eqn:F.
          + rewrite (key_eta k) in F. destruct (final_key _ _ _ _ _ It F) as (E1 & E2 & E3).
            destruct (item_facts g Bg w lfl brl _ _ _ _ _ It) as (_ & _ & _ & Ll & _).
            pose proof (labs_length _ _ _ Fv) as Lv. rewrite E2 in Ll. rewrite Ll in Lv. destruct v as [|m [|]]; try discriminate.
            exists (Some m). split; [reflexivity|]. apply Ic. left. rewrite (key_eta k), E1, E2, E3. reflexivity.
          + exists o. split; [exact R|]. destruct o as [m|]; [exact Po|]. intros v' [[= -> _]|I]; [|exact (Po v' I)].
            discriminate F. }
      destruct (X s (incl_refl _)) as (o & R & Po). exists o. auto.
    Qed.

    Theorem parse_labelled t0 : TInv t0 ->
      exists r, runs_to (fun fuel => parse lay sg w t0 fuel) r /\
        match r with
        | Ret (o, t) => (forall j, j <= length w -> ~ bad j) /\
            exists lab, LInv t lab /\ ext t0 (fun _ => None) t lab /\
              match o with
              | Some m => exists l, itm (length w) (p0 g) 1 0 [l] /\ lab m = Some l /\
                  forall dflt tr, item g w tleaf (tbranch dflt) (length w) (p0 g) 1 0 [tr] -> reads t m tr
              | None => forall ls, ~ itm (length w) (p0 g) 1 0 ls
              end
        | Panic m => exists j, j <= length w /\ badm m j /\ forall i, i < j -> ~ bad i
        | NoFuel => False
        end.
    Proof.
      intro T0. destruct (start_step t0 T0) as (r & Rr & Pr).
      assert (E : forall n, parse lay sg w t0 n = ('(init_state, t1) <- (s <- new_start lay sg t0 ;; close_state lay sg [] s n) ;;
        ('(sets, t2) <- parse_tokens lay sg w [init_state] t1 n ;;
         (last <- expect (last (map Some sets) None) "called `Option::unwrap()` on a `None` value" ;; r <- get_final last ;; Ret (r, t2))))).
      { intro n. unfold parse. destruct (new_start _ _ _) as [s|m|]; reflexivity. }
      destruct r as [[s1 t1]|m|]; [| |destruct Pr].
      - destruct Pr as (lab1 & I1). destruct (tokens_step t0 w 0 [s1] t1 lab1 I1 eq_refl eq_refl) as (r2 & R2 & P2).
        set (fin := fun (sets : list ESet) t2 => last <- expect (last (map Some sets) None) "called `Option::unwrap()` on a `None` value" ;; r <- get_final last ;; Ret (r, t2)).
        assert (Z : forall r3, runs_to (fun n => '(sets, t2) <- parse_tokens lay sg w [s1] t1 n ;; fin sets t2) r3 -> runs_to (fun n => parse lay sg w t0 n) r3).
        { intros r3 R3. apply (runs_to_ext (fun n => '(init_state, t1) <- (s <- new_start lay sg t0 ;; close_state lay sg [] s n) ;;
            ('(sets, t2) <- parse_tokens lay sg w [init_state] t1 n ;; fin sets t2))); [intro n; symmetry; exact (E n)|].
          exact (runs_to_bind _ (fun n '(init_state, t1) => '(sets, t2) <- parse_tokens lay sg w [init_state] t1 n ;; fin sets t2) _ _ Rr R3). }
        destruct r2 as [[sets t2]|m|]; [| |destruct P2].
        + destruct P2 as (lab & I). destruct (nth_error sets (length w)) as [last|] eqn:El; [|apply nth_error_None in El; rewrite (pi_len _ _ _ _ _ I) in El; lia].
          destruct (pi_sets _ _ _ _ _ I _ _ El) as [Sl _]. destruct (final_step _ _ _ Sl) as (o & Ro & Po).
          exists (Ret (o, t2)). split.
          * apply Z. apply (runs_to_bind _ (fun n '(sets, t2) => fin sets t2) _ _ R2).
            unfold fin. rewrite (last_nth _ _ (pi_len _ _ _ _ _ I)), El. cbn [expect obind]. rewrite Ro. apply runs_to_ret.
          * split; [exact (PInv_good _ _ _ _ _ I)|]. exists lab. split; [exact (pi_linv _ _ _ _ _ I)|]. split; [exact (pi_ext _ _ _ _ _ I)|].
            destruct o as [m|].
            -- destruct (SInv_entry g lay w lfl brl _ _ _ _ _ _ _ Sl Po) as (ls & It & F). inversion F as [|x l v ls' El' F' E1 E2]; subst. inversion F'; subst.
               exists l. split; [exact It|]. split; [exact El'|]. intros dflt tr Itr.
               destruct (proj2 (pi_claims _ _ _ _ _ I) dflt _ _ _ _ _ _ El Itr) as (v & Iv & R).
               destruct (SInv_unique g Bg lay Inj w lfl brl _ _ _ _ _ _ _ _ _ Sl Po Iv) as [_ <-]. inversion R; subst. assumption.
            -- intros ls It. apply item_u in It. destruct It as (lu & Iu).
               destruct (proj1 (pi_claims _ _ _ _ _ I) _ _ _ _ _ _ El Iu) as (v & Iv & _). exact (Po v Iv).
        + exists (Panic m). split; [|exact P2]. apply Z. exact (runs_to_bind_panic _ (fun n '(sets, t2) => fin sets t2) m R2).
      - exists (Panic m). split; [|exists 0; split; [lia|split; [exact Pr|intros i Li; lia]]].
        apply (runs_to_ext (fun n => '(init_state, t1) <- (s <- new_start lay sg t0 ;; close_state lay sg [] s n) ;;
            ('(sets, t2) <- parse_tokens lay sg w [init_state] t1 n ;;
            (last <- expect (last (map Some sets) None) "called `Option::unwrap()` on a `None` value" ;; r <- get_final last ;; Ret (r, t2))))); [intro n; symmetry; exact (E n)|].
        exact (runs_to_bind_panic _ _ m Rr).
    Qed.
  End WithLabels.
End Parse.
