(** What every tree of the forest is made of, whatever the grammar: pieces of the input. *)
From Coq Require Import String List Arith NArith Lia Bool.
From Verif.Model Require Import Ord BTree Outcome Utils Grammar StartGrammar Tokens Tree State Earley.
From Verif.Spec Require Import Reach Cfg BuildSpec NullSpec EarleySpec.
From Verif.Proofs Require Import OrdFacts BTreeFacts LoopFacts GrammarFacts StartFacts NullableFacts TreeFacts TreeHist
  EarleyItems EarleyRun EarleyParse EarleyMain.
Import ListNotations.

Lemma Forall2_nth {A B} (R : A -> B -> Prop) l l' : Forall2 R l l' -> forall n x y, nth_error l n = Some x -> nth_error l' n = Some y -> R x y.
Proof.
  intro F. induction F as [|x' y' l l' R' _ IH]; intros [|n] x y Nx Ny; simpl in *; try discriminate; [|exact (IH n x y Nx Ny)].
  injection Nx as <-. injection Ny as <-. exact R'.
Qed.

Section Pieces.
  Context {T NT AK AV V : Type} `{OrdEq T} `{OrdEq NT} `{OrdEq AK} `{OrdEq V}.
  Variable g : Grammar T NT AK AV.
  Hypothesis Bg : accepted g.
  Local Notation SP := (Prod (StreamTerminal T) (StartNonTerminal NT) (StartActionKey AK) (StartActionValue AV)).
  Local Notation sg := (wrapg g).
  Local Notation tree := (Inner T AK V).
  Local Notation P := (rhs_of g).
  Local Notation S0 := (start_nt g).
  Variable lay : layout (StartNonTerminal NT).
  Hypothesis Inj : lay_inj sg lay.
  Variable w : list (Token T V).
  Local Notation kw := (map tk_kind w).
  Variable t0 : tree.
  Hypothesis T0 : TInv t0.

  (** A node is labelled with the place it was made for: production, index and origin; and its end when it
      stands last. *)
  Local Notation place := (SP * nat * nat * nat)%type.
  Definition is_last (q : SP) (d : nat) : bool :=
    Nat.eqb (S d) (length (elements q)) || match p_head q with Start => true | NTerm _ => false end.
  Definition fin (q : SP) (d k : nat) : nat := if is_last q d then k else 0.
  Definition plf (x : SP * nat * nat) (k : nat) (_ : Token T V) : place := (x, fin (fst (fst x)) (snd (fst x)) (S k)).
  Definition pbr (x : SP * nat * nat) (_ : SP) (_ k : nat) (_ : list place) : place := (x, fin (fst (fst x)) (snd (fst x)) k).
  Local Notation itm := (item g w plf pbr).

  Lemma start_dot k q d i ls (e : Elem (StreamTerminal T) (StartNonTerminal NT)) : itm k q d i ls -> nth_error (elements q) d = Some e ->
    p_head q = Start -> (forall x, e <> Term x \/ x <> EndOfStream) -> d = 0.
  Proof.
    intros I N E Ne. destruct (item_facts g Bg w plf pbr _ _ _ _ _ I) as (_ & _ & _ & _ & Ip).
    destruct (sprod_inv g Bg q Ip) as [->|(A & ix & q0 & -> & _)]; [|discriminate].
    destruct (item_p0 g Bg w plf pbr _ _ _ _ _ I eq_refl) as (_ & Ld & _).
    destruct d as [|[|d]]; [reflexivity| |lia]. rewrite p0_elements in N. simpl in N. injection N as <-.
    destruct (Ne EndOfStream); congruence.
  Qed.
  Lemma fin_same q d c j k (e : Elem (StreamTerminal T) (StartNonTerminal NT)) : nth_error (elements q) d = Some e ->
    (p_head q = Start -> d = 0) -> c < d -> fin q c j = fin q c k.
  Proof.
    intros N Z L. assert (d < length (elements q)) by (apply nth_error_Some; congruence).
    unfold fin, is_last. destruct (Nat.eqb_spec (S c) (length (elements q))) as [E|_]; [lia|]. simpl.
    destruct (p_head q); [|reflexivity]. specialize (Z eq_refl). lia.
  Qed.
  Lemma places k p d i ls : itm k p d i ls -> ls = map (fun c => (p, c, i, fin p c k)) (seq 0 d).
  Proof.
    intro I. induction I as [|k q d i ls p Iq IH N Ip|k q d i ls tok Iq IH N E|j q d i ls k p ls' Iq IH1 N Ic IH2]; try reflexivity.
    - rewrite seq_S, map_app, IH. simpl. f_equal. apply map_ext_in. intros c Ic. apply in_seq in Ic.
      rewrite (fin_same q d c k (S k) _ N); [reflexivity| |lia].
      intro Es. apply (start_dot _ _ _ _ _ _ Iq N Es). intro x. destruct (Term (STerm (tk_kind tok))) eqn:X; [injection X as <-|discriminate].
      destruct x as [|y]; [left; discriminate|right; discriminate].
    - rewrite seq_S, map_app, IH1. simpl. f_equal. apply map_ext_in. intros c Ic'. apply in_seq in Ic'.
      rewrite (fin_same q d c j k _ N); [reflexivity| |lia].
      intro Es. apply (start_dot _ _ _ _ _ _ Iq N Es). intro x. left. discriminate.
  Qed.
  Lemma places_fun k p d i ls ls' : itm k p d i ls -> itm k p d i ls' -> ls = ls'.
  Proof. intros I1 I2. rewrite (places _ _ _ _ _ I1), (places _ _ _ _ _ I2). reflexivity. Qed.

  (** What is before a place. *)
  Lemma before j q d i ls : itm j q d i ls -> i <= j /\ j <= length w /\
    forall es, elements q = map wrap_sym es \/ (q = p0 g /\ es = [NonTerm S0]) -> d <= length es -> (q = p0 g -> d = 0) ->
      gen P (firstn d es) (seg kw i j).
  Proof.
    intro I. apply (item_sound g Bg w plf pbr) in I. destruct I as (L1 & L2 & X). split; [exact L1|]. split; [exact L2|].
    intros es Es Ld Z. destruct X as [(-> & -> & [(-> & ->)|(-> & _)])|(A & ix & q0 & -> & Nq & _ & _ & G)].
    - rewrite seg_same. constructor.
    - specialize (Z eq_refl). discriminate.
    - destruct Es as [Es|[Es _]]; [|discriminate]. rewrite wP_elements in Es. apply map_wrap_inj in Es. subst es. exact G.
  Qed.

  (** [held q c i e el tr]: [tr] may stand for symbol [el] at the place. *)
  Definition held (pl : place) (tr : ptree T AK V) : Prop :=
    let '(q, c, i, e) := pl in
    exists el a b ls, nth_error (elements q) c = Some (wrap_sym el) /\ itm a q c i ls /\ (is_last q c = true -> b = e) /\ pieced g w el a b tr.

  Lemma pieces_sound t lab : LInv g w plf pbr t lab ->
    (forall n tr, reads t n tr -> forall pl, lab n = Some pl -> held pl tr) /\
    (forall ns trs, reads_all t ns trs -> forall pls, labs lab ns pls -> Forall2 held pls trs).
  Proof.
    intro L. apply reads_reads_all_ind.
    - intros n s a k v Gn Ia Ga pl E. destruct (li_alt _ _ _ _ _ _ L n pl a E (get_node_In _ _ _ _ Gn Ia)) as (c & Ec & Ok).
      apply get_alt_acont in Ga. rewrite Ga in Ec. injection Ec as <-. destruct Ok as (j & q & d & i & ls0 & Ej & -> & Iq & Nq).
      unfold plf. simpl. exists (Term k), j, (S j), ls0. split; [exact Nq|]. split; [exact Iq|]. split; [|constructor; exact Ej].
      unfold fin. intros ->. reflexivity.
    - intros n s a x ns cs Gn Ia Ga _ IH pl E. destruct (li_alt _ _ _ _ _ _ L n pl a E (get_node_In _ _ _ _ Gn Ia)) as (c & Ec & Ok).
      apply get_alt_acont in Ga. rewrite Ga in Ec. injection Ec as <-.
      destruct Ok as (p & i & k & ls & It & Ak & Fl & q & d & i' & ls0 & -> & Iq & Nq).
      destruct (complete_prod _ Bg _ _ _ _ _ _ _ _ It Ak) as (A & ix & p1 & -> & Np & -> & Pp).
      unfold pbr. simpl. exists (NonTerm A), i, k, ls0. split; [exact Nq|]. split; [exact Iq|].
      split; [unfold fin; intros ->; reflexivity|].
      pose proof (IH ls Fl) as Hs. rewrite (places _ _ _ _ _ It) in Hs.
      pose proof (item_sound g Bg w plf pbr _ _ _ _ _ It) as (L1 & L2 & [(X & _)|(A1 & ix1 & q1 & X & Nq1 & _ & _ & G)]); [discriminate|].
      assert (Eq1 : elements_iter q1 = elements_iter p1).
      { pose proof (f_equal (fun z => elements z) X) as Y. rewrite !wP_elements in Y. apply map_wrap_inj in Y. auto. }
      rewrite Eq1, wP_elements, map_length, firstn_all in G.
      assert (Len : length (elements (wP A ix p1 : SP)) = length (pi_elements p1)).
      { rewrite wP_elements, map_length. unfold elements_iter. apply map_length. }
      apply (pieced_branch g w A p1 i k cs Pp L1 L2 G).
      + assert (Hl : forall A B (R : A -> B -> Prop) l l', Forall2 R l l' -> length l = length l') by (clear; intros A B R l l' F; induction F; simpl; congruence).
        apply Hl in Hs. rewrite map_length, seq_length, Len in Hs. auto.
      + intros c e tr Ne Nt. assert (Lc : c < length (pi_elements p1)).
        { rewrite <- (map_length pe_elem). apply nth_error_Some. congruence. }
        assert (Hc : held (wP A ix p1, c, i, fin (wP A ix p1) c k) tr).
        { assert (Npl : nth_error (map (fun c => (wP A ix p1 : SP, c, i, fin (wP A ix p1) c k)) (seq 0 (length (elements (wP A ix p1 : SP))))) c
              = Some (wP A ix p1, c, i, fin (wP A ix p1) c k)).
          { rewrite nth_error_map, (nth_error_nth' _ 0) by (rewrite seq_length, Len; exact Lc). rewrite seq_nth by (rewrite Len; exact Lc). reflexivity. }
          exact (Forall2_nth _ _ _ Hs _ _ _ Npl Nt). }
        destruct Hc as (el & a1 & b1 & ls1 & N1 & I1 & F1 & D1).
        assert (el = e) as ->.
        { rewrite wP_elements, nth_error_map in N1. unfold elements_iter in N1. rewrite Ne in N1. simpl in N1. injection N1 as N1.
          symmetry. exact (wrap_sym_inj _ _ N1). }
        destruct (before _ _ _ _ _ I1) as (M1 & M2 & M3). exists a1, b1. split; [exact M1|]. split; [|split; [|exact D1]].
        * apply M3; [left; apply wP_elements|rewrite map_length; lia|discriminate].
        * intro Last. assert (Lt : is_last (wP A ix p1) c = true).
          { unfold is_last. rewrite Len, Last, Nat.eqb_refl. reflexivity. }
          specialize (F1 Lt). unfold fin in F1. rewrite Lt in F1. exact F1.
    - intros es F. inversion F; subst. constructor.
    - intros n ns c cs _ IH1 _ IH2 es F. inversion F as [|n0 e ns0 es0 E F']; subst. constructor; auto.
  Qed.

  Theorem parse_pieces m t : runs_to (fun fuel => parse lay sg w t0 fuel) (Ret (Some m, t)) ->
    forall tr, reads t m tr -> pieced g w (NonTerm S0) 0 (length w) tr.
  Proof.
    intros R tr Rd. destruct (parse_labelled g Bg lay Inj w plf pbr places_fun t0 T0) as (r & Rr & Pr).
    rewrite (runs_to_fun _ _ _ Rr R) in Pr. destruct Pr as (_ & lab & L & _ & (pl & It & El & _)).
    pose proof (places _ _ _ _ _ It) as Ep. simpl in Ep. injection Ep as ->.
    destruct (proj1 (pieces_sound t lab L) m tr Rd _ El) as (el & a & b & ls & N & I & F & D).
    simpl in N. injection N as N. change (NonTerm (NTerm S0)) with (@wrap_sym T NT (NonTerm S0)) in N. apply wrap_sym_inj in N. subst el.
    assert (Lt : is_last (p0 g) 0 = true) by (apply orb_true_r). rewrite (F Lt) in D. unfold fin in D. rewrite Lt in D.
    destruct (item_p0 g Bg w plf pbr _ _ _ _ _ I eq_refl) as (_ & _ & Z). rewrite (Z eq_refl) in D. exact D.
  Qed.

End Pieces.

Section PiecedFacts.
  Context {T NT AK AV V : Type}.
  Variable g : Grammar T NT AK AV.
  Variable w : list (Token T V).
  Local Notation P := (rhs_of g).
  Local Notation kw := (map tk_kind w).

  (** Its leaves are tokens of the input. *)
  Lemma pieced_leaves : forall e i k tr, pieced g w e i k tr -> forall tok, In tok (yield tr) -> In tok w.
  Proof.
    fix IH 5. intros e i k tr D tok I. destruct D as [i k v E|A p i k cs Pp L1 L2 G Len Hc].
    - destruct I as [<-|[]]. exact (nth_error_In _ _ E).
    - simpl in I. apply in_flat_map in I. destruct I as (c & Ic & Iy). apply In_nth_error in Ic. destruct Ic as (n & Nc).
      destruct (nth_error (map pe_elem (pi_elements p)) n) as [e|] eqn:Ne.
      + destruct (Hc n e c Ne Nc) as (a & b & _ & _ & _ & D'). exact (IH _ _ _ _ D' tok Iy).
      + exfalso. apply nth_error_None in Ne. rewrite map_length, <- Len in Ne.
        assert (n < length cs) by (apply nth_error_Some; congruence). lia.
  Qed.
  (** It uses the grammar correctly. *)
  Lemma pieced_conforms : forall e i k tr, pieced g w e i k tr -> conforms g e tr.
  Proof.
    fix IH 5. intros e i k tr D. destruct D as [i k v E|A p i k cs Pp L1 L2 G Len Hc].
    - eexists. constructor.
    - assert (X : forall n es, skipn n (map pe_elem (pi_elements p)) = es -> forall cs', skipn n cs = cs' -> exists ts, dtrees g es ts cs').
      { intros n es. revert n. induction es as [|e es IHes]; intros n Es cs' Ec.
        - assert (Ln : length cs <= n).
          { pose proof (f_equal (@length _) Es) as Z. rewrite skipn_length, map_length in Z. simpl in Z. lia. }
          rewrite skipn_all2 in Ec by exact Ln. subst cs'. eexists. constructor.
        - destruct (nth_skipn _ _ _ _ Es) as [Ne Es']. destruct cs' as [|c cs'].
          { exfalso. assert (n < length (map pe_elem (pi_elements p))) by (apply nth_error_Some; congruence).
            pose proof (f_equal (@length _) Ec) as Z. rewrite skipn_length in Z. rewrite map_length in *. simpl in Z. lia. }
          destruct (nth_skipn _ _ _ _ Ec) as [Nc Ec']. destruct (Hc n e c Ne Nc) as (a & b & _ & _ & _ & D').
          destruct (IH _ _ _ _ D') as (ts & Dt). destruct (IHes (S n) Es' cs' Ec') as (us & Du). eexists. constructor; eassumption. }
      destruct (X 0 _ eq_refl _ eq_refl) as (ts & Dt). exists ts. constructor; assumption.
  Qed.
End PiecedFacts.
