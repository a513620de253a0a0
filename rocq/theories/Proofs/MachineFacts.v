(** Machine arithmetic agrees with [nat]. *)
From Coq Require Import String List Arith NArith Lia.
From Verif.Model Require Import Ord Outcome Grammar State Tokens Buffer Machine.
From Verif.Spec Require Import BufferSpec StateSpec MachineSpec.
From Verif.Proofs Require Import OrdFacts StateFacts BufferFacts BufferLines.
Import ListNotations.

Section Facts.
  Variable W : nat.
  Variable b : profile.

  Lemma wadd_fits x y : x + y < W -> wadd W b x y = Ret (x + y).
  Proof. intro L. unfold wadd. apply Nat.ltb_lt in L. rewrite L. reflexivity. Qed.
  Lemma wsub_fits x y : y <= x -> wsub W b x y = Ret (x - y).
  Proof. intro L. unfold wsub. apply Nat.leb_le in L. rewrite L. reflexivity. Qed.

  Section States.
    Context {T NT AK AV : Type}.
    Lemma w_offset_fits (s : ProdState T NT AK AV) i : ps_index s + i < W -> w_offset_prod_elem W b s i = Ret (offset_prod_elem s i).
    Proof. intro L. unfold w_offset_prod_elem. rewrite wadd_fits by exact L. reflexivity. Qed.
    Lemma w_next_fits (s : ProdState T NT AK AV) : ps_index s + 1 < W \/ (ps_index s < W /\ next_prod_elem s = None) ->
      w_next_elem_state W b s = Ret (next_elem_state s).
    Proof.
      intro L. unfold w_next_elem_state, w_next_prod_elem. rewrite w_offset_fits by lia. cbn [obind]. unfold next_elem_state.
      fold (next_prod_elem s). destruct (next_prod_elem s) as [e|]; [|reflexivity]. destruct L as [L|[_ ?]]; [|discriminate].
      rewrite wadd_fits by exact L. reflexivity.
    Qed.
    Lemma w_next_pos `{OrdEq T} `{OrdEq NT} (p : Prod T NT AK AV) s : num_elements p < W -> position p s ->
      w_next_elem_state W b s = Ret (next_elem_state s).
    Proof.
      intros L P. destruct (position_inv p s P) as [E Li]. apply w_next_fits.
      unfold num_elements in *. destruct (Nat.eq_dec (ps_index s) (length (prod_elements p))) as [Q|Q].
      - right. split; [unfold prod_elements in *; lia|]. unfold next_prod_elem, offset_prod_elem. rewrite E, Nat.add_0_r. apply nth_error_None. lia.
      - left. unfold prod_elements in *. lia.
    Qed.
    Lemma w_advance_pos `{OrdEq T} `{OrdEq NT} (p : Prod T NT AK AV) s e : num_elements p < W -> position p s ->
      w_advance_if W b s e = Ret (advance_if s e).
    Proof. intros L P. unfold w_advance_if. rewrite (w_next_pos p s L P). reflexivity. Qed.
    Lemma w_position_iff `{OrdEq T} `{OrdEq NT} (p : Prod T NT AK AV) s : num_elements p < W -> w_position W b p s <-> position p s.
    Proof.
      intro L. split.
      - induction 1 as [|s e s' P IH E|s e s' P IH E]; [constructor|rewrite (w_next_pos p s L IH) in E; apply (pos_next p s e); congruence|].
        rewrite (w_advance_pos p s e L IH) in E. apply (pos_advance p s e); congruence.
      - induction 1 as [|s e s' P IH E|s e s' P IH E]; [constructor|apply (wp_next W b p s e); [exact IH|]; rewrite (w_next_pos p s L P); congruence|].
        apply (wp_advance W b p s e); [exact IH|]. rewrite (w_advance_pos p s e L P). congruence.
    Qed.
  End States.

  Lemma w_stream_start {K T} (l : list (Token K T)) s : w_stream W b l s -> s = vts_from l.
  Proof.
    induction 1 as [|s t s' S IH E]; [reflexivity|]. exfalso. subst s. unfold w_vts_next, vts_from in E. cbn in E.
    destruct (Nat.ltb_spec (length l) 0); [lia|]. unfold assert_ in E. destruct (Nat.eqb (length l) 0); discriminate.
  Qed.

  (** ** Buffers *)
  Variable h : heap.
  Hypothesis Fit : texts_fit W h.

  Lemma at_fits r name pre u post : at_ h r name pre u post -> str_len pre + str_len u + str_len post < W.
  Proof. intros (E & _). apply Fit in E. rewrite <- str_len_bytes, !str_len_app in E. lia. Qed.
  Lemma w_byte_len_at r name pre u post : at_ h r name pre u post -> w_byte_len W b r = br_byte_len r.
  Proof.
    intro A. rewrite (at_byte_len _ _ _ _ _ _ A). destruct A as (_ & _ & E1 & E2). unfold w_byte_len. rewrite wsub_fits by lia. f_equal. lia.
  Qed.
  Lemma w_read_at r name pre u post : at_ h r name pre u post -> w_read_char_mut W b r = read_char_mut r.
  Proof.
    intro A. unfold w_read_char_mut, read_char_mut. rewrite (at_as_str _ _ _ _ _ _ A). cbn [obind]. pose proof (at_fits _ _ _ _ _ A) as F.
    destruct A as (_ & _ & E1 & E2). destruct u as [|c [|d u]]; [reflexivity|reflexivity|]. cbn. rewrite wadd_fits; [reflexivity|].
    cbn in F. lia.
  Qed.
  Lemma w_loop_at : forall n r name pre u post, at_ h r name pre u post -> w_advance_loop W b n r = advance_loop n r.
  Proof.
    induction n as [|n IH]; intros r name pre u post A; [reflexivity|]. cbn [w_advance_loop advance_loop]. rewrite (w_read_at _ _ _ _ _ A).
    destruct u as [|c u]; [rewrite (at_read_nil _ _ _ _ _ A); reflexivity|]. destruct (at_read_cons _ _ _ _ _ _ _ A) as (r' & E & A').
    rewrite E. cbn [obind]. exact (IH _ _ _ _ _ A').
  Qed.
  Lemma w_advance_n_mut_at n r name pre u post : at_ h r name pre u post -> w_advance_n_mut W b r n = advance_n_mut r n.
  Proof. intro A. unfold w_advance_n_mut, advance_n_mut. rewrite (w_loop_at n r _ _ _ _ A). reflexivity. Qed.
  Lemma w_advance_n_at n r name pre u post : at_ h r name pre u post -> w_advance_n W b r n = advance_n r n.
  Proof. intro A. unfold w_advance_n, advance_n. rewrite (w_advance_n_mut_at n r _ _ _ _ A). reflexivity. Qed.
  Lemma w_read_char_at r name pre u post : at_ h r name pre u post -> w_read_char W b r = read_char r.
  Proof. intro A. unfold w_read_char, read_char. rewrite (w_read_at r _ _ _ _ A). reflexivity. Qed.

  Lemma w_api_iff r : w_api_range W b h r <-> api_range h r.
  Proof.
    split.
    - induction 1 as [a name text E|r o r' R IH E|r c r' R IH E|r n o r' R IH E|r n s r' R IH E|r s r' R IH S IHs E];
        try (destruct (api_at h r IH) as (nm & pre & u & post & A)).
      + exact (ar_new h a name text E).
      + rewrite (w_read_at _ _ _ _ _ A) in E. exact (ar_read_char_mut h r o r' IH E).
      + rewrite (w_read_char_at _ _ _ _ _ A) in E. exact (ar_read_char h r c r' IH E).
      + rewrite (w_advance_n_mut_at _ _ _ _ _ _ A) in E. exact (ar_advance_n_mut h r n o r' IH E).
      + rewrite (w_advance_n_at _ _ _ _ _ _ A) in E. exact (ar_advance_n h r n s r' IH E).
      + exact (ar_remove_suffix h r s r' IH IHs E).
    - induction 1 as [a name text E|r o r' R IH E|r c r' R IH E|r n o r' R IH E|r n s r' R IH E|r s r' R IH S IHs E];
        try (destruct (api_at h r R) as (nm & pre & u & post & A)).
      + exact (war_new W b h a name text E).
      + apply (war_read_char_mut W b h r o r' IH). rewrite (w_read_at _ _ _ _ _ A). exact E.
      + apply (war_read_char W b h r c r' IH). rewrite (w_read_char_at _ _ _ _ _ A). exact E.
      + apply (war_advance_n_mut W b h r n o r' IH). rewrite (w_advance_n_mut_at _ _ _ _ _ _ A). exact E.
      + apply (war_advance_n W b h r n s r' IH). rewrite (w_advance_n_at _ _ _ _ _ _ A). exact E.
      + exact (war_remove_suffix W b h r s r' IH IHs E).
  Qed.

  Section Positions.
    Variable bs : list comparison -> nat + nat.
    Variable gs : list char -> list (list char).
    Hypothesis GS : graphemes_contract gs.

    Lemma w_line_ret buf o x : get_line_str bs buf o = Ret x -> w_get_line_str W b bs buf o = Ret x /\ str_len (fst (fst x)) <= str_len (bf_text buf).
    Proof.
      unfold get_line_str, w_get_line_str. destruct (assert_ _ _); try discriminate. cbn [obind].
      assert (X : forall (k : nat) y, ('(s, e) <- expect (nth_error (bf_line_ranges buf) k) "index out of bounds" ;;
          line <- slice (bf_text buf) s e ;;
          l <- (if Nat.leb s (if Nat.leb o e then o else e) then Ret ((if Nat.leb o e then o else e) - s) else Panic "attempt to subtract with overflow") ;;
          Ret (line, k, l)) = Ret y ->
        ('(s, e) <- expect (nth_error (bf_line_ranges buf) k) "index out of bounds" ;;
          line <- slice (bf_text buf) s e ;;
          l <- wsub W b (if Nat.leb o e then o else e) s ;;
          Ret (line, k, l)) = Ret y /\ str_len (fst (fst y)) <= str_len (bf_text buf)).
      { intros k y. destruct (nth_error (bf_line_ranges buf) k) as [[s e]|]; cbn [expect obind]; [|discriminate].
        destruct (slice (bf_text buf) s e) as [line| |] eqn:Sl; cbn [obind]; try discriminate.
        apply slice_inv in Sl. destruct Sl as (p & q & Et & _).
        unfold wsub. destruct (Nat.leb s _); cbn [obind]; [|discriminate]. intro E. split; [exact E|]. injection E as <-. cbn.
        rewrite Et, !str_len_app. lia. }
      destruct (bs _) as [k|k]; cbn [obind]; [apply X|]. unfold wsub at 1.
      destruct (Nat.ltb_spec 0 k) as [L|]; cbn [obind]; [|discriminate]. replace (Nat.leb 1 k) with true by (symmetry; apply Nat.leb_le; lia).
      cbn [obind]. apply X.
    Qed.
    Lemma w_count offs d : forall c, c + length offs < W -> w_count_columns W b offs d c = Ret (count_columns offs d c).
    Proof.
      induction offs as [|o offs IH]; intros c L; cbn [w_count_columns count_columns]; [reflexivity|]. cbn in L.
      destruct (Nat.leb d o); [reflexivity|]. rewrite wadd_fits by lia. cbn [obind]. apply IH. lia.
    Qed.
    Lemma offsets_length l : forall o, length (grapheme_offsets o l) = length l.
    Proof. induction l as [|x l IH]; intro o; cbn; [reflexivity|]. rewrite IH. reflexivity. Qed.
    Lemma pieces_le (l : list (list char)) : (forall x, In x l -> x <> []) -> length l <= length (concat l).
    Proof.
      induction l as [|x l IH]; intro N; cbn; [lia|]. rewrite app_length. pose proof (N x (or_introl eq_refl)) as X.
      destruct x; [congruence|]. cbn. specialize (IH (fun y I => N y (or_intror I))). lia.
    Qed.
    Lemma length_le_bytes (l : list char) : length l <= str_len l.
    Proof. induction l as [|c l IH]; cbn; [lia|]. pose proof (len_pos c). lia. Qed.
    Lemma w_pos_ret buf o p : str_len (bf_text buf) < W -> get_text_pos bs gs buf o = Ret p -> w_get_text_pos W b bs gs buf o = Ret p.
    Proof.
      intros F. unfold get_text_pos, w_get_text_pos. destruct (get_line_str bs buf o) as [[[line k] l]| |] eqn:E; cbn [obind]; try discriminate.
      destruct (w_line_ret _ _ _ E) as [-> Le]. cbn [obind]. cbn in Le. intro Q. rewrite w_count; [exact Q|]. rewrite offsets_length.
      destruct (GS line) as [Ec Ne]. pose proof (pieces_le _ Ne) as P. rewrite Ec in P. pose proof (length_le_bytes line). lia.
    Qed.
  End Positions.
End Facts.
