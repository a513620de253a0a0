(** C31 - C35, C70: text buffers (src/utils/buffer.rs). *)
From Coq Require Import String List Arith NArith Lia.
From Verif.Model Require Import Ord Outcome Buffer.
From Verif.Spec Require Import BufferSpec.
From Verif.Proofs Require Import BufferFacts BufferLines.
Import ListNotations.

(** C31.  A fresh range is the whole text, and reading it [n] times answers with its characters in order, then
    with [None] for ever. *)
Theorem C31_fresh_range_reads_text a name text n :
  br_as_str (br_new a name text) = Ret text /\
  exists l, reads_n n (br_new a name text) = Ret l /\ length l = n /\
    forall k, k < n -> nth_error l k = Some (nth_error text k).
Proof.
  pose proof (at_new (fun _ => Some (name, text)) a name text eq_refl) as A. split; [exact (at_as_str _ _ _ _ _ _ A)|].
  exact (reads_n_at _ n _ _ _ _ _ A).
Qed.
(** C31.  Reading the text of any range never panics; its byte length and emptiness agree with the text. *)
Theorem C31_as_str_never_panics h r : api_range h r ->
  exists u, br_as_str r = Ret u /\ br_byte_len r = Ret (length (as_bytes u)) /\ (br_empty r = true <-> u = []).
Proof.
  intro R. destruct (api_at h r R) as (name & pre & u & post & A). exists u. split; [exact (at_as_str _ _ _ _ _ _ A)|].
  rewrite <- str_len_bytes. split; [exact (at_byte_len _ _ _ _ _ _ A)|exact (at_empty _ _ _ _ _ _ A)].
Qed.
(** C31.  A read answers with the first character, if any, and leaves the rest; [read_char] does the same on a
    copy. *)
Theorem C31_read_char h r u : api_range h r -> br_as_str r = Ret u ->
  exists r', read_char_mut r = Ret (hd_error u, r') /\ br_as_str r' = Ret (tl u) /\
    read_char r = Ret (option_map (fun c => (c, r')) (hd_error u)).
Proof.
  intros R E. destruct (api_at h r R) as (name & pre & v & post & A). rewrite (at_as_str _ _ _ _ _ _ A) in E. injection E as ->.
  destruct u as [|c u].
  - exists r. unfold read_char. rewrite (at_read_nil _ _ _ _ _ A). split; [reflexivity|]. split; [exact (at_as_str _ _ _ _ _ _ A)|reflexivity].
  - destruct (at_read_cons _ _ _ _ _ _ _ A) as (r' & E & A'). exists r'. unfold read_char. rewrite E. split; [reflexivity|].
    split; [exact (at_as_str _ _ _ _ _ _ A')|reflexivity].
Qed.

(** C32.  [advance_n_mut] reads [n] characters or none; [advance_n] does the same on a copy. *)
Theorem C32_advance_all_or_nothing h r u n : api_range h r -> br_as_str r = Ret u ->
  (n <= length u -> exists r', advance_n_mut r n = Ret (Some (firstn n u), r') /\ br_as_str r' = Ret (skipn n u) /\
     advance_n r n = Ret (Some (firstn n u, r'))) /\
  (length u < n -> advance_n_mut r n = Ret (None, r) /\ advance_n r n = Ret None).
Proof.
  intros R E. destruct (api_at h r R) as (name & pre & v & post & A). rewrite (at_as_str _ _ _ _ _ _ A) in E. injection E as ->.
  pose proof (at_advance_n_mut h n r name pre u post A) as X. pose proof (at_advance_n h n r name pre u post A) as Y.
  destruct (Nat.leb_spec n (length u)); (split; intro L; [|try lia]); try lia; [|auto].
  destruct X as (r1 & E1 & A1), Y as (r2 & E2 & A2). exists r1. split; [exact E1|]. split; [exact (at_as_str _ _ _ _ _ _ A1)|].
  rewrite E2. unfold advance_n in E2. rewrite E1 in E2. cbn [obind] in E2. destruct (slice _ _ _); [|discriminate|discriminate]. cbn [obind] in E2.
  injection E2 as _ ->. reflexivity.
Qed.
(** C32.  Advancing is the same as reading [n] times. *)
Theorem C32_advance_is_reads h r n s r' : api_range h r -> advance_n_mut r n = Ret (Some s, r') ->
  reads_n n r = Ret (map Some s).
Proof.
  intros R E. destruct (api_at h r R) as (name & pre & u & post & A).
  pose proof (at_advance_n_mut h n r name pre u post A) as X. destruct (Nat.leb_spec n (length u)) as [L|L]; [|rewrite X in E; discriminate].
  destruct X as (r2 & E2 & _). rewrite E2 in E. injection E as <- <-.
  destruct (reads_n_at h n r name pre u post A) as (l & -> & Ll & N). f_equal.
  apply (nth_ext _ _ None None); [rewrite map_length, firstn_length; lia|]. intros k K.
  assert (Ek : nth_error l k = nth_error (map Some (firstn n u)) k).
  { rewrite N, nth_error_map by lia. assert (F : nth_error (firstn n u) k = nth_error u k).
    { clear - K Ll. rewrite Ll in K. clear Ll. revert n K u. induction k as [|k IH]; intros [|n] K u; try lia; destruct u; try reflexivity. cbn. apply IH. lia. }
    rewrite F. destruct (nth_error u k) eqn:Eu; [reflexivity|]. apply nth_error_None in Eu. lia. }
  destruct (nth_error l k) as [x|] eqn:El; [|apply nth_error_None in El; lia].
  rewrite (nth_error_nth l k None El). symmetry. apply nth_error_nth. congruence.
Qed.

(** C33.  Removing what is left after reading forward gives what was read. *)
Theorem C33_remove_suffix_splits h r s : api_range h r -> forward r s ->
  exists p m v, remove_suffix r s = Ret p /\ br_as_str p = Ret m /\ br_as_str s = Ret v /\ br_as_str r = Ret (m ++ v).
Proof.
  intros R F. destruct (api_at h r R) as (name & pre & u & post & A). destruct (forward_at _ _ _ _ _ _ _ A F) as (m & v & -> & B).
  destruct A as (A1 & A2 & A3 & A4), B as (B1 & B2 & B3 & B4).
  assert (Ad : bf_addr (br_buf r) = bf_addr (br_buf s)).
  { clear - F. induction F as [|r' o r'' F IH E|r' n o r'' F IH E]; [reflexivity| |].
    - rewrite IH. unfold read_char_mut in E. destruct (br_as_str r'); try discriminate. cbn [obind] in E.
      destruct (char_indices a) as [|[? ?] ?]; inversion E; subst; reflexivity.
    - rewrite IH. clear - E. unfold advance_n_mut in E. destruct (advance_loop n r') as [[r2|]| |] eqn:El; try discriminate; cbn [obind] in E.
      + destruct (slice _ _ _); try discriminate. injection E as <- <-. clear - El. revert r' El. induction n as [|n IH]; intros r' El; cbn in El.
        * injection El as <-. reflexivity.
        * destruct (read_char_mut r') as [[[c|] r3]| |] eqn:E3; try discriminate. cbn [obind] in El. rewrite <- (IH _ El).
          unfold read_char_mut in E3. destruct (br_as_str r'); try discriminate. cbn [obind] in E3.
          destruct (char_indices a) as [|[? ?] ?]; inversion E3; subst; reflexivity.
      + injection E as <- <-. reflexivity. }
  exists {| br_start := br_start r; br_end := br_start s; br_buf := br_buf r |}, m, v.
  assert (X : remove_suffix r s = Ret {| br_start := br_start r; br_end := br_start s; br_buf := br_buf r |}).
  { apply remove_iff. rewrite !str_len_app in *. repeat split; [exact Ad|lia|lia]. }
  split; [exact X|]. split; [|split].
  - assert (A : at_ h r name pre (m ++ v) post) by exact (conj A1 (conj A2 (conj A3 A4))).
    assert (B : at_ h s name (pre ++ m) v post) by exact (conj B1 (conj B2 (conj B3 B4))).
    destruct (at_remove _ _ _ _ _ _ _ _ _ _ _ _ A B X) as (m' & Em & _ & _ & _ & P). apply app_inv_head in Em. subst m'. exact (at_as_str _ _ _ _ _ _ P).
  - exact (at_as_str h s name (pre ++ m) v post (conj B1 (conj B2 (conj B3 B4)))).
  - exact (at_as_str h r name pre (m ++ v) post (conj A1 (conj A2 (conj A3 A4)))).
Qed.
(** C33.  It returns exactly when both are ranges of the same buffer, end at the same place, and the suffix does
    not start earlier; otherwise it panics; when it returns, the texts fit together. *)
Theorem C33_remove_suffix_iff h r s : api_range h r -> api_range h s ->
  ((exists p, remove_suffix r s = Ret p) <->
     bf_addr (br_buf r) = bf_addr (br_buf s) /\ br_end r = br_end s /\ br_start r <= br_start s) /\
  ((exists p, remove_suffix r s = Ret p) \/ (exists msg, remove_suffix r s = Panic msg)) /\
  (forall p, remove_suffix r s = Ret p -> exists m v, br_as_str p = Ret m /\ br_as_str s = Ret v /\ br_as_str r = Ret (m ++ v)).
Proof.
  intros R S. split; [|split; [apply remove_outcome|]].
  - split; [intros (p & E); apply remove_iff in E; tauto|]. intros (E1 & E2 & E3). eexists. apply remove_iff. eauto.
  - intros p E. destruct (api_at h r R) as (name & pre & u & post & A). destruct (api_at h s S) as (name' & pre' & u' & post' & B).
    destruct (at_remove _ _ _ _ _ _ _ _ _ _ _ _ A B E) as (m & _ & -> & _ & _ & P). exists m, u'.
    split; [exact (at_as_str _ _ _ _ _ _ P)|]. split; [exact (at_as_str _ _ _ _ _ _ B)|exact (at_as_str _ _ _ _ _ _ A)].
Qed.

Section Positions.
  (** Any binary search meeting the standard library's contract, any cutting of lines into graphemes. *)
  Variable bs : list comparison -> nat + nat.
  Variable gs : list char -> list (list char).
  Hypothesis BS : search_contract bs.
  Hypothesis GS : graphemes_contract gs.

  (** C34.  Line and column of the two ends of a range. *)
  Theorem C34_positions h r : api_range h r ->
    exists name pre u post p q, h (bf_addr (br_buf r)) = Some (name, pre ++ u ++ post) /\ br_as_str r = Ret u /\
      start_pos bs gs r = Ret p /\ is_pos gs (pre ++ u ++ post) (length pre) p /\
      end_pos bs gs r = Ret q /\ is_pos gs (pre ++ u ++ post) (length (pre ++ u)) q.
  Proof.
    intro R. destruct (api_at h r R) as (name & pre & u & post & A).
    destruct (get_pos bs gs BS GS (bf_addr (br_buf r)) name (pre ++ u ++ post) (length pre)) as (p & E1 & P1); [rewrite app_length; lia|].
    destruct (get_pos bs gs BS GS (bf_addr (br_buf r)) name (pre ++ u ++ post) (length (pre ++ u))) as (q & E2 & P2); [rewrite !app_length; lia|].
    exists name, pre, u, post, p, q. pose proof (at_as_str _ _ _ _ _ _ A) as As. destruct A as (A1 & A2 & A3 & A4).
    split; [exact A1|]. split; [exact As|]. split; [|split; [exact P1|split; [|exact P2]]].
    - unfold start_pos. rewrite A3, A2. rewrite off_pre in E1. exact E1.
    - unfold end_pos. rewrite A4, A2. rewrite app_assoc, off_pre, str_len_app, <- app_assoc in E2. exact E2.
  Qed.
  (** C34.  A position is determined by the text and the place. *)
  Theorem C34_position_unique text i p p' : is_pos gs text i p -> is_pos gs text i p' -> p = p'.
  Proof. apply pos_fun. Qed.
  (** C34.  Where a grapheme begins or ends, the column is the number of graphemes of the line before. *)
  Theorem C34_column_at_boundary text i p s e n : is_pos gs text i p -> line_bounds text i s e ->
    let line := firstn (e - s) (skipn s text) in
    n <= length (gs line) -> concat (firstn n (gs line)) = firstn (Nat.min i e - s) line -> tp_column p = n.
  Proof. exact (pos_boundary gs text i p s e n GS). Qed.

  (** C70.  Positions in one buffer are ordered like offsets. *)
  Theorem C70_positions_ordered h r s p q : api_range h r -> api_range h s -> bf_addr (br_buf r) = bf_addr (br_buf s) ->
    br_start r <= br_start s -> start_pos bs gs r = Ret p -> start_pos bs gs s = Ret q ->
    tp_line p < tp_line q \/ (tp_line p = tp_line q /\ tp_column p <= tp_column q).
  Proof.
    intros R S Ea Ls Ep Eq. destruct (C34_positions h r R) as (n1 & pre & u & post & p' & e1 & H1 & _ & E1 & P1 & _).
    destruct (C34_positions h s S) as (n2 & pre' & u' & post' & q' & e2 & H2 & _ & E2 & P2 & _).
    rewrite E1 in Ep. injection Ep as ->. rewrite E2 in Eq. injection Eq as ->. rewrite Ea, H2 in H1. injection H1 as _ Et.
    rewrite Et in P2. refine (pos_mono gs _ _ _ _ _ P1 P2 _).
    destruct (Nat.le_gt_cases (length pre) (length pre')) as [|G]; [assumption|]. exfalso.
    assert (O1 : tp_byte_offset p = br_start r) by (unfold start_pos, get_text_pos in E1; destruct (get_line_str _ _ _) as [[[? ?] ?]| |]; try discriminate; injection E1 as <-; reflexivity).
    assert (O2 : tp_byte_offset q = br_start s) by (unfold start_pos, get_text_pos in E2; destruct (get_line_str _ _ _) as [[[? ?] ?]| |]; try discriminate; injection E2 as <-; reflexivity).
    destruct P1 as [P1 _], P2 as [P2 _]. rewrite O1 in P1. rewrite O2 in P2.
    pose proof (off_lt (pre ++ u ++ post) (length pre') (length pre) G) as X. unfold off in X. rewrite app_length in X. lia.
  Qed.
End Positions.

(** C35.  Keys are ordered by content: as the texts by code points. *)
Theorem C35_key_order h a b u v : (forall x name text, h x = Some (name, text) -> Forall scalar text) ->
  api_range h a -> api_range h b -> br_as_str a = Ret u -> br_as_str b = Ret v ->
  key_cmp a b = Ret (text_cmp u v) /\ key_cmp b a = Ret (CompOpp (text_cmp u v)) /\
  (key_cmp a b = Ret Eq <-> u = v) /\ (key_eqb a b = Ret true <-> u = v).
Proof.
  intros Sc A B Ea Eb. assert (Sub : forall r w, api_range h r -> br_as_str r = Ret w -> Forall scalar w).
  { intros r w R E. destruct (api_at h r R) as (name & pre & w' & post & At). rewrite (at_as_str _ _ _ _ _ _ At) in E. injection E as ->.
    destruct At as (At & _). specialize (Sc _ _ _ At). rewrite !Forall_app in Sc. tauto. }
  assert (C : key_cmp a b = Ret (text_cmp u v)).
  { unfold key_cmp. rewrite Ea, Eb. cbn [obind]. rewrite text_bytes_cmp; eauto. }
  assert (C' : key_cmp b a = Ret (CompOpp (text_cmp u v))).
  { unfold key_cmp. rewrite Ea, Eb. cbn [obind]. rewrite text_bytes_cmp; eauto. rewrite text_cmp_opp. reflexivity. }
  split; [exact C|]. split; [exact C'|]. unfold key_eqb. rewrite C. cbn [obind]. rewrite <- (text_cmp_eq u v). split; [split; congruence|].
  destruct (text_cmp u v); split; congruence.
Qed.
(** C35.  The order is transitive. *)
Theorem C35_key_order_transitive h a b c : (forall x name text, h x = Some (name, text) -> Forall scalar text) ->
  api_range h a -> api_range h b -> api_range h c -> key_cmp a b = Ret Lt -> key_cmp b c = Ret Lt -> key_cmp a c = Ret Lt.
Proof.
  intros Sc A B C. destruct (C31_as_str_never_panics h a A) as (u & Ea & _), (C31_as_str_never_panics h b B) as (v & Eb & _), (C31_as_str_never_panics h c C) as (w & Ec & _).
  destruct (C35_key_order h a b u v Sc A B Ea Eb) as (-> & _), (C35_key_order h b c v w Sc B C Eb Ec) as (-> & _), (C35_key_order h a c u w Sc A C Ea Ec) as (-> & _).
  intros [= X] [= Y]. f_equal. exact (text_cmp_trans _ _ _ X Y).
Qed.

Print Assumptions C31_fresh_range_reads_text.
Print Assumptions C31_as_str_never_panics.
Print Assumptions C31_read_char.
Print Assumptions C32_advance_all_or_nothing.
Print Assumptions C32_advance_is_reads.
Print Assumptions C33_remove_suffix_splits.
Print Assumptions C33_remove_suffix_iff.
Print Assumptions C34_positions.
Print Assumptions C34_position_unique.
Print Assumptions C34_column_at_boundary.
Print Assumptions C35_key_order.
Print Assumptions C35_key_order_transitive.
Print Assumptions C70_positions_ordered.

(** Concrete: "aé\r\n\nあ\rb" (one-, two- and three-byte characters, all three terminators), the standard
    library's search, one grapheme per character. *)
Definition ex_text : list char := [97; 233; 13; 10; 10; 12354; 13; 98]%N.
Definition ex_range : BufferRange := br_new 0 "src" ex_text.
Example ex_range_ok : api_range (fun _ => Some ("src"%string, ex_text)) ex_range /\ Forall scalar ex_text /\
  search_contract std_binary_search /\ graphemes_contract (map (fun c => [c])).
Proof.
  split; [constructor; reflexivity|]. split; [|exact (conj std_search_ok single_graphemes_ok)].
  repeat constructor; unfold scalar; lia.
Qed.
Example ex_lines : bf_line_ranges (br_buf ex_range) = [(0, 3); (5, 5); (6, 9); (10, 11)].
Proof. reflexivity. Qed.
Example ex_forward : exists s, advance_n_mut ex_range 3 = Ret (Some [97; 233; 13]%N, s) /\
  start_pos std_binary_search (map (fun c => [c])) s = Ret {| tp_line := 0; tp_column := 2; tp_byte_offset := 4 |} /\
  end_pos std_binary_search (map (fun c => [c])) s = Ret {| tp_line := 3; tp_column := 1; tp_byte_offset := 11 |}.
Proof. eexists. split; [vm_compute; reflexivity|]. split; vm_compute; reflexivity. Qed.
