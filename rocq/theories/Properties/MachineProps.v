(** C116: computing with machine integers. *)
From Coq Require Import String List Arith NArith Lia.
From Verif.Model Require Import Ord Outcome Grammar State Tokens Buffer Machine.
From Verif.Spec Require Import BufferSpec StateSpec MachineSpec.
From Verif.Proofs Require Import OrdFacts StateFacts BufferFacts BufferLines MachineFacts.
From Verif.Properties Require Import BufferProps.
Import ListNotations.

(** C116. Text ranges: with overflow checks or without, a program gets the same ranges, and every call answers as
    with unbounded numbers. *)
Theorem C116_ranges W b h r : texts_fit W h ->
  (w_api_range W b h r <-> api_range h r) /\
  (api_range h r ->
     w_byte_len W b r = br_byte_len r /\ w_read_char_mut W b r = read_char_mut r /\ w_read_char W b r = read_char r /\
     forall n, w_advance_n_mut W b r n = advance_n_mut r n /\ w_advance_n W b r n = advance_n r n).
Proof.
  intro F. split; [exact (w_api_iff W b h F r)|]. intro R. destruct (api_at h r R) as (name & pre & u & post & A).
  split; [exact (w_byte_len_at W b h _ _ _ _ _ A)|]. split; [exact (w_read_at W b h F _ _ _ _ _ A)|].
  split; [exact (w_read_char_at W b h F _ _ _ _ _ A)|]. intro n.
  split; [exact (w_advance_n_mut_at W b h F n _ _ _ _ _ A)|exact (w_advance_n_at W b h F n _ _ _ _ _ A)].
Qed.

Lemma count_le P m n : count_upto P m n -> ~ P 0 -> n <= m.
Proof. induction 1; intro N; [lia|contradiction|specialize (IHcount_upto N); lia|specialize (IHcount_upto N); lia]. Qed.
Lemma firstn_bytes (l : list char) i : i <= length l -> i <= str_len (firstn i l).
Proof. intro L. pose proof (length_le_bytes (firstn i l)) as X. rewrite firstn_length_le in X by exact L. exact X. Qed.

(** C116. Lines and columns are as with unbounded numbers, and no larger than the offset. *)
Theorem C116_positions W b h r (bs : list comparison -> nat + nat) (gs : list char -> list (list char)) :
  search_contract bs -> graphemes_contract gs -> texts_fit W h -> api_range h r ->
  exists p q, start_pos bs gs r = Ret p /\ w_start_pos W b bs gs r = Ret p /\
    end_pos bs gs r = Ret q /\ w_end_pos W b bs gs r = Ret q /\
    tp_line p <= tp_byte_offset p /\ tp_column p <= tp_byte_offset p /\ tp_byte_offset p < W /\
    tp_line q <= tp_byte_offset q /\ tp_column q <= tp_byte_offset q /\ tp_byte_offset q < W.
Proof.
  intros BS GS F R. destruct (C34_positions bs gs BS GS h r R) as (name & pre & u & post & p & q & E & As & Ep & Pp & Eq & Pq).
  assert (Ft : str_len (bf_text (br_buf r)) < W).
  { destruct (api_at h r R) as (n' & a' & u' & c' & A). rewrite (at_text _ _ _ _ _ _ A), str_len_bytes. destruct A as (A & _).
    apply (F _ _ _ A). }
  assert (Fo : str_len (pre ++ u ++ post) < W) by (rewrite str_len_bytes; exact (F _ _ _ E)).
  assert (B : forall i x, i <= length (pre ++ u ++ post) -> is_pos gs (pre ++ u ++ post) i x ->
    tp_line x <= tp_byte_offset x /\ tp_column x <= tp_byte_offset x /\ tp_byte_offset x < W).
  { intros i x Li (X1 & X2 & s & e & (B1 & B2 & B3 & B4 & B5 & _) & X3 & X4 & X5). cbv zeta in *. set (text := pre ++ u ++ post) in *.
    pose proof (firstn_bytes text i Li) as Lb. split; [|split].
    - apply count_le in X2; [lia|]. intros (j & J & _). discriminate.
    - set (line := firstn (e - s) (skipn s text)) in *. destruct (GS line) as [Gc Gn].
      destruct (Nat.eq_dec (tp_column x) 0) as [->|N0]; [lia|]. specialize (X4 (tp_column x - 1) ltac:(lia)).
      assert (Hn : tp_column x - 1 <= length (concat (firstn (tp_column x - 1) (gs line)))).
      { etransitivity; [|apply pieces_le]. - rewrite firstn_length_le; lia. - intros y Iy. apply Gn. rewrite <- (firstn_skipn (tp_column x - 1) (gs line)). apply in_or_app. auto. }
      cbn in X4. lia.
    - rewrite X1. rewrite <- (firstn_skipn i text), str_len_app in Fo. lia. }
  exists p, q. split; [exact Ep|]. split; [exact (w_pos_ret W b bs gs GS _ _ _ Ft Ep)|]. split; [exact Eq|].
  split; [exact (w_pos_ret W b bs gs GS _ _ _ Ft Eq)|].
  assert (L1 : List.length pre <= List.length (pre ++ u ++ post)) by (rewrite app_length; lia).
  assert (L2 : List.length (pre ++ u) <= List.length (pre ++ u ++ post)) by (rewrite !app_length; lia).
  destruct (B _ _ L1 Pp) as (? & ? & ?). destruct (B _ _ L2 Pq) as (? & ? & ?). auto 10.
Qed.

(** C116. Positions in productions: with a body whose length is a [usize], stepping never overflows, and looking
    ahead answers as with unbounded numbers as long as the place looked at has a number. *)
Theorem C116_states {T NT AK AV} `{OrdEq T} `{OrdEq NT} W b (p : Prod T NT AK AV) s : num_elements p < W ->
  (w_position W b p s <-> position p s) /\
  (position p s ->
     w_next_elem_state W b s = Ret (next_elem_state s) /\ w_next_elem W b s = Ret (next_elem s) /\
     w_next_prod_elem W b s = Ret (next_prod_elem s) /\
     (forall e, w_advance_if W b s e = Ret (advance_if s e)) /\
     forall i, ps_index s + i < W ->
       w_offset_prod_elem W b s i = Ret (offset_prod_elem s i) /\ w_offset_elem W b s i = Ret (offset_elem s i)).
Proof.
  intro L. split; [exact (w_position_iff W b p s L)|]. intro P. split; [exact (w_next_pos W b p s L P)|].
  destruct (position_inv p s P) as [E Li].
  assert (O : forall i, ps_index s + i < W -> w_offset_prod_elem W b s i = Ret (offset_prod_elem s i) /\ w_offset_elem W b s i = Ret (offset_elem s i)).
  { intros i Lt. split; [exact (w_offset_fits W b s i Lt)|]. unfold w_offset_elem. rewrite (w_offset_fits W b s i Lt). reflexivity. }
  unfold num_elements in L. fold (prod_elements p) in L.
  split; [apply O; lia|]. split; [apply O; lia|]. split; [exact (fun e => w_advance_pos W b p s e L P)|]. exact O.
Qed.

(** C116. Looking further ahead than numbers reach: a panic with overflow checks; without, the answer is an element
    *before* the position. *)
Theorem C116_look_ahead_overflow {T NT AK AV} `{OrdEq T} `{OrdEq NT} W (p : Prod T NT AK AV) s i :
  num_elements p < W -> position p s -> i < W -> W <= ps_index s + i ->
  w_offset_elem W Dev s i = Panic "attempt to add with overflow" /\
  exists k e, k < ps_index s /\ k + W = ps_index s + i /\ nth_error (elements p) k = Some e /\ w_offset_elem W Release s i = Ret (Some e).
Proof.
  intros L P Li O. destruct (position_inv p s P) as [E Ls]. unfold num_elements in L. fold (prod_elements p) in L.
  unfold w_offset_elem, w_offset_prod_elem, wadd. destruct (Nat.ltb_spec (ps_index s + i) W); [lia|]. split; [reflexivity|].
  set (k := ps_index s + i - W). assert (Ek : (ps_index s + i) mod W = k).
  { replace (ps_index s + i) with (k + 1 * W) by (unfold k; lia). rewrite Nat.mod_add by lia. apply Nat.mod_small. unfold k. lia. }
  rewrite Ek. cbn [obind]. rewrite E. destruct (nth_error (prod_elements p) k) as [pe|] eqn:N; [|apply nth_error_None in N; unfold k in N; lia].
  exists k, (pe_elem pe). split; [unfold k; lia|]. split; [unfold k; lia|]. split; [|reflexivity].
  unfold elements. exact (map_nth_error pe_elem k (prod_elements p) N).
Qed.
(** C116, REFUTED as stated: "looking ahead past the end of a production answers None". From every position but
    the first, looking ahead by [usize::MAX] panics or answers the element just passed, according to the build. *)
Theorem C116_look_ahead_refuted {T NT AK AV} `{OrdEq T} `{OrdEq NT} W (p : Prod T NT AK AV) s :
  num_elements p < W -> position p s -> 0 < ps_index s ->
  num_elements p <= ps_index s + (W - 1) /\
  w_offset_elem W Dev s (W - 1) = Panic "attempt to add with overflow" /\
  exists e, nth_error (elements p) (ps_index s - 1) = Some e /\ w_offset_elem W Release s (W - 1) = Ret (Some e).
Proof.
  intros L P O. destruct (C116_look_ahead_overflow W p s (W - 1) L P ltac:(lia) ltac:(lia)) as (A & k & e & K1 & K2 & K3 & K4).
  split; [lia|]. split; [exact A|]. exists e. split; [|exact K4]. replace (ps_index s - 1) with k by lia. exact K3.
Qed.

(** C116. Token streams: the number of the next token is never increased (no read succeeds, C63), so it never
    overflows. *)
Theorem C116_streams {K T} W b (l : list (Token K T)) s : w_stream W b l s -> s = vts_from l /\ w_vts_next W b s = vts_next s.
Proof.
  intro S. pose proof (w_stream_start W b l s S) as ->. split; [reflexivity|]. unfold w_vts_next, vts_next, vts_from. cbn.
  destruct (Nat.ltb_spec (length l) 0); [lia|reflexivity].
Qed.

Print Assumptions C116_ranges.
Print Assumptions C116_positions.
Print Assumptions C116_states.
Print Assumptions C116_look_ahead_overflow.
Print Assumptions C116_look_ahead_refuted.
Print Assumptions C116_streams.

(** *** Cases *)
(** A machine with 4-bit numbers, the text "a\nb". *)
Definition ex_heap : heap := fun a => if Nat.eqb a 7 then Some ("f"%string, [97%N; 10%N; 98%N]) else None.
Example C116_ex_fits : texts_fit 16 ex_heap.
Proof. intros a name text. unfold ex_heap. destruct (Nat.eqb a 7); [|discriminate]. intro E. injection E as <- <-. cbn. lia. Qed.
Example C116_ex_range : exists r, api_range ex_heap r /\ br_byte_len r = Ret 1 /\ w_byte_len 16 Release r = Ret 1 /\
  w_read_char 16 Dev r = read_char r.
Proof.
  destruct (advance_n_mut (br_new 7 "f" [97%N; 10%N; 98%N]) 2) as [[o r]| |] eqn:E; [|vm_compute in E; discriminate|vm_compute in E; discriminate].
  assert (R : api_range ex_heap r) by (apply (ar_advance_n_mut ex_heap _ _ _ _ (ar_new ex_heap 7 "f" _ eq_refl) E)).
  exists r. split; [exact R|]. vm_compute in E. injection E as <- <-. repeat split.
Qed.
(** A production with two elements, after one step. *)
Definition ex_mprod : Prod nat nat nat nat :=
  Build_Prod 0 0 (Build_ProdInner 0 0 [Build_ProdElement None (Term 1); Build_ProdElement None (Term 2)]).
Example C116_ex_state : position ex_mprod (Build_ProdState ex_mprod 1) /\ num_elements ex_mprod < 16 /\
  w_offset_elem 16 Dev (Build_ProdState ex_mprod 1) 0 = Ret (Some (Term 2)) /\
  w_offset_elem 16 Dev (Build_ProdState ex_mprod 1) 15 = Panic "attempt to add with overflow" /\
  w_offset_elem 16 Release (Build_ProdState ex_mprod 1) 15 = Ret (Some (Term 1)).
Proof.
  split; [|vm_compute; repeat split; lia]. apply (pos_next ex_mprod (from_start ex_mprod) (Build_ProdElement None (Term 1))); [constructor|reflexivity].
Qed.
Example C116_ex_pos : exists r p, api_range ex_heap r /\ w_start_pos 16 Release std_binary_search (map (fun c => [c])) r = Ret p /\
  tp_line p = 1 /\ tp_column p = 0 /\ tp_byte_offset p = 2.
Proof.
  destruct (advance_n_mut (br_new 7 "f" [97%N; 10%N; 98%N]) 2) as [[o r]| |] eqn:E; [|vm_compute in E; discriminate|vm_compute in E; discriminate].
  assert (R : api_range ex_heap r) by (apply (ar_advance_n_mut ex_heap _ _ _ _ (ar_new ex_heap 7 "f" _ eq_refl) E)).
  vm_compute in E. injection E as <- <-. eexists _, _. split; [exact R|]. vm_compute. auto.
Qed.
