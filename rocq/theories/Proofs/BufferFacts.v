(** Text buffers. *)
From Coq Require Import String List Arith NArith ZArith Lia.
From Verif.Model Require Import Ord Outcome Buffer.
From Verif.Spec Require Import BufferSpec.
Import ListNotations.

(** ** Byte offsets *)
Lemma len_pos c : 1 <= len_utf8 c.
Proof. unfold len_utf8. repeat destruct (_ <? _)%N; lia. Qed.
Lemma str_len_app a b : str_len (a ++ b) = str_len a + str_len b.
Proof. induction a as [|c a IH]; simpl; [reflexivity|]. rewrite IH. lia. Qed.
Lemma str_len_0 a : str_len a = 0 -> a = [].
Proof. destruct a as [|c a]; [reflexivity|]. simpl. pose proof (len_pos c). lia. Qed.
Lemma encode_length c : length (encode_utf8 c) = len_utf8 c.
Proof. unfold encode_utf8, len_utf8. repeat destruct (_ <? _)%N; reflexivity. Qed.
Lemma str_len_bytes s : str_len s = length (as_bytes s).
Proof. induction s as [|c s IH]; [reflexivity|]. simpl. rewrite app_length, encode_length, IH. reflexivity. Qed.

Lemma split_bytes_0 s : split_bytes 0 s = Some ([], s).
Proof. destruct s; reflexivity. Qed.
Lemma split_bytes_app a b : split_bytes (str_len a) (a ++ b) = Some (a, b).
Proof.
  induction a as [|c a IH]; [apply split_bytes_0|]. cbn [str_len app]. pose proof (len_pos c) as L.
  destruct (len_utf8 c + str_len a) as [|n] eqn:E; [lia|]. cbn [split_bytes].
  destruct (Nat.leb_spec (len_utf8 c) (S n)); [|lia]. replace (S n - len_utf8 c) with (str_len a) by lia. rewrite IH. reflexivity.
Qed.
Lemma split_bytes_inv n : forall s a b, split_bytes n s = Some (a, b) -> s = a ++ b /\ n = str_len a.
Proof.
  intros s. revert n. induction s as [|c s IH]; intros n a b E.
  - destruct n; simpl in E; [injection E as <- <-; auto|discriminate].
  - destruct n as [|n]; cbn [split_bytes] in E; [injection E as <- <-; auto|].
    destruct (Nat.leb_spec (len_utf8 c) (S n)); [|discriminate].
    destruct (split_bytes (S n - len_utf8 c) s) as [[a' b']|] eqn:E'; [|discriminate]. injection E as <- <-.
    apply IH in E'. destruct E' as [-> E']. split; [reflexivity|]. cbn [str_len]. lia.
Qed.
Lemma slice_app a m b : slice (a ++ m ++ b) (str_len a) (str_len a + str_len m) = Ret m.
Proof.
  unfold slice. destruct (Nat.leb_spec (str_len a) (str_len a + str_len m)); [|lia].
  rewrite split_bytes_app. replace (str_len a + str_len m - str_len a) with (str_len m) by lia. rewrite split_bytes_app. reflexivity.
Qed.
Lemma slice_app' t a m b x y : t = a ++ m ++ b -> x = str_len a -> y = str_len a + str_len m -> slice t x y = Ret m.
Proof. intros -> -> ->. apply slice_app. Qed.
Lemma slice_inv s x y m : slice s x y = Ret m -> exists a b, s = a ++ m ++ b /\ x = str_len a /\ y = str_len a + str_len m.
Proof.
  unfold slice. destruct (Nat.leb_spec x y); [|discriminate]. destruct (split_bytes x s) as [[a r]|] eqn:E1; [|discriminate].
  destruct (split_bytes (y - x) r) as [[m' b]|] eqn:E2; [|discriminate]. intros [= ->].
  apply split_bytes_inv in E1. apply split_bytes_inv in E2. destruct E1 as [-> ->], E2 as [-> E2]. exists a, b. repeat split. lia.
Qed.
(** The characters before a byte offset are determined by it. *)
Lemma app_len_inj a b a' b' : a ++ b = a' ++ b' -> str_len a = str_len a' -> a = a' /\ b = b'.
Proof.
  intros E L. pose proof (split_bytes_app a b) as X. rewrite E, L, split_bytes_app in X. injection X as <- <-. auto.
Qed.

(** ** Ranges *)
(** A range of the buffer at [br_buf r]: it consists of [u], between [pre] and [post]. *)
Definition at_ (h : heap) (r : BufferRange) (name : string) (pre u post : list char) : Prop :=
  h (bf_addr (br_buf r)) = Some (name, pre ++ u ++ post) /\
  br_buf r = br_buf (br_new (bf_addr (br_buf r)) name (pre ++ u ++ post)) /\
  br_start r = str_len pre /\ br_end r = str_len pre + str_len u.

Lemma at_text h r name pre u post : at_ h r name pre u post -> bf_text (br_buf r) = pre ++ u ++ post.
Proof. intros (_ & -> & _). reflexivity. Qed.
Lemma at_as_str h r name pre u post : at_ h r name pre u post -> br_as_str r = Ret u.
Proof. intro A. unfold br_as_str. rewrite (at_text _ _ _ _ _ _ A). destruct A as (_ & _ & -> & ->). apply slice_app. Qed.
Lemma at_byte_len h r name pre u post : at_ h r name pre u post -> br_byte_len r = Ret (str_len u).
Proof. intros (_ & _ & E1 & E2). unfold br_byte_len. destruct (Nat.leb_spec (br_start r) (br_end r)); [|lia]. f_equal. lia. Qed.
Lemma at_empty h r name pre u post : at_ h r name pre u post -> (br_empty r = true <-> u = []).
Proof.
  intros (_ & _ & E1 & E2). unfold br_empty. rewrite Nat.eqb_eq. split; [intro E; apply str_len_0; lia|intros ->; simpl in E2; lia].
Qed.
Lemma at_with_start h r name pre m u post : at_ h r name pre (m ++ u) post ->
  at_ h (with_start r (str_len pre + str_len m)) name (pre ++ m) u post.
Proof.
  intros (E1 & E2 & E3 & E4). unfold at_, with_start; cbn. rewrite <- app_assoc in E1, E2. rewrite <- app_assoc.
  rewrite str_len_app in E4. split; [exact E1|]. split; [exact E2|]. rewrite str_len_app. split; lia.
Qed.
Lemma at_read_nil h r name pre post : at_ h r name pre [] post -> read_char_mut r = Ret (None, r).
Proof. intro A. unfold read_char_mut. rewrite (at_as_str _ _ _ _ _ _ A). reflexivity. Qed.
Lemma at_read_cons h r name pre c u post : at_ h r name pre (c :: u) post ->
  exists r', read_char_mut r = Ret (Some c, r') /\ at_ h r' name (pre ++ [c]) u post.
Proof.
  intro A. exists (with_start r (str_len pre + str_len [c])). split; [|apply (at_with_start h r name pre [c] u post A)].
  unfold read_char_mut. rewrite (at_as_str _ _ _ _ _ _ A). destruct A as (_ & _ & E3 & E4). cbn.
  destruct u as [|d u]; cbn; do 3 f_equal; cbn in E4; lia.
Qed.
Lemma at_new h a name text : h a = Some (name, text) -> at_ h (br_new a name text) name [] text [].
Proof. intro E. unfold at_; cbn. rewrite app_nil_r. repeat split; auto. Qed.
Lemma at_advance h : forall n r name pre u post, at_ h r name pre u post ->
  if Nat.leb n (length u)
  then exists r', advance_loop n r = Ret (Some r') /\ at_ h r' name (pre ++ firstn n u) (skipn n u) post
  else advance_loop n r = Ret None.
Proof.
  induction n as [|n IH]; intros r name pre u post A.
  - simpl. exists r. split; [reflexivity|]. rewrite app_nil_r. exact A.
  - cbn [advance_loop]. destruct u as [|c u]; cbn [length Nat.leb].
    + rewrite (at_read_nil _ _ _ _ _ A). reflexivity.
    + destruct (at_read_cons _ _ _ _ _ _ _ A) as (r' & E & A'). rewrite E. cbn [obind]. specialize (IH _ _ _ _ _ A').
      destruct (Nat.leb n (length u)); [|exact IH]. destruct IH as (r2 & E2 & A2). exists r2. split; [exact E2|].
      rewrite <- app_assoc in A2. exact A2.
Qed.
Lemma at_advance_n_mut h n r name pre u post : at_ h r name pre u post ->
  if Nat.leb n (length u)
  then exists r', advance_n_mut r n = Ret (Some (firstn n u), r') /\ at_ h r' name (pre ++ firstn n u) (skipn n u) post
  else advance_n_mut r n = Ret (None, r).
Proof.
  intro A. unfold advance_n_mut. pose proof (at_advance h n r name pre u post A) as X. destruct (Nat.leb n (length u)).
  - destruct X as (r' & -> & A'). cbn [obind]. exists r'. split; [|exact A'].
    rewrite (at_text _ _ _ _ _ _ A'). destruct A' as (_ & _ & E3 & _), A as (_ & _ & E3' & _). rewrite E3, E3', str_len_app, <- app_assoc.
    rewrite slice_app. reflexivity.
  - rewrite X. cbn [obind]. destruct r; reflexivity.
Qed.
Lemma at_advance_n h n r name pre u post : at_ h r name pre u post ->
  if Nat.leb n (length u)
  then exists r', advance_n r n = Ret (Some (firstn n u, r')) /\ at_ h r' name (pre ++ firstn n u) (skipn n u) post
  else advance_n r n = Ret None.
Proof.
  intro A. unfold advance_n. pose proof (at_advance_n_mut h n r name pre u post A) as X. destruct (Nat.leb n (length u)).
  - destruct X as (r' & -> & A'). cbn [obind]. exists r'. split; [|exact A'].
    rewrite (at_text _ _ _ _ _ _ A), <- (firstn_skipn n u) at 1. rewrite <- app_assoc.
    destruct A' as (_ & _ & E3 & _), A as (_ & _ & E3' & _). rewrite E3, E3', str_len_app, slice_app. reflexivity.
  - rewrite X. reflexivity.
Qed.

(** [remove_suffix]: exactly when it returns, and what. *)
Lemma remove_iff r s r' : remove_suffix r s = Ret r' <->
  bf_addr (br_buf r) = bf_addr (br_buf s) /\ br_end r = br_end s /\ br_start r <= br_start s /\
  r' = {| br_start := br_start r; br_end := br_start s; br_buf := br_buf r |}.
Proof.
  unfold remove_suffix, ref_eq, assert_. destruct (Nat.eqb_spec (bf_addr (br_buf r)) (bf_addr (br_buf s))); cbn [obind]; [|split; [discriminate|tauto]].
  destruct (Nat.eqb_spec (br_end r) (br_end s)); cbn [obind]; [|split; [discriminate|tauto]].
  destruct (Nat.leb_spec (br_start r) (br_start s)); cbn [obind]; [|split; [discriminate|intros (_ & _ & L & _); lia]].
  split; [intros [= <-]; auto|intros (_ & _ & _ & ->); reflexivity].
Qed.
Lemma remove_outcome r s : (exists r', remove_suffix r s = Ret r') \/ (exists m, remove_suffix r s = Panic m).
Proof.
  unfold remove_suffix, ref_eq, assert_. destruct (Nat.eqb _ _); cbn [obind]; [|eauto].
  destruct (Nat.eqb _ _); cbn [obind]; [|eauto]. destruct (Nat.leb _ _); cbn [obind]; eauto.
Qed.
Lemma at_remove h r s r' name pre u post name' pre' u' post' : at_ h r name pre u post -> at_ h s name' pre' u' post' ->
  remove_suffix r s = Ret r' -> exists m, pre' = pre ++ m /\ u = m ++ u' /\ name' = name /\ post' = post /\ at_ h r' name pre m (u' ++ post).
Proof.
  intros A B E. apply remove_iff in E. destruct E as (Ea & Ee & Ls & ->).
  destruct A as (A1 & A2 & A3 & A4), B as (B1 & B2 & B3 & B4). rewrite <- Ea, A1 in B1. injection B1 as <- Et.
  assert (Et2 : (pre ++ u) ++ post = (pre' ++ u') ++ post') by (rewrite <- !app_assoc; exact Et).
  destruct (app_len_inj _ _ _ _ Et2) as [Ep <-]; [rewrite !str_len_app; lia|].
  assert (Em : exists m, pre' = pre ++ m).
  { assert (X : forall x y (a b : list char), x ++ a = y ++ b -> str_len x <= str_len y -> exists m, y = x ++ m).
    { clear. induction x as [|c x IH]; intros y a b E L; [exists y; reflexivity|]. destruct y as [|d y]; cbn in L; [pose proof (len_pos c); lia|].
      cbn in E. injection E as -> E. destruct (IH y a b E) as (m & ->); [cbn in L; lia|]. exists m. reflexivity. }
    apply (X _ _ _ _ Ep). lia. }
  destruct Em as (m & ->). rewrite <- app_assoc in Ep. apply app_inv_head in Ep. subst u. exists m. repeat (split; [reflexivity|]).
  unfold at_; cbn. rewrite <- app_assoc in A1, A2. rewrite str_len_app in B3. repeat split; auto.
Qed.
Lemma api_at h r : api_range h r -> exists name pre u post, at_ h r name pre u post.
Proof.
  induction 1 as [a name text E|r o r' _ (name & pre & u & post & A) E|r c r' _ (name & pre & u & post & A) E|r n o r' _ (name & pre & u & post & A) E|
    r n s r' _ (name & pre & u & post & A) E|r s r' _ (name & pre & u & post & A) _ (name' & pre' & u' & post' & B) E].
  - exists name, [], text, []. apply at_new. exact E.
  - destruct u as [|c u].
    + rewrite (at_read_nil _ _ _ _ _ A) in E. injection E as <- <-. eauto.
    + destruct (at_read_cons _ _ _ _ _ _ _ A) as (r2 & E2 & A2). rewrite E2 in E. injection E as <- <-. eauto.
  - unfold read_char in E. destruct u as [|d u].
    + rewrite (at_read_nil _ _ _ _ _ A) in E. discriminate.
    + destruct (at_read_cons _ _ _ _ _ _ _ A) as (r2 & E2 & A2). rewrite E2 in E. cbn in E. injection E as <- <-. eauto.
  - pose proof (at_advance_n_mut h n r name pre u post A) as X. destruct (Nat.leb n (length u)).
    + destruct X as (r2 & E2 & A2). rewrite E2 in E. injection E as <- <-. eauto.
    + rewrite X in E. injection E as <- <-. eauto.
  - pose proof (at_advance_n h n r name pre u post A) as X. destruct (Nat.leb n (length u)).
    + destruct X as (r2 & E2 & A2). rewrite E2 in E. injection E as <- <-. eauto.
    + rewrite X in E. discriminate.
  - destruct (at_remove _ _ _ _ _ _ _ _ _ _ _ _ A B E) as (m & _ & _ & _ & _ & A'). eauto.
Qed.
Lemma forward_at h r name pre u post s : at_ h r name pre u post -> forward r s ->
  exists m v, u = m ++ v /\ at_ h s name (pre ++ m) v post.
Proof.
  intros A F. induction F as [|r' o r'' F (m & v & -> & B) E|r' n o r'' F (m & v & -> & B) E].
  - exists [], u. rewrite app_nil_r. auto.
  - destruct v as [|c v].
    + rewrite (at_read_nil _ _ _ _ _ B) in E. injection E as <- <-. eauto.
    + destruct (at_read_cons _ _ _ _ _ _ _ B) as (r2 & E2 & B2). rewrite E2 in E. injection E as <- <-. exists (m ++ [c]), v.
      rewrite <- !app_assoc in *. auto.
  - pose proof (at_advance_n_mut h n r' name _ v post B) as X. destruct (Nat.leb n (length v)).
    + destruct X as (r2 & E2 & B2). rewrite E2 in E. injection E as <- <-. exists (m ++ firstn n v), (skipn n v).
      rewrite <- !app_assoc in *. rewrite firstn_skipn. auto.
    + rewrite X in E. injection E as <- <-. eauto.
Qed.
Lemma reads_n_at h : forall n r name pre u post, at_ h r name pre u post ->
  exists l, reads_n n r = Ret l /\ length l = n /\ forall k, k < n -> nth_error l k = Some (nth_error u k).
Proof.
  induction n as [|n IH]; intros r name pre u post A.
  - exists []. repeat split. intros k L. lia.
  - cbn [reads_n]. destruct u as [|c u].
    + rewrite (at_read_nil _ _ _ _ _ A). cbn [obind]. destruct (IH _ _ _ _ _ A) as (l & -> & L & N). cbn [obind]. exists (None :: l).
      split; [reflexivity|]. split; [cbn; lia|]. intros [|k] Lk; [reflexivity|]. cbn. rewrite N by lia. destruct k; reflexivity.
    + destruct (at_read_cons _ _ _ _ _ _ _ A) as (r' & -> & A'). cbn [obind]. destruct (IH _ _ _ _ _ A') as (l & -> & L & N). cbn [obind].
      exists (Some c :: l). split; [reflexivity|]. split; [cbn; lia|]. intros [|k] Lk; [reflexivity|]. cbn. apply N. lia.
Qed.
