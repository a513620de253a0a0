(** Lines and positions of text buffers, and the order of keys. *)
From Coq Require Import String List Arith NArith ZArith Lia ZifyN.
From Verif.Model Require Import Ord Outcome Buffer.
From Verif.Spec Require Import BufferSpec.
From Verif.Proofs Require Import BufferFacts.
Import ListNotations.

(** ** The table of lines, in numbers of characters *)
Fixpoint lines_c (suf : list char) (s i : nat) : list (nat * nat) :=
  match suf with
  | c :: r =>
      if N.eqb c CR then
        (s, i) ::
        match r with
        | d :: r2 => if N.eqb d LF then lines_c r2 (i + 2) (i + 2) else lines_c r (i + 1) (i + 1)
        | [] => lines_c r (i + 1) (i + 1)
        end
      else if N.eqb c LF then (s, i) :: lines_c r (i + 1) (i + 1)
      else lines_c r s (i + 1)
  | [] => [(s, i)]
  end.
Definition off (text : list char) (k : nat) : nat := str_len (firstn k text).
Definition offs (text : list char) (p : nat * nat) : nat * nat := (off text (fst p), off text (snd p)).

Lemma off_pre pre suf : off (pre ++ suf) (length pre) = str_len pre.
Proof. unfold off. rewrite firstn_app, Nat.sub_diag, firstn_all, app_nil_r. reflexivity. Qed.

Lemma line_loop_lines n : forall suf pre text s, length suf <= n -> text = pre ++ suf -> s <= length pre ->
  forall ls, (ls = Some (off text s) \/ (ls = None /\ s = length pre)) ->
  line_loop (str_len text) (char_indices_from (str_len pre) suf) ls = map (offs text) (lines_c suf s (length pre)).
Proof.
  induction n as [|n IH]; intros suf pre text s Ln E Ls ls Hls;
  assert (Eo : off text (length pre) = str_len pre) by (subst text; apply off_pre);
  assert (En : line_entry ls (str_len pre) = offs text (s, length pre))
    by (unfold offs; cbn [fst snd]; rewrite Eo; destruct Hls as [-> |[-> ->]]; cbn [line_entry]; [reflexivity|rewrite Eo; reflexivity]).
  { destruct suf; [|cbn in Ln; lia]. rewrite app_nil_r in E. subst text. cbn [char_indices_from line_loop lines_c map]. rewrite En. reflexivity. }
  destruct suf as [|c r].
  { rewrite app_nil_r in E. subst text. cbn [char_indices_from line_loop lines_c map]. rewrite En. reflexivity. }
  cbn in Ln. cbn [char_indices_from line_loop lines_c].
  assert (E1 : text = (pre ++ [c]) ++ r) by (rewrite <- app_assoc; exact E).
  assert (L1 : length (pre ++ [c]) = length pre + 1) by (rewrite app_length; reflexivity).
  assert (S1 : str_len (pre ++ [c]) = str_len pre + len_utf8 c) by (rewrite str_len_app; cbn; lia).
  assert (Hr : line_loop (str_len text) (char_indices_from (str_len pre + len_utf8 c) r) None = map (offs text) (lines_c r (length pre + 1) (length pre + 1))).
  { rewrite <- S1, <- L1. apply IH; [lia|exact E1|lia|right; auto]. }
  destruct (N.eqb c CR) eqn:Cc.
  - cbn [map]. rewrite En. f_equal. destruct r as [|d r2]; [exact Hr|]. cbn [char_indices_from]. destruct (N.eqb d LF) eqn:Dd; [|exact Hr].
    assert (E2 : text = (pre ++ [c; d]) ++ r2) by (rewrite <- app_assoc; exact E).
    assert (L2 : length (pre ++ [c; d]) = length pre + 2) by (rewrite app_length; reflexivity).
    assert (S2 : str_len (pre ++ [c; d]) = str_len pre + len_utf8 c + len_utf8 d) by (rewrite str_len_app; cbn; lia).
    rewrite <- S2, <- L2. apply IH; [cbn in Ln; lia|exact E2|lia|right; auto].
  - destruct (N.eqb c LF) eqn:Cl; [cbn [map]; rewrite En; f_equal; exact Hr|].
    rewrite <- S1, <- L1. apply IH; [lia|exact E1|lia|]. left. destruct Hls as [-> |[-> ->]]; [reflexivity|]. rewrite Eo. reflexivity.
Qed.

(** ** Which line a place is on *)
Lemma count_ext P a c : count_upto P a c -> forall b, a <= b -> (forall k, a < k -> k <= b -> ~ P k) -> count_upto P b c.
Proof.
  intros C b L. induction L as [|b L IH]; intro N; [exact C|]. apply cu_S_no; [apply IH; intros k K1 K2; apply N; lia|apply N; lia].
Qed.
Lemma lines_starts n : forall suf s i, length suf <= n -> s <= i -> Forall (fun p => s <= fst p) (lines_c suf s i).
Proof.
  induction n as [|n IH]; intros suf s i Ln L; [destruct suf; [|cbn in Ln; lia]; repeat constructor|].
  assert (X : forall suf i', length suf <= n -> s <= i' -> Forall (fun p => s <= fst p) (lines_c suf i' i')).
  { intros suf' i' Ln' L'. eapply Forall_impl; [|apply (IH suf' i' i' Ln' (le_n i'))]. cbn. intros p Hp. lia. }
  destruct suf as [|c r]; [repeat constructor|]. cbn in Ln. cbn [lines_c].
  destruct (N.eqb c CR); [constructor; [cbn; lia|]|destruct (N.eqb c LF); [constructor; [cbn; lia|]|]].
  - destruct r as [|d r2]; [apply X; cbn; lia|]. destruct (N.eqb d LF); apply X; cbn in *; lia.
  - apply X; lia.
  - apply IH; lia.
Qed.

Section Lines.
  Variable text : list char.
  Definition plain (k : nat) : Prop := nth_error text k <> Some LF /\ nth_error text k <> Some CR.
  Lemma nth_pre pre c r : text = pre ++ c :: r -> nth_error text (length pre) = Some c.
  Proof. intros ->. rewrite nth_error_app2, Nat.sub_diag by lia. reflexivity. Qed.
  Lemma plain_not_end a b : (forall k, a <= k -> k < b -> plain k) -> forall k, a < k -> k <= b -> ~ terminator_ends text k.
  Proof. intros Pl k K1 K2 (j & -> & X). destruct (Pl j) as [N1 N2]; [lia|lia|]. destruct X as [X|[X _]]; congruence. Qed.

  Lemma lines_place n : forall suf pre s, length suf <= n -> text = pre ++ suf -> s <= length pre ->
    (s = 0 \/ terminator_ends text s) -> (forall k, s <= k -> k < length pre -> plain k) ->
    forall i, s <= i -> i <= length text ->
    exists k s' e', nth_error (lines_c suf s (length pre)) k = Some (s', e') /\ line_bounds text i s' e' /\
      (forall j p, j < k -> nth_error (lines_c suf s (length pre)) j = Some p -> snd p < i) /\
      (forall j p, k < j -> nth_error (lines_c suf s (length pre)) j = Some p -> i < fst p) /\
      (forall c, count_upto (terminator_ends text) s c -> count_upto (terminator_ends text) i (c + k)).
  Proof.
    induction n as [|n IH]; intros suf pre s Ln E Ls St Pl i L1 L2.
    - destruct suf; [|cbn in Ln; lia]. rewrite app_nil_r in E. exists 0, s, (length pre). subst pre. split; [reflexivity|].
      split; [|split; [|split]].
      + split; [exact L1|]. split; [exact St|]. split; [intros k K1 K2; apply (plain_not_end s (length text) Pl); lia|].
        split; [exact Ls|]. split; [lia|]. split; [exact Pl|auto].
      + intros j p J. lia.
      + intros [|j] p J; [lia|]. cbn. destruct j; discriminate.
      + intros c C. rewrite Nat.add_0_r. apply (count_ext _ s c C i L1). intros k K1 K2. apply (plain_not_end s (length text) Pl); lia.
    - destruct suf as [|c r].
      { apply (IH [] pre s); auto. cbn. lia. }
      cbn in Ln. cbn [lines_c].
      assert (E1 : text = (pre ++ [c]) ++ r) by (rewrite <- app_assoc; exact E).
      assert (Le1 : length (pre ++ [c]) = length pre + 1) by (rewrite app_length; reflexivity).
      assert (Nc : nth_error text (length pre) = Some c) by exact (nth_pre _ _ _ E).
      (* a terminator of [w] characters at the end of [pre], after which [rest] follows *)
      assert (Step : forall w rest, 1 <= w -> (nth_error text (length pre) = Some LF \/ nth_error text (length pre) = Some CR) ->
        length rest <= n -> (exists x, text = (pre ++ x) ++ rest /\ length x = w) ->
        terminator_ends text (length pre + w) -> (forall k, length pre < k -> k < length pre + w -> ~ terminator_ends text k) ->
        exists k s' e', nth_error ((s, length pre) :: lines_c rest (length pre + w) (length pre + w)) k = Some (s', e') /\ line_bounds text i s' e' /\
          (forall j p, j < k -> nth_error ((s, length pre) :: lines_c rest (length pre + w) (length pre + w)) j = Some p -> snd p < i) /\
          (forall j p, k < j -> nth_error ((s, length pre) :: lines_c rest (length pre + w) (length pre + w)) j = Some p -> i < fst p) /\
          (forall c0, count_upto (terminator_ends text) s c0 -> count_upto (terminator_ends text) i (c0 + k))).
      { intros w rest W1 Tm Lr (x & Ex & Lx) Te Nt. destruct (Nat.lt_ge_cases i (length pre + w)) as [Li|Li].
        - exists 0, s, (length pre). split; [reflexivity|].
          assert (No : forall k, s < k -> k <= i -> ~ terminator_ends text k).
          { intros k K1 K2. destruct (Nat.le_gt_cases k (length pre)); [apply (plain_not_end s (length pre) Pl); lia|apply Nt; lia]. }
          split; [|split; [|split]].
          + assert (length pre <= length text) by (rewrite Ex, !app_length; lia).
            unfold line_bounds. repeat (split; [first [exact Pl|lia|assumption]|]). destruct Tm; auto.
          + intros j p J. lia.
          + intros [|j] p J; [lia|]. cbn [nth_error]. intro N. apply nth_error_In in N.
            pose proof (lines_starts n rest (length pre + w) (length pre + w) Lr (le_n _)) as F. rewrite Forall_forall in F. specialize (F p N). lia.
          + intros c0 C. rewrite Nat.add_0_r. exact (count_ext _ s c0 C i L1 No).
        - assert (Lpx : length (pre ++ x) = length pre + w) by (rewrite app_length; lia).
          destruct (IH rest (pre ++ x) (length pre + w) Lr Ex) with (i := i) as (k & s' & e' & N & B & Bf & Af & C); try rewrite Lpx; auto; try lia.
          rewrite Lpx in *. exists (S k), s', e'. split; [exact N|]. split; [exact B|]. split; [|split].
          + intros [|j] p J; cbn [nth_error]; [intros [= <-]; cbn; lia|intro X; apply (Bf j p); [lia|exact X]].
          + intros [|j] p J; [lia|]. cbn [nth_error]. intro X. apply (Af j p); [lia|exact X].
          + intros c0 C0. replace (c0 + S k) with (S c0 + k) by lia. apply C.
            replace (length pre + w) with (S (length pre + (w - 1))) by lia. apply cu_S_yes; [|replace (S (length pre + (w - 1))) with (length pre + w) by lia; exact Te].
            apply (count_ext _ s c0 C0); [lia|]. intros k' K1 K2. destruct (Nat.le_gt_cases k' (length pre)); [apply (plain_not_end s (length pre) Pl); lia|apply Nt; lia]. }
      destruct (N.eqb_spec c CR) as [-> |Nr].
      + assert (One : nth_error text (length pre + 1) <> Some LF -> terminator_ends text (length pre + 1)).
        { intro X. exists (length pre). split; [lia|]. right. split; [exact Nc|exact X]. }
        destruct r as [|d r2].
        * apply (Step 1 []); [lia|auto|cbn; lia|exists [CR]; split; [exact E1|reflexivity]| |intros; lia].
          apply One. replace (length pre + 1) with (length text) by (rewrite E1, !app_length; cbn; lia). intro X.
          assert (Y : nth_error text (length text) = None) by (apply nth_error_None; lia). congruence.
        * assert (Nd : nth_error text (length pre + 1) = Some d) by (rewrite <- Le1; apply (nth_pre (pre ++ [CR]) d r2); exact E1).
          destruct (N.eqb_spec d LF) as [-> |Nl].
          -- apply (Step 2 r2); [lia|auto|cbn in Ln; lia|exists [CR; LF]; split; [rewrite <- app_assoc; exact E|reflexivity]| |].
             ++ exists (length pre + 1). split; [lia|]. left. exact Nd.
             ++ intros k K1 K2 (j & -> & [X|[_ X]]); assert (j = length pre) by lia; subst j; [rewrite Nc in X; discriminate|].
                apply X. replace (S (length pre)) with (length pre + 1) by lia. exact Nd.
          -- apply (Step 1 (d :: r2)); [lia|auto|lia|exists [CR]; split; [exact E1|reflexivity]| |intros; lia].
             apply One. rewrite Nd. congruence.
      + destruct (N.eqb_spec c LF) as [-> |Nl].
        * apply (Step 1 r); [lia|auto|lia|exists [LF]; split; [exact E1|reflexivity]| |intros; lia].
          exists (length pre). split; [lia|]. left. exact Nc.
        * destruct (IH r (pre ++ [c]) s) with (i := i) as (k & s' & e' & X); auto; try rewrite Le1; try lia.
          { intros k K1 K2. destruct (Nat.eq_dec k (length pre)) as [-> |]; [|apply Pl; lia]. unfold plain. rewrite Nc. split; congruence. }
          rewrite Le1 in X. eauto.
  Qed.
End Lines.

(** ** The search *)
Lemma off_mono text a b : a <= b -> off text a <= off text b.
Proof.
  intro L. unfold off. replace (firstn b text) with (firstn a text ++ firstn (b - a) (skipn a text)).
  - rewrite str_len_app. lia.
  - rewrite <- (firstn_skipn a (firstn b text)). rewrite firstn_firstn, Nat.min_l by exact L. f_equal. rewrite firstn_skipn_comm. do 2 f_equal. lia.
Qed.
Lemma off_lt text a b : a < b -> b <= length text -> off text a < off text b.
Proof.
  intros L Lb. apply Nat.lt_le_trans with (off text (S a)); [|apply off_mono; lia].
  unfold off. rewrite <- (firstn_skipn a (firstn (S a) text)), firstn_firstn, Nat.min_l, str_len_app by lia.
  destruct (skipn a (firstn (S a) text)) as [|c l] eqn:E.
  - apply (f_equal (@length char)) in E. rewrite skipn_length, firstn_length in E. cbn [length] in E. lia.
  - cbn. pose proof (len_pos c). lia.
Qed.
Lemma line_cmp_off text i p : fst p <= length text -> snd p <= length text -> i <= length text ->
  line_cmp (off text i) (offs text p) = if Nat.ltb i (fst p) then Gt else if Nat.ltb (snd p) i then Lt else Eq.
Proof.
  intros L1 L2 L3. unfold line_cmp, offs; cbn [fst snd].
  destruct (Nat.ltb_spec i (fst p)) as [A|A].
  - destruct (Nat.ltb_spec (off text i) (off text (fst p))) as [B|B]; [reflexivity|]. pose proof (off_lt text i (fst p) A L1). lia.
  - destruct (Nat.ltb_spec (off text i) (off text (fst p))) as [B|B]; [pose proof (off_mono text (fst p) i A); lia|].
    destruct (Nat.ltb_spec (snd p) i) as [C|C]; destruct (Nat.ltb_spec (off text (snd p)) (off text i)) as [D|D]; try reflexivity.
    + pose proof (off_lt text (snd p) i C L3). lia.
    + pose proof (off_mono text i (snd p) C). lia.
Qed.
Lemma sorted_around (l : list comparison) k x : k < length l -> (forall j, j < k -> nth_error l j = Some Lt) ->
  nth_error l k = Some x -> x <> Gt -> (forall j, k < j -> j < length l -> nth_error l j = Some Gt) -> sorted_cmps l.
Proof.
  intros Lk A X Nx B. exists (match x with Eq => k | _ => S k end), (match x with Eq => 1 | _ => 0 end), (length l - S k).
  assert (Rp : forall y n j, nth_error (repeat (y : comparison) n) j = if Nat.ltb j n then Some y else None).
  { clear. induction n as [|n IH]; intros [|j]; try reflexivity. cbn [repeat nth_error]. rewrite IH. reflexivity. }
  assert (Ex : forall (l1 l2 : list comparison), (forall j, nth_error l1 j = nth_error l2 j) -> l1 = l2).
  { clear. induction l1 as [|a l1 IH]; intros [|b l2] E; try reflexivity; try (specialize (E 0); discriminate).
    pose proof (E 0) as E0. injection E0 as ->. f_equal. apply IH. intro j. exact (E (S j)). }
  apply Ex. intro j. destruct (Nat.lt_ge_cases j k) as [J|J].
  - rewrite (A j J). symmetry. rewrite nth_error_app1 by (rewrite repeat_length; destruct x; lia). rewrite Rp. destruct x; try congruence; destruct (Nat.ltb_spec j k); try lia; try reflexivity.
    destruct (Nat.ltb_spec j (S k)); [reflexivity|lia].
  - destruct (Nat.eq_dec j k) as [-> |Nj].
    + rewrite X. symmetry. destruct x; [| |congruence].
      * rewrite nth_error_app2; rewrite repeat_length; [|lia]. rewrite Nat.sub_diag. reflexivity.
      * rewrite nth_error_app1 by (rewrite repeat_length; lia). rewrite Rp. destruct (Nat.ltb_spec k (S k)); [reflexivity|lia].
    + assert (Ej : nth_error l j = if Nat.ltb j (length l) then Some Gt else None).
      { destruct (Nat.ltb_spec j (length l)); [apply B; lia|apply nth_error_None; lia]. }
      rewrite Ej. symmetry. rewrite nth_error_app2; rewrite repeat_length; [|destruct x; lia]. rewrite nth_error_app2; rewrite repeat_length; [|destruct x; lia].
      rewrite Rp. destruct (Nat.ltb_spec j (length l)) as [J1|J1]; [|destruct (Nat.ltb_spec (j - (match x with Eq => k | _ => S k end) - (match x with Eq => 1 | _ => 0 end)) (length l - S k)); [destruct x; lia|reflexivity]].
      destruct (Nat.ltb_spec (j - (match x with Eq => k | _ => S k end) - (match x with Eq => 1 | _ => 0 end)) (length l - S k)); [reflexivity|destruct x; lia].
Qed.

(** ** Columns *)
Lemma count_columns_spec d : forall gs o c, exists m, count_columns (grapheme_offsets o gs) d c = c + m /\ m <= length gs /\
  (forall k, k < m -> o + str_len (concat (firstn k gs)) < d) /\
  (forall k, m <= k -> k < length gs -> d <= o + str_len (concat (firstn k gs))).
Proof.
  induction gs as [|x gs IH]; intros o c; cbn [grapheme_offsets count_columns].
  - exists 0. repeat split; intros; cbn in *; lia.
  - destruct (Nat.leb_spec d o) as [L|L].
    + exists 0. split; [lia|]. split; [lia|]. split; intros k K; [lia|]. intro; lia.
    + destruct (IH (o + str_len x) (c + 1)) as (m & E & Lm & A & B). exists (S m). split; [rewrite E; lia|]. split; [cbn; lia|]. split.
      * intros [|k] K; [cbn; lia|]. cbn [firstn concat]. rewrite str_len_app. specialize (A k). lia.
      * intros [|k] K1 K2; [lia|]. cbn [firstn concat]. rewrite str_len_app. cbn in K2. specialize (B k). lia.
Qed.

Section Positions.
  Variable bs : list comparison -> nat + nat.
  Variable gs : list char -> list (list char).
  Hypothesis BS : search_contract bs.
  Hypothesis GS : graphemes_contract gs.

  Lemma get_pos a name text i : i <= length text ->
    exists p, get_text_pos bs gs (br_buf (br_new a name text)) (off text i) = Ret p /\ is_pos gs text i p.
  Proof.
    intro Li. destruct (lines_place text (length text) text [] 0 (le_n _) eq_refl (le_n _) (or_introl eq_refl)) with (i := i) as (k & s & e & N & B & Bf & Af & C); try lia.
    { intros k _ K. cbn in K. lia. }
    cbn [length] in *. set (L := lines_c text 0 0) in *.
    pose proof B as (B1 & B2 & B3 & B4 & B5 & B6 & B7).
    assert (Tb : bf_line_ranges (br_buf (br_new a name text)) = map (offs text) L).
    { cbn. unfold char_indices, L. apply (line_loop_lines (length text) text [] text 0); auto. }
    assert (Ord : forall j p, nth_error L j = Some p -> fst p <= length text /\ snd p <= length text).
    { intros j p Np. assert (X : forall n suf s i, length suf <= n -> s <= i -> Forall (fun p => fst p <= i + length suf /\ snd p <= i + length suf) (lines_c suf s i)).
      { clear. induction n as [|n IH]; intros suf s i Ln Le; [destruct suf; [|cbn in Ln; lia]; repeat constructor; cbn; lia|].
        assert (Im : forall suf' i', length suf' <= n -> i' + length suf' <= i + length suf ->
          Forall (fun p : nat * nat => fst p <= i + length suf /\ snd p <= i + length suf) (lines_c suf' i' i')).
        { intros suf' i' L1 L2. eapply Forall_impl; [|apply (IH suf' i' i' L1 (le_n _))]. cbn. intros p Hp. lia. }
        destruct suf as [|c r]; [repeat constructor; cbn; lia|]. cbn in Ln. cbn [lines_c].
        destruct (N.eqb c CR); [constructor; [cbn; lia|]|destruct (N.eqb c LF); [constructor; [cbn; lia|]|]].
        - destruct r as [|d r2]; [apply Im; cbn; lia|]. destruct (N.eqb d LF); apply Im; cbn in *; lia.
        - apply Im; cbn; lia.
        - eapply Forall_impl; [|apply (IH r s (i + 1)); lia]. cbn. intros p Hp. lia. }
      pose proof (X (length text) text 0 0 (le_n _) (le_n _)) as F. rewrite Forall_forall in F. apply (F p). exact (nth_error_In _ _ Np). }
    set (cs := map (line_cmp (off text i)) (map (offs text) L)).
    assert (Cn : forall j p, nth_error L j = Some p -> nth_error cs j = Some (if Nat.ltb i (fst p) then Gt else if Nat.ltb (snd p) i then Lt else Eq)).
    { intros j p Np. unfold cs. rewrite map_map, nth_error_map, Np. cbn [option_map]. f_equal. destruct (Ord j p Np). apply line_cmp_off; assumption. }
    assert (Lc : length cs = length L) by (unfold cs; rewrite !map_length; reflexivity).
    assert (Lk : k < length L) by (apply nth_error_Some; congruence).
    assert (Before : forall j, j < k -> nth_error cs j = Some Lt).
    { intros j J. destruct (nth_error L j) as [p|] eqn:Np; [|apply nth_error_None in Np; lia]. rewrite (Cn j p Np).
      pose proof (Bf j p J Np) as X. destruct (Nat.ltb_spec i (fst p)) as [Y|Y].
      - exfalso. clear - Np X Y. assert (Z : forall n suf s i, length suf <= n -> s <= i -> Forall (fun p => fst p <= snd p) (lines_c suf s i)).
        { clear. induction n as [|n IH]; intros suf s i Ln Le; [destruct suf; [|cbn in Ln; lia]; repeat constructor; cbn; lia|].
          destruct suf as [|c r]; [repeat constructor; cbn; lia|]. cbn in Ln. cbn [lines_c].
          destruct (N.eqb c CR); [constructor; [cbn; lia|]|destruct (N.eqb c LF); [constructor; [cbn; lia|]|]].
          - destruct r as [|d r2]; [apply IH; cbn; lia|]. destruct (N.eqb d LF); apply IH; cbn in *; lia.
          - apply IH; cbn; lia.
          - apply IH; lia. }
        pose proof (Z (length text) text 0 0 (le_n _) (le_n _)) as F. rewrite Forall_forall in F. specialize (F p (nth_error_In _ _ Np)). cbn in F. lia.
      - destruct (Nat.ltb_spec (snd p) i); [reflexivity|lia]. }
    assert (After : forall j, k < j -> j < length cs -> nth_error cs j = Some Gt).
    { intros j J J2. destruct (nth_error L j) as [p|] eqn:Np; [|apply nth_error_None in Np; lia]. rewrite (Cn j p Np).
      pose proof (Af j p J Np) as X. destruct (Nat.ltb_spec i (fst p)) as [Y|Y]; [reflexivity|lia]. }
    assert (At : nth_error cs k = Some (if Nat.ltb e i then Lt else Eq)).
    { rewrite (Cn k _ N). cbn [fst snd]. destruct (Nat.ltb_spec i s); [lia|reflexivity]. }
    assert (So : sorted_cmps cs).
    { apply (sorted_around cs k (if Nat.ltb e i then Lt else Eq)); auto; [lia|destruct (Nat.ltb e i); discriminate]. }
    assert (Idx : match bs cs with inl j => Ret j | inr p => if Nat.ltb 0 p then Ret (p - 1) else Panic "attempt to subtract with overflow" end = Ret k).
    { pose proof (BS cs So) as Sc. destruct (bs cs) as [j|p].
      - f_equal. destruct (Nat.lt_trichotomy j k) as [J|[J|J]]; [rewrite (Before j J) in Sc; discriminate|exact J|].
        rewrite (After j J) in Sc; [discriminate|]. apply nth_error_Some. congruence.
      - destruct Sc as (P1 & P2 & P3). assert (k < p).
        { destruct (Nat.lt_ge_cases k p) as [|P4]; [assumption|]. rewrite (P3 k P4) in At by lia. destruct (Nat.ltb e i); discriminate. }
        assert (p <= S k).
        { destruct (Nat.le_gt_cases p (S k)) as [|P4]; [assumption|]. specialize (P2 (S k) P4). rewrite After in P2; [discriminate|lia|lia]. }
        replace p with (S k) by lia. cbn. f_equal. lia. }
    unfold get_text_pos, get_line_str. rewrite Tb. fold cs. cbn [bf_text br_buf br_new].
    assert (Lo : off text i <= str_len text). { replace (str_len text) with (off text (length text)) by (unfold off; rewrite firstn_all; reflexivity). apply off_mono. exact Li. }
    destruct (Nat.leb_spec (off text i) (str_len text)); [|lia]. cbn [assert_ obind]. rewrite Idx. cbn [obind].
    rewrite nth_error_map, N. cbn [option_map expect obind offs fst snd].
    set (line := firstn (e - s) (skipn s text)).
    assert (Et : text = firstn s text ++ line ++ skipn e text).
    { rewrite <- (firstn_skipn s text) at 1. f_equal. unfold line. rewrite <- (firstn_skipn (e - s) (skipn s text)) at 1. f_equal.
      assert (X : forall n m (l : list char), skipn m (skipn n l) = skipn (n + m) l).
      { clear. induction n as [|n IH]; intros m l; [reflexivity|]. destruct l; cbn; [apply skipn_nil|apply IH]. }
      rewrite X. f_equal. lia. }
    assert (Ee : off text e = off text s + str_len line).
    { unfold off at 1 2. rewrite <- str_len_app. f_equal. rewrite Et at 1. rewrite app_assoc, firstn_app.
      assert (Ll : length (firstn s text ++ line) = e) by (unfold line; rewrite app_length, !firstn_length, skipn_length; lia).
      rewrite Ll, Nat.sub_diag, <- Ll, firstn_all. cbn. apply app_nil_r. }
    rewrite (slice_app' text (firstn s text) line (skipn e text) (off text s) (off text e) Et eq_refl Ee). cbn [obind].
    set (d := Nat.min i e - s).
    assert (Ed : (if Nat.leb (off text i) (off text e) then off text i else off text e) = off text s + str_len (firstn d line)).
    { assert (X : (if Nat.leb (off text i) (off text e) then off text i else off text e) = off text (Nat.min i e)).
      { destruct (Nat.le_gt_cases i e) as [G|G].
        - pose proof (off_mono text i e G). destruct (Nat.leb_spec (off text i) (off text e)); [|lia]. rewrite Nat.min_l by exact G. reflexivity.
        - pose proof (off_lt text e i G Li). destruct (Nat.leb_spec (off text i) (off text e)); [lia|]. rewrite Nat.min_r by lia. reflexivity. }
      rewrite X. unfold off. rewrite <- str_len_app. f_equal. unfold line. rewrite firstn_firstn, (Nat.min_l d (e - s)) by (unfold d; lia).
      unfold d. assert (Y : s <= Nat.min i e) by lia. revert Y. generalize (Nat.min i e). clear. intros m Y.
      rewrite <- (firstn_skipn s (firstn m text)) at 1. rewrite firstn_firstn, Nat.min_l by exact Y. f_equal. rewrite firstn_skipn_comm. do 2 f_equal. lia. }
    rewrite Ed. destruct (Nat.leb_spec (off text s) (off text s + str_len (firstn d line))); [|lia]. cbn [obind].
    replace (off text s + str_len (firstn d line) - off text s) with (str_len (firstn d line)) by lia.
    destruct (count_columns_spec (str_len (firstn d line)) (gs line) 0 0) as (m & -> & Lm & A1 & A2).
    eexists. split; [reflexivity|]. unfold is_pos; cbn [tp_line tp_column tp_byte_offset]. split; [reflexivity|]. split; [apply (C 0)|].
    { apply cu_0_no. intros (j & X & _). discriminate X. }
    exists s, e. split; [exact B|]. cbn zeta. fold line. fold d. destruct (GS line) as [Gc _].
    assert (Cut : forall q, exists z, line = concat (firstn q (gs line)) ++ z).
    { intro q. exists (concat (skipn q (gs line))). rewrite <- concat_app, firstn_skipn. symmetry. exact Gc. }
    assert (Pf : forall k, str_len (concat (firstn k (gs line))) = off line (length (concat (firstn k (gs line))))).
    { intro q. destruct (Cut q) as (z & Ez). revert Ez. generalize (concat (firstn q (gs line))). intros x ->. symmetry. apply off_pre. }
    assert (Lf : forall k, length (concat (firstn k (gs line))) <= length line).
    { intro q. destruct (Cut q) as (z & Ez). revert Ez. generalize (concat (firstn q (gs line))). intros x ->. rewrite app_length. lia. }
    cbn [Nat.add] in *. split; [exact Lm|]. change (str_len (firstn d line)) with (off line d) in *. split.
    - intros q Q. specialize (A1 q Q). rewrite Pf in A1. destruct (Nat.lt_ge_cases (length (concat (firstn q (gs line)))) d) as [|G]; [assumption|].
      pose proof (off_mono line _ _ G). lia.
    - intros q Q1 Q2. specialize (A2 q Q1 Q2). rewrite Pf in A2. destruct (Nat.le_gt_cases d (length (concat (firstn q (gs line))))) as [|G]; [assumption|].
      assert (d <= length line) by (unfold d, line; rewrite firstn_length, skipn_length; lia).
      pose proof (off_lt line _ _ G). lia.
  Qed.
End Positions.

(** ** The standard library's search meets the contract *)
Lemma std_search_ok : search_contract std_binary_search.
Proof.
  intros l (a & b & c & El).
  assert (Nx : forall i, i < length l -> nth_error l i = Some (if Nat.ltb i a then Lt else if Nat.ltb i (a + b) then Eq else Gt)).
  { intros i Li. subst l. assert (Rp : forall y n j, nth_error (repeat (y : comparison) n) j = if Nat.ltb j n then Some y else None).
    { clear. induction n as [|n IH]; intros [|j]; try reflexivity. cbn [repeat nth_error]. rewrite IH. reflexivity. }
    destruct (Nat.ltb_spec i a); [rewrite nth_error_app1 by (rewrite repeat_length; lia); rewrite Rp; destruct (Nat.ltb_spec i a); [reflexivity|lia]|].
    rewrite nth_error_app2; rewrite repeat_length; [|lia].
    destruct (Nat.ltb_spec i (a + b)); [rewrite nth_error_app1 by (rewrite repeat_length; lia); rewrite Rp; destruct (Nat.ltb_spec (i - a) b); [reflexivity|lia]|].
    rewrite nth_error_app2; rewrite repeat_length; [|lia]. rewrite !app_length, !repeat_length in Li. rewrite Rp. destruct (Nat.ltb_spec (i - a - b) c); [reflexivity|lia]. }
  assert (Len : length l = a + b + c) by (subst l; rewrite !app_length, !repeat_length; lia).
  assert (X : forall fuel left right, right - left < fuel -> left <= right -> right <= length l ->
    (forall i, i < left -> nth_error l i = Some Lt) -> (forall i, right <= i -> i < length l -> nth_error l i = Some Gt) ->
    match std_search_loop fuel l left right with
    | inl i => nth_error l i = Some Eq
    | inr p => p <= length l /\ (forall i, i < p -> nth_error l i = Some Lt) /\ (forall i, p <= i -> i < length l -> nth_error l i = Some Gt)
    end).
  { induction fuel as [|fuel IH]; intros left right F LR RL A B; [lia|]. cbn [std_search_loop]. destruct (Nat.ltb_spec left right) as [Lt'|Ge].
    - set (mid := left + (right - left) / 2). assert (M : left <= mid < right).
      { pose proof (Nat.div_lt (right - left) 2). unfold mid. lia. }
      assert (Lm : mid < length l) by lia. pose proof (Nx mid Lm) as Nm. rewrite (nth_error_nth l mid Gt Nm).
      destruct (Nat.ltb_spec mid a); [|destruct (Nat.ltb_spec mid (a + b)); [exact Nm|]].
      + apply IH; [lia|lia|lia| |exact B]. intros i Li. rewrite Nx by lia. destruct (Nat.ltb_spec i a); [reflexivity|lia].
      + apply IH; [lia|lia|lia|exact A|]. intros i L1 L2. rewrite Nx by lia. destruct (Nat.ltb_spec i a); [lia|]. destruct (Nat.ltb_spec i (a + b)); [lia|reflexivity].
    - split; [lia|]. split; [exact A|]. intros i L1 L2. apply B; lia. }
  unfold std_binary_search. apply X; try lia.
Qed.
Lemma single_graphemes_ok : graphemes_contract (map (fun c => [c])).
Proof.
  intro l. split; [induction l as [|c l IH]; [reflexivity|cbn; rewrite IH; reflexivity]|].
  intros x I. apply in_map_iff in I. destruct I as (c & <- & _). discriminate.
Qed.

(** ** The order of keys *)
Lemma bytes_cmp_app a x y : bytes_cmp (a ++ x) (a ++ y) = bytes_cmp x y.
Proof. induction a as [|b a IH]; [reflexivity|]. cbn. rewrite N.compare_refl. exact IH. Qed.
Lemma bytes_cmp_opp x : forall y, bytes_cmp y x = CompOpp (bytes_cmp x y).
Proof. induction x as [|a x IH]; intros [|b y]; try reflexivity. cbn. rewrite (N.compare_antisym a b). destruct (N.compare a b); cbn; auto. Qed.
Ltac Zify.zify_post_hook ::= Z.div_mod_to_equations.
Lemma encode_lt c d x y : (c < d)%N -> (d < 1114112)%N -> bytes_cmp (encode_utf8 c ++ x) (encode_utf8 d ++ y) = Lt.
Proof.
  intros L M. unfold encode_utf8.
  destruct (N.ltb_spec c 128); [|destruct (N.ltb_spec c 2048); [|destruct (N.ltb_spec c 65536)]];
  (destruct (N.ltb_spec d 128); [|destruct (N.ltb_spec d 2048); [|destruct (N.ltb_spec d 65536)]]); try lia; cbn [app bytes_cmp];
  repeat match goal with |- context [N.compare ?a ?b] => destruct (N.compare_spec a b); try reflexivity; try (exfalso; lia) end.
Qed.
Lemma text_bytes_cmp : forall s t, Forall scalar s -> Forall scalar t -> bytes_cmp (as_bytes s) (as_bytes t) = text_cmp s t.
Proof.
  assert (Mx : forall c, scalar c -> (c < 1114112)%N) by (unfold scalar; lia).
  assert (Ne : forall c, encode_utf8 c <> []) by (intro c; unfold encode_utf8; repeat destruct (_ <? _)%N; discriminate).
  induction s as [|c s IH]; intros [|d t] Fs Ft; cbn [as_bytes flat_map text_cmp].
  - reflexivity.
  - destruct (encode_utf8 d) eqn:E; [destruct (Ne d E)|reflexivity].
  - destruct (encode_utf8 c) eqn:E; [destruct (Ne c E)|reflexivity].
  - inversion Fs; inversion Ft; subst. destruct (N.compare_spec c d) as [-> |L|L].
    + rewrite bytes_cmp_app. apply IH; assumption.
    + apply encode_lt; auto.
    + rewrite bytes_cmp_opp, encode_lt; auto.
Qed.
Lemma text_cmp_eq s : forall t, text_cmp s t = Eq <-> s = t.
Proof.
  induction s as [|c s IH]; intros [|d t]; cbn; try (split; congruence). destruct (N.compare_spec c d) as [-> |L|L].
  - rewrite IH. split; congruence.
  - split; [discriminate|]. intros [= -> _]. lia.
  - split; [discriminate|]. intros [= -> _]. lia.
Qed.
Lemma text_cmp_opp s : forall t, text_cmp t s = CompOpp (text_cmp s t).
Proof. induction s as [|a s IH]; intros [|b t]; try reflexivity. cbn. rewrite (N.compare_antisym a b). destruct (N.compare a b); cbn; auto. Qed.
Lemma text_cmp_trans s : forall t u, text_cmp s t = Lt -> text_cmp t u = Lt -> text_cmp s u = Lt.
Proof.
  induction s as [|a s IH]; intros [|b t] [|c u]; cbn; try discriminate; auto.
  destruct (N.compare_spec a b) as [-> |L|L]; try discriminate; destruct (N.compare_spec b c) as [-> |L'|L']; try discriminate; intros X Y.
  - exact (IH t u X Y).
  - reflexivity.
  - apply N.compare_lt_iff in L. rewrite L. reflexivity.
  - assert (L2 : (a < c)%N) by lia. apply N.compare_lt_iff in L2. rewrite L2. reflexivity.
Qed.

(** ** Positions are determined, and ordered like offsets *)
Lemma count_fun P : forall a x y, count_upto P a x -> count_upto P a y -> x = y.
Proof.
  induction a as [|a IH]; intros x y X Y; inversion X; inversion Y; subst; try contradiction; try reflexivity; auto; f_equal; auto.
Qed.
Lemma count_mono P a x : count_upto P a x -> forall b y, count_upto P b y -> a <= b ->
  x <= y /\ (x = y -> forall k, a < k -> k <= b -> ~ P k).
Proof.
  intros X. induction b as [|b IH]; intros y Y L.
  - assert (a = 0) by lia. subst a. rewrite (count_fun _ _ _ _ X Y). split; [lia|]. intros _ k K1 K2. lia.
  - destruct (Nat.eq_dec a (S b)) as [-> |Na].
    + rewrite (count_fun _ _ _ _ X Y). split; [lia|]. intros _ k K1 K2. lia.
    + inversion Y as [| |m n Y' N|m n Y' N]; subst.
      * destruct (IH _ Y') as [Le No]; [lia|]. split; [exact Le|]. intros E k K1 K2. destruct (Nat.eq_dec k (S b)) as [-> |]; [exact N|apply No; auto; lia].
      * destruct (IH _ Y') as [Le No]; [lia|]. split; [lia|]. intros E. lia.
Qed.
Lemma bounds_fun text i i' s e s' e' : line_bounds text i s e -> line_bounds text i' s' e' -> i <= i' ->
  (forall k, i < k -> k <= i' -> ~ terminator_ends text k) -> s = s' /\ e = e'.
Proof.
  intros (A1 & A2 & A3 & A4 & A5 & A6 & A7) (B1 & B2 & B3 & B4 & B5 & B6 & B7) L No.
  assert (s = s').
  { destruct (Nat.lt_trichotomy s s') as [X|[X|X]]; [|exact X|].
    - exfalso. destruct B2 as [-> |B2]; [lia|]. destruct (Nat.le_gt_cases s' i); [exact (A3 s' X H B2)|]. exact (No s' H B1 B2).
    - exfalso. destruct A2 as [-> |A2]; [lia|]. apply (B3 s X); [lia|exact A2]. }
  subst s'. split; [reflexivity|].
  destruct (Nat.lt_trichotomy e e') as [X|[X|X]]; [|exact X|].
  - destruct (B6 e A4 X) as [N1 N2]. destruct A7 as [-> |[A7|A7]]; [lia|congruence|congruence].
  - destruct (A6 e' B4 X) as [N1 N2]. destruct B7 as [-> |[B7|B7]]; [lia|congruence|congruence].
Qed.
Lemma pos_mono gs text i i' p p' : is_pos gs text i p -> is_pos gs text i' p' -> i <= i' ->
  tp_line p < tp_line p' \/ (tp_line p = tp_line p' /\ tp_column p <= tp_column p').
Proof.
  intros (_ & C & s & e & B & X1 & X2 & X3) (_ & C' & s' & e' & B' & Y1 & Y2 & Y3) L.
  destruct (count_mono _ _ _ C _ _ C' L) as [Le No]. destruct (Nat.eq_dec (tp_line p) (tp_line p')) as [E|E]; [|left; lia]. right. split; [exact E|].
  destruct (bounds_fun _ _ _ _ _ _ _ B B' L (No E)) as [<- <-]. cbn zeta in *.
  destruct (Nat.le_gt_cases (tp_column p) (tp_column p')) as [|G]; [assumption|].
  specialize (X2 (tp_column p') G). specialize (Y3 (tp_column p') (le_n _)). lia.
Qed.
Lemma pos_fun gs text i p p' : is_pos gs text i p -> is_pos gs text i p' -> p = p'.
Proof.
  intros A B. pose proof (pos_mono _ _ _ _ _ _ A B (le_n _)) as X. pose proof (pos_mono _ _ _ _ _ _ B A (le_n _)) as Y.
  destruct A as [A _], B as [B _]. destruct p, p'; cbn in *. f_equal; lia.
Qed.
(** At the boundary of a grapheme, the graphemes counted are exactly the line before the place. *)
Lemma pos_boundary gs text i p s e q : graphemes_contract gs -> is_pos gs text i p -> line_bounds text i s e ->
  let line := firstn (e - s) (skipn s text) in
  q <= length (gs line) -> concat (firstn q (gs line)) = firstn (Nat.min i e - s) line -> tp_column p = q.
Proof.
  intros GS (_ & _ & s' & e' & B' & Y1 & Y2 & Y3) B. destruct (bounds_fun _ _ _ _ _ _ _ B' B (le_n _)) as [-> ->]; [intros; lia|].
  cbn zeta in *. set (line := firstn (e - s) (skipn s text)) in *. set (d := Nat.min i e - s) in *. intros Lq Eq.
  destruct (GS line) as [Gc Gn]. destruct B as (B1 & _ & _ & B4 & B5 & _).
  assert (Ld : d <= length line) by (unfold d, line; rewrite firstn_length, skipn_length; lia).
  assert (Lc : length (concat (firstn q (gs line))) = d) by (rewrite Eq, firstn_length; lia).
  assert (Mono : forall a b, a < b -> b <= length (gs line) -> length (concat (firstn a (gs line))) < length (concat (firstn b (gs line)))).
  { revert Gn. generalize (gs line). clear. intros G Gn a. revert G Gn. induction a as [|a IH]; intros [|x G] Gn [|b] L1 L2; cbn in L2; try lia.
    - cbn. rewrite app_length. specialize (Gn x (or_introl eq_refl)). destruct x; [congruence|cbn; lia].
    - cbn. rewrite !app_length. specialize (IH G (fun y I => Gn y (or_intror I)) b). lia. }
  destruct (Nat.lt_trichotomy (tp_column p) q) as [X|[X|X]]; [|exact X|].
  - specialize (Y3 _ (le_n _)). specialize (Mono _ _ X Lq). lia.
  - specialize (Y2 _ X). lia.
Qed.
