(** Facts about cutting a text into tokens. *)
From Coq Require Import String List Arith NArith Lia.
From Verif.Model Require Import Ord Outcome Utils Grammar StartGrammar Tokens Tree Earley Buffer.
From Verif.Spec Require Import BufferSpec CutSpec.
From Verif.Proofs Require Import LoopFacts BufferFacts BufferLines.
Import ListNotations.

Lemma cuts_concat rule text ps rest : cuts rule text ps rest -> concat ps ++ rest = text.
Proof. induction 1 as [|text N L|p text ps rest N L C IH]; [reflexivity|reflexivity|]. cbn. rewrite <- app_assoc, IH. reflexivity. Qed.
Lemma app_inj_length (a : list char) : forall b c d, a ++ b = c ++ d -> length a = length c -> a = c /\ b = d.
Proof.
  induction a as [|x a IH]; intros b [|y c] d E L; cbn in *; try lia; [auto|]. injection E as -> E. destruct (IH b c d E) as [-> ->]; [lia|]. auto.
Qed.
Lemma cuts_fun rule text ps rest : cuts rule text ps rest -> forall ps' rest', cuts rule text ps' rest' -> ps' = ps /\ rest' = rest.
Proof.
  induction 1 as [|text N L|p text ps rest N L C IH]; intros ps' rest' C'.
  - inversion C' as [|u N' L'|p' u ps2 rest2 N' L' C2 E]; subst; [auto|congruence|congruence].
  - inversion C' as [|u N' L'|p' u ps2 rest2 N' L' C2 E]; subst; [congruence|auto|]. exfalso. rewrite app_length in L. lia.
  - inversion C' as [E|u N' L' E|p' u ps2 rest2 N' L' C2 E]; subst; [congruence|exfalso; rewrite app_length in L'; lia|].
    assert (Lp : length p' = length p) by (rewrite L', E; symmetry; exact L).
    assert (p' = p /\ u = text) as [-> ->].
    { exact (app_inj_length _ _ _ _ E Lp). }
    destruct (IH _ _ C2) as [-> ->]. auto.
Qed.
Lemma cuts_total (rule : lexer) : (forall s, s <> [] -> 0 < rule s) -> forall text, exists ps rest, cuts rule text ps rest.
Proof.
  intro Pos. enough (X : forall n text, length text <= n -> exists ps rest, cuts rule text ps rest) by (intro text; exact (X _ _ (le_n _))).
  induction n as [|n IH]; intros text L.
  - destruct text; [|cbn in L; lia]. exists [], []. constructor.
  - destruct text as [|c text]; [exists [], []; constructor|]. assert (N : c :: text <> []) by discriminate. pose proof (Pos _ N) as Ps.
    destruct (le_lt_dec (rule (c :: text)) (length (c :: text))) as [Le|Lt]; [|exists [], (c :: text); constructor; assumption].
    set (u := c :: text) in *. destruct (IH (skipn (rule u) u)) as (ps & rest & C).
    { rewrite skipn_length. lia. }
    exists (firstn (rule u) u :: ps), rest. rewrite <- (firstn_skipn (rule u) u) at 1. apply cuts_piece; [rewrite firstn_skipn; exact N| |exact C].
    rewrite firstn_skipn, firstn_length. lia.
Qed.

(** The ranges of the pieces, one after the other, from the place after [pre] on. *)
Inductive laid (h : heap) (name : string) : list char -> list (list char) -> list char -> list BufferRange -> Prop :=
| laid_nil pre post : laid h name pre [] post []
| laid_cons pre p ps post q qs : at_ h q name pre p (concat ps ++ post) -> laid h name (pre ++ p) ps post qs ->
    laid h name pre (p :: ps) post (q :: qs).
Lemma laid_nth h name : forall pre ps post qs, laid h name pre ps post qs -> forall i q, nth_error qs i = Some q ->
  exists p, nth_error ps i = Some p /\ at_ h q name (pre ++ concat (firstn i ps)) p (concat (skipn (S i) ps) ++ post).
Proof.
  induction 1 as [pre post|pre p ps post q qs A L IH]; intros i x E; [destruct i; discriminate|]. destruct i as [|i]; cbn in E.
  - injection E as <-. exists p. split; [reflexivity|]. cbn. rewrite app_nil_r. exact A.
  - destruct (IH i x E) as (p' & Ep & Ap). exists p'. split; [exact Ep|]. cbn [firstn concat]. rewrite app_assoc. exact Ap.
Qed.
Lemma laid_texts h name : forall pre ps post qs, laid h name pre ps post qs -> Forall2 (fun p q => br_as_str q = Ret p) ps qs.
Proof. induction 1 as [|pre p ps post q qs A L IH]; constructor; [exact (at_as_str _ _ _ _ _ _ A)|exact IH]. Qed.

Lemma cut_step h rule r name pre u post fuel out : at_ h r name pre u post -> u <> [] -> 
  if Nat.leb (rule u) (length u) then exists r' q,
     at_ h r' name (pre ++ firstn (rule u) u) (skipn (rule u) u) post /\ at_ h q name pre (firstn (rule u) u) (skipn (rule u) u ++ post) /\
     advance_n r (rule u) = Ret (Some (firstn (rule u) u, r')) /\ remove_suffix r r' = Ret q /\
     cut_from rule (S fuel) r out = cut_from rule fuel r' (out ++ [q])
  else cut_from rule (S fuel) r out = Ret (Err r).
Proof.
  intros A N. pose proof (at_advance_n h (rule u) r name pre u post A) as X. pose proof (at_as_str _ _ _ _ _ _ A) as Es.
  assert (Em : br_empty r = false) by (destruct (br_empty r) eqn:E; [apply (at_empty _ _ _ _ _ _ A) in E; contradiction|reflexivity]).
  destruct (Nat.leb (rule u) (length u)).
  - destruct X as (r' & E & A'). assert (exists q, remove_suffix r r' = Ret q) as (q & Eq).
    { eexists. apply remove_iff. destruct A as (A1 & A2 & A3 & A4), A' as (B1 & B2 & B3 & B4). rewrite <- (firstn_skipn (rule u) u) in A4.
      unfold advance_n in E. unfold advance_n_mut in E. pose proof (at_advance h (rule u) r name pre u post) as Y.
      assert (Rb : br_buf r' = br_buf r /\ br_end r' = br_end r).
      { clear - E. assert (Z : forall n a b, advance_loop n a = Ret (Some b) -> br_buf b = br_buf a /\ br_end b = br_end a).
        { induction n as [|n IH]; intros a b E2; cbn in E2; [injection E2 as <-; auto|]. unfold read_char_mut in E2.
          destruct (br_as_str a) as [s| |]; try discriminate. cbn [obind] in E2. destruct (char_indices s) as [|[? c] cs]; cbn [obind] in E2; [discriminate|].
          destruct (IH _ _ E2) as [-> ->]. auto. }
        destruct (advance_loop (rule u) r) as [[b|]| |] eqn:Ea; cbn [obind] in E; try discriminate.
        destruct (slice _ _ _); try discriminate. cbn [obind] in E. destruct (slice _ _ _); try discriminate. cbn [obind] in E. injection E as _ <-.
        exact (Z _ _ _ Ea). }
      destruct Rb as [-> ->]. split; [reflexivity|]. split; [reflexivity|]. split; [rewrite A3, B3, str_len_app; lia|reflexivity]. }
    exists r', q. split; [exact A'|]. destruct (at_remove _ _ _ _ _ _ _ _ _ _ _ _ A A' Eq) as (m & E1 & E2 & _ & _ & Aq).
    apply app_inv_head in E1. subst m. split; [exact Aq|]. split; [exact E|]. split; [exact Eq|].
    cbn [cut_from]. rewrite Em, Es. cbn [obind]. rewrite E. cbn [obind]. rewrite Eq. reflexivity.
  - cbn [cut_from]. rewrite Em, Es. cbn [obind]. rewrite X. reflexivity.
Qed.

Lemma cut_runs h rule u ps rest : cuts rule u ps rest -> forall r name pre post out, at_ h r name pre u post -> api_range h r -> 
  exists qs n, laid h name pre ps (rest ++ post) qs /\ Forall (api_range h) qs /\
    (rest = [] -> forall fuel, n <= fuel -> cut_from rule fuel r out = Ret (Ok (out ++ qs))) /\
    (rest <> [] -> exists r', at_ h r' name (pre ++ concat ps) rest post /\ api_range h r' /\
       forall fuel, n <= fuel -> cut_from rule fuel r out = Ret (Err r')).
Proof.
  induction 1 as [|text N L|p text ps rest N L C IH]; intros r name pre post out A R.
  - exists [], 1. split; [constructor|]. split; [constructor|]. split; [|congruence]. intros _ fuel F. destruct fuel; [lia|]. cbn.
    rewrite (proj2 (at_empty _ _ _ _ _ _ A) eq_refl), app_nil_r. reflexivity.
  - exists [], 1. split; [constructor|]. split; [constructor|]. split; [congruence|]. intros _. exists r. cbn. rewrite app_nil_r. split; [exact A|].
    split; [exact R|]. intros fuel F. destruct fuel as [|fuel]; [lia|]. pose proof (cut_step h rule r name pre text post fuel out A N) as X.
    destruct (Nat.leb_spec (rule text) (length text)); [lia|exact X].
  - pose proof (cut_step h rule r name pre (p ++ text) post) as X.
    assert (Lb : Nat.leb (rule (p ++ text)) (length (p ++ text)) = true) by (apply Nat.leb_le; rewrite <- L, app_length; lia).
    rewrite Lb, <- L, firstn_app, skipn_app, firstn_all, skipn_all, Nat.sub_diag in X. cbn [firstn skipn app] in X. rewrite app_nil_r in X.
    destruct (X 0 out A N) as (r1 & q1 & A1 & Aq1 & Ad & Rm & _).
    assert (R1 : api_range h r1) by exact (ar_advance_n h r _ _ _ R Ad).
    assert (Rq : api_range h q1) by exact (ar_remove_suffix h r r1 q1 R R1 Rm).
    destruct (IH r1 name (pre ++ p) post (out ++ [q1]) A1 R1) as (qs & n & Ld & Fa & Ok_ & Er).
    assert (St : forall fuel, cut_from rule (S fuel) r out = cut_from rule fuel r1 (out ++ [q1])).
    { intro fuel. destruct (X fuel out A N) as (r2 & q2 & _ & _ & Ad2 & Rm2 & E). rewrite Ad in Ad2. injection Ad2 as <-. rewrite Rm in Rm2. injection Rm2 as <-. exact E. }
    exists (q1 :: qs), (S n). split; [constructor; [|exact Ld]|].
    { rewrite app_assoc, (cuts_concat _ _ _ _ C). exact Aq1. }
    split; [constructor; assumption|]. split.
    + intros E fuel F. destruct fuel as [|fuel]; [lia|]. rewrite St, (Ok_ E fuel) by lia. rewrite <- app_assoc. reflexivity.
    + intro E. destruct (Er E) as (r' & A' & R' & Run). exists r'. cbn [concat]. rewrite app_assoc. split; [exact A'|]. split; [exact R'|].
      intros fuel F. destruct fuel as [|fuel]; [lia|]. rewrite St. apply Run. lia.
Qed.
Lemma cut_endless h rule : forall fuel u r name pre post out, (forall ps rest, ~ cuts rule u ps rest) -> at_ h r name pre u post ->
  cut_from rule fuel r out = NoFuel.
Proof.
  induction fuel as [|fuel IH]; intros u r name pre post out No A; [reflexivity|].
  assert (N : u <> []) by (intros ->; apply (No [] []); constructor).
  pose proof (cut_step h rule r name pre u post fuel out A N) as X. destruct (Nat.leb_spec (rule u) (length u)) as [Le|Lt].
  - destruct X as (r' & q & A' & _ & _ & _ & ->). apply (IH (skipn (rule u) u) r' name (pre ++ firstn (rule u) u) post); [|exact A'].
    intros ps rest C. apply (No (firstn (rule u) u :: ps) rest). rewrite <- (firstn_skipn (rule u) u) at 1. apply cuts_piece; [rewrite firstn_skipn; exact N| |exact C].
    rewrite firstn_skipn, firstn_length. lia.
  - exfalso. apply (No [] u). constructor; assumption.
Qed.
