(** The programs that use the parser as an oracle give the right answers. *)
From Coq Require Import String List Arith NArith Lia Bool.
From Verif.Model Require Import Ord BTree Outcome Utils Grammar StartGrammar Tokens Tree State Earley.
From Verif.Spec Require Import Reach Cfg BuildSpec NullSpec TreeSpec EarleySpec WalkSpec LL1Spec BlameSpec.
From Verif.Proofs Require Import OrdFacts BTreeFacts LoopFacts GrammarFacts StartFacts BuildMore CfgFacts TreeFacts TreeHist
  EarleyItems EarleyRun EarleyParse EarleyMain TreeLink EarleyMore PrefixFacts ExampleFacts Overlaps ViableRun WalkFacts.
From Verif.Properties Require Import EarleyProps.
Import ListNotations.

Section Terminals.
  Context {T NT AK AV : Type} `{OrdEq T} `{OrdEq NT} `{OrdEq AK}.
  Variable g : Grammar T NT AK AV.

  Lemma rhs_terminals A rhs k : rhs_of g A rhs -> In (Term k) rhs -> In k (terminals g).
  Proof.
    intros (p & (r & I & Ip) & ->) Ik. unfold terminals. apply filter_map_In. exists (Term k). split; [|reflexivity].
    apply in_flat_map. assert (X : forall ps i h, In p ps -> exists q, In q (number_prods h i ps) /\ p_inner q = p).
    { induction ps as [|p' ps IH]; intros i h; cbn [number_prods]; [intros []|]. intros [-> | J].
      - eexists. split; [left; reflexivity|reflexivity].
      - destruct (IH (S i) h J) as (q & Iq & E). exists q. split; [right; exact Iq|exact E]. }
    destruct (X (r_prods r) 0 (r_head r) Ip) as (q & Iq & E). exists q. split.
    - unfold prods. apply in_flat_map. exists r. split; [|exact Iq]. unfold rules, bt_values. apply (in_map snd) in I. exact I.
    - unfold elements. rewrite E. exact Ik.
  Qed.
  Lemma gen_terminals es u : gen (rhs_of g) es u -> (forall k, In (Term k) es -> In k (terminals g)) -> forall k, In k u -> In k (terminals g).
  Proof.
    induction 1 as [|t es w G IH|A rhs es u w Pr G1 IH1 G2 IH2]; intros E k I.
    - destruct I.
    - destruct I as [<-|I]; [apply E; left; reflexivity|]. apply IH; [|exact I]. intros x J. apply E. right. exact J.
    - apply in_app_or in I. destruct I as [I|I].
      + apply IH1; [|exact I]. intros x J. exact (rhs_terminals A rhs x Pr J).
      + apply IH2; [|exact I]. intros x J. apply E. right. exact J.
  Qed.
  Lemma lang_terminals A u k : lang (rhs_of g) A u -> In k u -> In k (terminals g).
  Proof. intros L. apply (gen_terminals _ _ L). intros x [X|[]]. discriminate. Qed.
End Terminals.

(** More fuel does not change an answer. *)
Section Mono.
  Context {T NT AK AV V : Type} `{Ord T} `{Ord NT} `{Ord AK} `{Ord V}.
  Variable lay : layout (StartNonTerminal NT).
  Variable sg : StartGrammar T NT AK AV.
  Lemma attempt_mono (w : list (Token T V)) : fuel_mono (fun n => attempt lay sg n w).
  Proof.
    intros n m L. pose proof (parse_mono lay sg w in_new n m L) as X. unfold attempt in *. cbv beta in *.
    destruct (parse lay sg w in_new n) as [[[x|] t]|e|]; [rewrite X by discriminate; reflexivity..|congruence].
  Qed.
  Lemma blame_mono : forall (rest past : list (Token T V)), fuel_mono (fun n => blame lay sg n past rest).
  Proof.
    induction rest as [|x rest IH]; intro past; cbn [blame]; [apply fuel_mono_const|].
    apply (fuel_mono_bind _ (fun n v => match v with
      | Refused => Ret (Bad (length past)) | Confused => Ret (Unsure (length past)) | _ => blame lay sg n (past ++ [x]) rest end)); [apply attempt_mono|].
    intros []; solve [apply IH|apply fuel_mono_const].
  Qed.
  Lemma each_mono {A B} (f : nat -> A -> outcome B) l : (forall a, fuel_mono (fun n => f n a)) -> fuel_mono (fun n => each (f n) l).
  Proof.
    intro F. induction l as [|a l IH]; cbn [each]; [apply fuel_mono_const|].
    apply (fuel_mono_bind _ (fun n y => ys <- each (f n) l ;; Ret (y :: ys))); [apply F|]. intro y.
    apply (fuel_mono_bind _ (fun n ys => Ret (y :: ys))); [exact IH|]. intro ys. apply fuel_mono_const.
  Qed.
  Lemma expected_mono (g : Grammar T NT AK AV) value (w : list (Token T V)) : fuel_mono (fun n => expected lay sg g value n w).
  Proof.
    unfold expected. apply (fuel_mono_bind _ (fun n vs => Ret (map fst (filter (fun kv => fits (snd kv)) vs)))); [|intro; apply fuel_mono_const].
    apply (each_mono (fun n k => v <- attempt lay sg n (w ++ make value [k]) ;; Ret (k, v))). intro k.
    apply (fuel_mono_bind _ (fun n v => Ret (k, v))); [apply attempt_mono|intro; apply fuel_mono_const].
  Qed.
End Mono.

Section Facts.
  Context {T NT AK AV V : Type} `{OrdEq T} `{OrdEq NT} `{OrdEq AK} `{OrdEq V}.
  Variable g : Grammar T NT AK AV.
  Variable sg : StartGrammar T NT AK AV.
  Variable lay : layout (StartNonTerminal NT).
  Hypothesis Bg : built g.
  Hypothesis Wr : runs_to (wrap_grammar_with_start g) (Ret (Ok sg)).
  Hypothesis Lay : lay_inj sg lay.
  Local Notation P := (rhs_of g).
  Local Notation S0 := (start_nt g).
  Hypothesis Pd : productive P S0.
  (** The words that begin with [u]. *)
  Local Notation goes_on u := (exists v, lang P S0 (u ++ v)).
  Local Notation trouble kw j := (two_places P S0 kw j \/ (j = 0 /\ lang P S0 [])).
  Local Notation token := (Token T V).

  Lemma goes_viable u : goes_on u <-> viable P S0 u.
  Proof. split; [intros (v & L); exact (word_viable P S0 u v L)|exact (viable_word P S0 u Pd)]. Qed.
  Lemma goes_shorter u v : goes_on (u ++ v) -> goes_on u.
  Proof. intros (x & L). exists (v ++ x). rewrite app_assoc. exact L. Qed.
  Lemma goes_nil : goes_on (@nil T).
  Proof. destruct (Pd S0 (star_refl _ _)) as (u & L). exists u. exact L. Qed.

  Lemma attempt_spec (w : list token) : exists v, runs_to (fun fuel => attempt lay sg fuel w) (Ret v) /\
    let kw := map tk_kind w in
    match v with
    | Accepted => lang P S0 kw /\ forall j, j <= length w -> ~ trouble kw j
    | Unfinished => ~ lang P S0 kw /\ goes_on kw /\ forall j, j <= length w -> ~ trouble kw j
    | Refused => exists j, j <= length w /\ ~ goes_on (firstn j kw) /\ forall i, i < j -> ~ trouble kw i
    | Confused => exists j, j <= length w /\ trouble kw j /\ goes_on (firstn j kw) /\ forall i, i < j -> ~ trouble kw i
    end.
  Proof.
    destruct (main g sg lay Bg Wr Lay w in_new api_tree_new) as (r & Rr & Pr).
    assert (K : forall v, (r <> NoFuel -> match r with
      | Ret (Some _, _) => Ret Accepted
      | Ret (None, _) => Ret Unfinished
      | Panic msg => Ret (if string_dec msg "assertion failed: !new_state.is_empty()" then Refused else Confused)
      | NoFuel => NoFuel
      end = Ret v) -> runs_to (fun fuel => attempt lay sg fuel w) (Ret v)).
    { intros v E. destruct Rr as [Nf (n & Er)]. apply (runs_to_intro _ _ n); [discriminate|]. intros fuel L. unfold attempt. rewrite (Er fuel L). exact (E Nf). }
    destruct r as [[[m|] t]|msg|]; [| | |destruct Pr].
    - exists Accepted. split; [apply K; reflexivity|]. destruct Pr as (St & _ & _ & _ & L & _). split; [exact L|].
      intros j Lj Tr. apply (St j Lj). right. exact Tr.
    - exists Unfinished. split; [apply K; reflexivity|]. destruct Pr as (St & _ & _ & _ & L). split; [exact L|]. split.
      + apply goes_viable. assert (X := Lay). rewrite (sg_eq g sg Bg Wr) in X. pose proof Rr as R. rewrite (sg_eq g sg Bg Wr) in R.
        pose proof (parse_viable g (built_accepted g Bg) lay X w in_new (api_tree_inv _ api_tree_new) None t R (length w) (le_n _)) as Vi.
        rewrite <- (map_length tk_kind w), firstn_all in Vi. exact Vi.
      + intros j Lj Tr. apply (St j Lj). right. exact Tr.
    - destruct Pr as (j & Lj & St & Mn & M).
      assert (Nt : forall i, i < j -> ~ trouble (map tk_kind w) i) by (intros i Li Tr; apply (Mn i Li); right; exact Tr).
      destruct M as [[-> Nv]|[-> Vi]].
      + exists Refused. split; [apply K; reflexivity|]. exists j. split; [exact Lj|]. split; [rewrite goes_viable; exact Nv|exact Nt].
      + exists Confused. split; [apply K; reflexivity|]. exists j. split; [exact Lj|]. split; [|split; [apply goes_viable; exact Vi|exact Nt]].
        destruct St as [X|X]; [destruct (X Vi)|exact X].
  Qed.
  Lemma trouble_prefix (u v : list T) j : j <= length u -> (trouble (u ++ v) j <-> trouble u j).
  Proof. intro L. rewrite (two_places_prefix P S0 u v j L). reflexivity. Qed.

  Lemma blame_spec : forall (rest past : list token), let w := past ++ rest in let kw := map tk_kind w in
    (goes_on (map tk_kind past)) -> (past <> [] -> forall j, j <= length past -> ~ trouble kw j) ->
    exists r, runs_to (fun fuel => blame lay sg fuel past rest) (Ret r) /\
      match r with
      | Fine => goes_on kw /\ (w <> [] -> forall j, j <= length w -> ~ trouble kw j)
      | Bad i => i < length w /\ goes_on (firstn i kw) /\ ~ goes_on (firstn (S i) kw) /\ forall j, j <= i -> ~ trouble kw j
      | Unsure i => i < length w /\ exists j, j <= S i /\ (i = 0 \/ j = S i) /\ trouble kw j /\ goes_on (firstn j kw) /\ forall k, k < j -> ~ trouble kw k
      end.
  Proof.
    induction rest as [|x rest IH]; intros past w kw Go Ok; cbn [blame].
    - exists Fine. split; [apply runs_to_ret|]. unfold kw, w. rewrite app_nil_r. split; [exact Go|].
      unfold kw, w in Ok. rewrite app_nil_r in Ok. exact Ok.
    - destruct (attempt_spec (past ++ [x])) as (v & Rv & Pv). cbv zeta in Pv.
      assert (Ew : w = (past ++ [x]) ++ rest) by (unfold w; rewrite <- app_assoc; reflexivity).
      assert (Ek : kw = map tk_kind (past ++ [x]) ++ map tk_kind rest) by (unfold kw; rewrite Ew; apply map_app).
      assert (Ll : length (map tk_kind (past ++ [x])) = S (length past)) by (rewrite map_length, app_length; cbn; lia).
      assert (Ll' : length (past ++ [x]) = S (length past)) by (rewrite app_length; cbn; lia).
      assert (Tp : forall j, j <= S (length past) -> (trouble kw j <-> trouble (map tk_kind (past ++ [x])) j)).
      { intros j Lj. rewrite Ek. apply trouble_prefix. rewrite Ll. exact Lj. }
      assert (Fp : forall j, j <= S (length past) -> firstn j kw = firstn j (map tk_kind (past ++ [x]))).
      { intros j Lj. rewrite Ek, firstn_app, Ll. replace (j - S (length past)) with 0 by lia. apply app_nil_r. }
      assert (F1 : firstn (S (length past)) kw = map tk_kind (past ++ [x])) by (rewrite Fp by lia; rewrite <- Ll; apply firstn_all).
      assert (F0 : firstn (length past) kw = map tk_kind past).
      { rewrite Fp by lia. rewrite map_app, firstn_app, map_length, Nat.sub_diag. cbn [firstn]. rewrite app_nil_r, <- (map_length tk_kind past). apply firstn_all. }
      assert (Lw : length past < length w) by (rewrite Ew, app_length, Ll'; lia).
      assert (Goj : forall j, j <= length past -> goes_on (firstn j kw)).
      { intros j Lj. apply (goes_shorter _ (skipn j (firstn (length past) kw))). rewrite <- F0 in Go.
        replace (firstn j kw) with (firstn j (firstn (length past) kw)) by (rewrite firstn_firstn; f_equal; lia). rewrite firstn_skipn. exact Go. }
      assert (Step : goes_on (map tk_kind (past ++ [x])) -> (forall j, j <= S (length past) -> ~ trouble kw j) -> v = Accepted \/ v = Unfinished ->
        exists r, runs_to (fun fuel => v <- attempt lay sg fuel (past ++ [x]) ;;
          match v with
          | Refused => Ret (Bad (length past))
          | Confused => Ret (Unsure (length past))
          | _ => blame lay sg fuel (past ++ [x]) rest
          end) (Ret r) /\ match r with
          | Fine => goes_on kw /\ (w <> [] -> forall j, j <= length w -> ~ trouble kw j)
          | Bad i => i < length w /\ goes_on (firstn i kw) /\ ~ goes_on (firstn (S i) kw) /\ forall j, j <= i -> ~ trouble kw j
          | Unsure i => i < length w /\ exists j, j <= S i /\ (i = 0 \/ j = S i) /\ trouble kw j /\ goes_on (firstn j kw) /\ forall k, k < j -> ~ trouble kw k
          end).
      { intros G Nt E. specialize (IH (past ++ [x])). cbv zeta in IH. rewrite <- Ew in IH. fold kw in IH. destruct IH as (r & Rr & Pr); [exact G| |].
        - intros _ j Lj. apply Nt. rewrite Ll' in Lj. exact Lj.
        - exists r. split; [|exact Pr].
          apply (runs_to_bind _ (fun fuel v => match v with
            | Refused => Ret (Bad (length past))
            | Confused => Ret (Unsure (length past))
            | _ => blame lay sg fuel (past ++ [x]) rest end) _ _ Rv). destruct E as [-> | ->]; exact Rr. }
      destruct v.
      + destruct Pv as [L Nt]. apply Step; [exists []; rewrite app_nil_r; exact L| |left; reflexivity].
        intros j Lj. rewrite (Tp j Lj). apply Nt. rewrite Ll'. exact Lj.
      + destruct Pv as (_ & G & Nt). apply Step; [exact G| |right; reflexivity].
        intros j Lj. rewrite (Tp j Lj). apply Nt. rewrite Ll'. exact Lj.
      + exists (Bad (length past)). split; [exact (runs_to_bind _ (fun _ v => match v with
            | Refused => Ret (Bad (length past)) | Confused => Ret (Unsure (length past)) | _ => _ end) _ _ Rv (runs_to_ret _))|].
        destruct Pv as (j & Lj & Ng & Nt). rewrite Ll' in Lj. rewrite <- Fp in Ng by exact Lj.
        assert (j = S (length past)) as ->. { destruct (Nat.eq_dec j (S (length past))) as [|Nj]; [assumption|]. destruct Ng. apply Goj. lia. }
        split; [exact Lw|]. split; [apply Goj; lia|]. split; [exact Ng|]. intros i Li. rewrite Tp by lia. apply Nt. lia.
      + exists (Unsure (length past)). split; [exact (runs_to_bind _ (fun _ v => match v with
            | Refused => Ret (Bad (length past)) | Confused => Ret (Unsure (length past)) | _ => _ end) _ _ Rv (runs_to_ret _))|].
        split; [exact Lw|]. destruct Pv as (j & Lj & Tr & G & Nt). rewrite Ll' in Lj. rewrite <- Tp in Tr by exact Lj. rewrite <- Fp in G by exact Lj.
        exists j. split; [exact Lj|]. split.
        * destruct past as [|y past]; [left; reflexivity|right]. destruct (Nat.eq_dec j (S (length (y :: past)))) as [|Nj]; [assumption|].
          destruct (Ok ltac:(discriminate) j ltac:(lia) Tr).
        * split; [exact Tr|]. split; [exact G|]. intros k Lk. rewrite Tp by lia. apply Nt. exact Lk.
  Qed.

  (** What fits, fits, for every grammar. *)
  Lemma expected_sound value w : exists ks, runs_to (fun fuel => expected lay sg g value fuel w) (Ret ks) /\
    forall k, In k ks -> goes_on (map tk_kind w ++ [k]).
  Proof.
    destruct (each_runs (fun fuel k => v <- attempt lay sg fuel (w ++ make value [k]) ;; Ret (k, v))
      (fun k kv => fst kv = k /\ (fits (snd kv) = true -> goes_on (map tk_kind w ++ [k]))) (terminals g)) as (vs & Rs & Fs).
    - intros k _. destruct (attempt_spec (w ++ make value [k])) as (v & Rv & Pv). exists (k, v). split; [|split; [reflexivity|]].
      + exact (runs_to_bind _ (fun _ v => Ret (k, v)) _ _ Rv (runs_to_ret _)).
      + cbv zeta in Pv. cbn [snd]. rewrite map_app in Pv. cbn [make map tk_kind] in Pv. destruct v; cbn [fits]; intro F; try discriminate.
        * exists []. rewrite app_nil_r. exact (proj1 Pv).
        * exact (proj1 (proj2 Pv)).
    - exists (map fst (filter (fun kv => fits (snd kv)) vs)). split.
      + exact (runs_to_bind _ (fun _ vs => Ret (map fst (filter (fun kv => fits (snd kv)) vs))) _ _ Rs (runs_to_ret _)).
      + clear Rs. induction Fs as [|k [k' v] l vs [E Pv] Fs IH]; cbn [filter map]; intros x I; [destruct I|]. cbn [fst snd] in *. subst k'.
        destruct (fits v); [|exact (IH x I)]. destruct I as [<-|I]; [exact (Pv eq_refl)|exact (IH x I)].
  Qed.

  (** ** Without confusion *)
  Section Clear.
    Hypothesis N : ~ lang P S0 [].
    Hypothesis O : no_overlap P S0.
    Variable value : T -> V.
    Local Notation mk := (make value).

    Lemma no_trouble kw j : ~ trouble kw j.
    Proof. intros [X|[_ X]]; [exact (no_overlap_two P S0 _ _ O X)|exact (N X)]. Qed.
    Lemma attempt_clear (w : list token) : exists v, runs_to (fun fuel => attempt lay sg fuel w) (Ret v) /\
      let kw := map tk_kind w in
      match v with
      | Accepted => lang P S0 kw
      | Unfinished => ~ lang P S0 kw /\ goes_on kw
      | Refused => ~ goes_on kw
      | Confused => False
      end.
    Proof.
      destruct (attempt_spec w) as (v & Rv & Pv). exists v. split; [exact Rv|]. cbv zeta in Pv |- *. destruct v.
      - exact (proj1 Pv).
      - split; [exact (proj1 Pv)|exact (proj1 (proj2 Pv))].
      - destruct Pv as (j & _ & Ng & _). intro G. apply Ng. apply (goes_shorter _ (skipn j (map tk_kind w))). rewrite firstn_skipn. exact G.
      - destruct Pv as (j & _ & Tr & _). exact (no_trouble _ _ Tr).
    Qed.
    Lemma kinds_make u : map tk_kind (mk u) = u.
    Proof. unfold make. rewrite map_map. cbn. apply map_id. Qed.
    Lemma kinds_app w u : map tk_kind (w ++ mk u) = map tk_kind w ++ u.
    Proof. rewrite map_app, kinds_make. reflexivity. Qed.

    (** The verdicts on a list of attempts. *)
    Lemma all_attempts {A} (f : A -> list token) (l : list A) :
      exists vs, runs_to (fun fuel => each (fun a => v <- attempt lay sg fuel (f a) ;; Ret (a, v)) l) (Ret vs) /\
        (forall a, In a (map fst (filter (fun av => is_word (snd av)) vs)) <-> In a l /\ lang P S0 (map tk_kind (f a))) /\
        (forall a, In a (map fst (filter (fun av => fits (snd av)) vs)) <-> In a l /\ goes_on (map tk_kind (f a))).
    Proof.
      destruct (each_runs (fun fuel a => v <- attempt lay sg fuel (f a) ;; Ret (a, v))
        (fun a av => fst av = a /\ let kw := map tk_kind (f a) in
          match snd av with
          | Accepted => lang P S0 kw
          | Unfinished => ~ lang P S0 kw /\ goes_on kw
          | Refused => ~ goes_on kw
          | Confused => False
          end) l) as (vs & Rs & Fs).
      - intros a _. destruct (attempt_clear (f a)) as (v & Rv & Pv). exists (a, v). split; [|split; [reflexivity|exact Pv]].
        exact (runs_to_bind _ (fun _ v => Ret (a, v)) _ _ Rv (runs_to_ret _)).
      - exists vs. split; [exact Rs|]. clear Rs.
        induction Fs as [|a [a' v] l vs [E Pv] Fs [IH1 IH2]]; cbn [filter map fst snd].
        + split; intro a; split; [intros []|intros [[] _]|intros []|intros [[] _]].
        + cbn [fst snd] in E, Pv. subst a'.
          assert (W : is_word v = true <-> lang P S0 (map tk_kind (f a))).
          { destruct v; cbn in Pv |- *; (split; [|]); try discriminate; auto; intro X; exfalso; first [exact (proj1 Pv X)|apply Pv; exists []; rewrite app_nil_r; exact X]. }
          assert (G : fits v = true <-> goes_on (map tk_kind (f a))).
          { destruct v; cbn in Pv |- *; (split; [|]); try discriminate; auto; intro X; first [exact (proj2 Pv)|exists []; rewrite app_nil_r; exact Pv|destruct (Pv X)]. }
          clear Pv. split; intro b.
          * destruct (is_word v) eqn:Ev; cbn [map fst In]; rewrite IH1; split.
            -- intros [<-|[I L]]; [split; [left; reflexivity|apply W; reflexivity]|split; [right; exact I|exact L]].
            -- intros [[<-|I] L]; [left; reflexivity|right; auto].
            -- intros [I L]. split; [right; exact I|exact L].
            -- intros [[<-|I] L]; [apply W in L; discriminate|auto].
          * destruct (fits v) eqn:Ev; cbn [map fst In]; rewrite IH2; split.
            -- intros [<-|[I L]]; [split; [left; reflexivity|apply G; reflexivity]|split; [right; exact I|exact L]].
            -- intros [[<-|I] L]; [left; reflexivity|right; auto].
            -- intros [I L]. split; [right; exact I|exact L].
            -- intros [[<-|I] L]; [apply G in L; discriminate|auto].
    Qed.

    Lemma expected_spec w : exists ks, runs_to (fun fuel => expected lay sg g value fuel w) (Ret ks) /\
      forall k, In k ks <-> goes_on (map tk_kind w ++ [k]).
    Proof.
      destruct (all_attempts (fun k => w ++ mk [k]) (terminals g)) as (vs & Rs & _ & F).
      exists (map fst (filter (fun kv => fits (snd kv)) vs)). split.
      - exact (runs_to_bind _ (fun _ vs => Ret (map fst (filter (fun kv => fits (snd kv)) vs))) _ _ Rs (runs_to_ret _)).
      - intro k. rewrite F, kinds_app. split; [tauto|]. intro G. split; [|exact G]. destruct G as (v & L).
        apply (lang_terminals g S0 _ k L). rewrite !in_app_iff. left. right. left. reflexivity.
    Qed.

    (** The candidates of length [n]. *)
    Definition level (w : list token) n (front : list (list T)) : Prop :=
      (forall u, In u front -> length u = n) /\ (forall u, length u = n -> goes_on (map tk_kind w ++ u) -> In u front).
    Lemma level_nil w : level w 0 [[]].
    Proof. split; [intros u [<-|[]]; reflexivity|]. intros [|k u] E _; [left; reflexivity|discriminate]. Qed.
    Lemma level_step w n front : level w n front -> exists words live,
      runs_to (fun fuel => try_all lay sg value fuel w front) (Ret (words, live)) /\
      (forall u, In u words <-> length u = n /\ lang P S0 (map tk_kind w ++ u)) /\
      (forall u, In u live <-> length u = n /\ goes_on (map tk_kind w ++ u)) /\ level w (S n) (longer g live).
    Proof.
      intros [F1 F2]. destruct (all_attempts (fun u => w ++ mk u) front) as (vs & Rs & W & G).
      exists (map fst (filter (fun av => is_word (snd av)) vs)), (map fst (filter (fun av => fits (snd av)) vs)).
      assert (G' : forall u, In u (map fst (filter (fun av => fits (snd av)) vs)) <-> length u = n /\ goes_on (map tk_kind w ++ u)).
      { intro u. rewrite G, kinds_app. split; [intros [I X]; split; [exact (F1 u I)|exact X]|]. intros [E X]. split; [exact (F2 u E X)|exact X]. }
      split; [|split; [|split; [exact G'|]]].
      - exact (runs_to_bind _ (fun _ vs => Ret (map fst (filter (fun av => is_word (snd av)) vs), map fst (filter (fun av => fits (snd av)) vs))) _ _ Rs (runs_to_ret _)).
      - intro u. rewrite W, kinds_app. split; [intros [I X]; split; [exact (F1 u I)|exact X]|]. intros [E X]. split; [|exact X].
        apply (F2 u E). exists []. rewrite app_nil_r. exact X.
      - unfold longer. split.
        + intros u I. apply in_flat_map in I. destruct I as (u' & I & J). apply in_map_iff in J. destruct J as (k & <- & _).
          rewrite app_length. cbn. apply G' in I. lia.
        + intros u E X. destruct (@exists_last _ u) as (u' & k & ->); [intros ->; discriminate|].
          rewrite app_length in E. cbn in E. apply in_flat_map. exists u'. split.
          * apply G'. split; [lia|]. rewrite app_assoc in X. exact (goes_shorter _ _ X).
          * apply in_map_iff. exists k. split; [reflexivity|]. destruct X as (v & L).
            apply (lang_terminals g S0 _ k L). rewrite !in_app_iff. left. right. right. left. reflexivity.
    Qed.

    Lemma complete_spec w : forall d n front, level w n front -> (forall u, length u < n -> ~ lang P S0 (map tk_kind w ++ u)) ->
      (exists u, length u = n + d /\ lang P S0 (map tk_kind w ++ u)) ->
      exists u fuel0, lang P S0 (map tk_kind w ++ u) /\ (forall u', lang P S0 (map tk_kind w ++ u') -> length u <= length u') /\
        forall steps fuel, d < steps -> fuel0 <= fuel -> complete lay sg g value steps fuel w front = Ret (Some u).
    Proof.
      induction d as [|d IH]; intros n front F Mn (u & E & L).
      - destruct (level_step w n front F) as (words & live & Rs & Wd & _ & _). rewrite Nat.add_0_r in E.
        destruct words as [|u0 words]; [destruct (proj2 (Wd u) (conj E L))|].
        destruct (proj1 (Wd u0) (or_introl eq_refl)) as [E0 L0]. destruct Rs as [_ (fuel0 & Rs)]. exists u0, fuel0.
        split; [exact L0|]. split.
        + intros u' L'. rewrite E0. destruct (Nat.le_gt_cases n (length u')) as [X|X]; [exact X|destruct (Mn u' X L')].
        + intros [|steps] fuel Ls Lf; [lia|]. cbn [complete]. rewrite (Rs fuel Lf). reflexivity.
      - destruct (level_step w n front F) as (words & live & Rs & Wd & Lv & F').
        destruct words as [|u0 words].
        + destruct (IH (S n) (longer g live) F') as (u1 & fuel1 & L1 & M1 & R1).
          * intros u' Lu L'. destruct (Nat.eq_dec (length u') n) as [X|X]; [exact (proj2 (Wd u') (conj X L'))|]. apply (Mn u'); [lia|exact L'].
          * exists u. split; [lia|exact L].
          * destruct Rs as [_ (fuel0 & Rs)]. exists u1, (fuel0 + fuel1). split; [exact L1|]. split; [exact M1|].
            intros [|steps] fuel Ls Lf; [lia|]. cbn [complete]. rewrite (Rs fuel) by lia. cbn [obind].
            destruct live as [|u2 live]; [|apply R1; lia]. exfalso.
            destruct (proj2 (Lv (firstn n u))). split; [rewrite firstn_length; lia|]. exists (skipn n u). rewrite <- app_assoc, firstn_skipn. exact L.
        + destruct (proj1 (Wd u0) (or_introl eq_refl)) as [E0 L0]. destruct Rs as [_ (fuel0 & Rs)]. exists u0, fuel0.
          split; [exact L0|]. split.
          * intros u' L'. rewrite E0. destruct (Nat.le_gt_cases n (length u')) as [X|X]; [exact X|destruct (Mn u' X L')].
          * intros [|steps] fuel Ls Lf; [lia|]. cbn [complete]. rewrite (Rs fuel Lf). reflexivity.
    Qed.
    Lemma complete_total w : exists o, runs_to (fun fuel => complete lay sg g value fuel fuel w [[]]) (Ret o) /\
      match o with
      | Some u => lang P S0 (map tk_kind w ++ u) /\ forall u', lang P S0 (map tk_kind w ++ u') -> length u <= length u'
      | None => ~ goes_on (map tk_kind w)
      end.
    Proof.
      assert (D : goes_on (map tk_kind w) \/ ~ goes_on (map tk_kind w)).
      { destruct (attempt_clear w) as ([] & _ & Pv); cbv zeta in Pv; [left; exists []; rewrite app_nil_r; exact Pv|left; exact (proj2 Pv)|right; exact Pv|destruct Pv]. }
      destruct D as [(u & L)|Ng].
      - destruct (complete_spec w (length u) 0 [[]] (level_nil w)) as (u1 & fuel1 & L1 & M1 & R1); [intros x X; lia|exists u; auto|].
        exists (Some u1). split; [|auto]. apply (runs_to_intro _ _ (S (length u) + fuel1)); [discriminate|]. intros fuel Lf. apply R1; lia.
      - exists None. split; [|exact Ng]. destruct (level_step w 0 [[]] (level_nil w)) as (words & live & [_ (fuel0 & Rs)] & Wd & Lv & _).
        apply (runs_to_intro _ _ (S fuel0)); [discriminate|]. intros [|fuel] Lf; [lia|]. cbn [complete]. rewrite Rs by lia. cbn [obind].
        destruct words as [|u words]; [|destruct Ng; exists u; exact (proj2 (proj1 (Wd u) (or_introl eq_refl)))].
        destruct live as [|u live]; [reflexivity|]. destruct Ng. exact (goes_shorter _ _ (proj2 (proj1 (Lv u) (or_introl eq_refl)))).
    Qed.
    Lemma completions_spec w : forall d n front, level w n front ->
      exists us, runs_to (fun fuel => completions lay sg g value d fuel w front) (Ret us) /\
        forall u, In u us <-> n <= length u <= n + d /\ lang P S0 (map tk_kind w ++ u).
    Proof.
      induction d as [|d IH]; intros n front F; destruct (level_step w n front F) as (words & live & Rs & Wd & Lv & F').
      - exists words. split.
        + exact (runs_to_bind _ (fun _ '(words, _) => Ret words) _ _ Rs (runs_to_ret _)).
        + intro u. rewrite Wd. split; intros [E L]; (split; [lia|exact L]).
      - destruct (IH (S n) (longer g live) F') as (us & Ru & Pu). exists (words ++ us). split.
        + apply (runs_to_bind _ (fun fuel '(words, live) => us <- completions lay sg g value d fuel w (longer g live) ;; Ret (words ++ us)) _ _ Rs).
          exact (runs_to_bind _ (fun _ us => Ret (words ++ us)) _ _ Ru (runs_to_ret _)).
        + intro u. rewrite in_app_iff, Wd, Pu. split.
          * intros [[E L]|[E L]]; (split; [lia|exact L]).
          * intros [E L]. destruct (Nat.eq_dec (length u) n) as [X|X]; [left|right]; (split; [lia|exact L]).
    Qed.
  End Clear.
End Facts.
