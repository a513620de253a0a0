(** C125: cutting a text into tokens and parsing them (src/utils/buffer.rs, src/parsers/earley.rs together). *)
From Coq Require Import String List Arith NArith Lia.
From Verif.Model Require Import Ord BTree Outcome Utils Grammar StartGrammar Tokens Tree State Earley Buffer.
From Verif.Spec Require Import Reach Cfg BuildSpec NullSpec TreeSpec EarleySpec LL1Spec BufferSpec CutSpec Examples.
From Verif.Proofs Require Import OrdFacts BTreeFacts LoopFacts GrammarFacts StartFacts BuildMore CfgFacts TreeFacts TreeHist
  EarleyItems EarleyMore BufferFacts BufferLines CutFacts ExampleFacts NullableFacts.
From Verif.Properties Require Import EarleyProps ForestProps ExampleProps LL1Props BufferProps.
Import ListNotations.

(** C125.  The text is cut as the lexer says: the pieces' ranges in order, all of the text; or an error, with the range of what
    could not be cut; or, if the lexer takes nothing for ever, no end.  There is no panic. *)
Theorem C125_cut h (rule : lexer) r u : api_range h r -> br_as_str r = Ret u ->
  (forall ps, cuts rule u ps [] -> concat ps = u /\ exists rs, runs_to (cut rule r) (Ret (Ok rs)) /\
     Forall2 (fun p q => br_as_str q = Ret p) ps rs /\ Forall (api_range h) rs) /\
  (forall ps rest, cuts rule u ps rest -> rest <> [] -> concat ps ++ rest = u /\
     exists r', runs_to (cut rule r) (Ret (Err r')) /\ br_as_str r' = Ret rest /\ br_end r' = br_end r /\ api_range h r') /\
  ((forall ps rest, ~ cuts rule u ps rest) -> diverges (cut rule r)).
Proof.
  intros R E. destruct (api_at h r R) as (name & pre & v & post & A). rewrite (at_as_str _ _ _ _ _ _ A) in E. injection E as ->. split; [|split].
  - intros ps C. pose proof (cuts_concat _ _ _ _ C) as Ec. rewrite app_nil_r in Ec. split; [exact Ec|].
    destruct (cut_runs h rule u ps [] C r name pre post [] A R) as (qs & n & L & F & Y & _). exists qs.
    split; [apply (runs_to_intro _ _ n); [discriminate|exact (Y eq_refl)]|]. split; [exact (laid_texts _ _ _ _ _ _ L)|exact F].
  - intros ps rest C N. split; [exact (cuts_concat _ _ _ _ C)|]. destruct (cut_runs h rule u ps rest C r name pre post [] A R) as (qs & n & L & F & _ & Y).
    destruct (Y N) as (r' & A' & R' & Run). exists r'. split; [apply (runs_to_intro _ _ n); [discriminate|exact Run]|].
    split; [exact (at_as_str _ _ _ _ _ _ A')|]. split; [|exact R'].
    destruct A as (_ & _ & _ & ->), A' as (_ & _ & _ & ->). rewrite <- (cuts_concat _ _ _ _ C), !str_len_app. lia.
  - intros No fuel. exact (cut_endless h rule fuel u r name pre post [] No A).
Qed.
(** C125.  A lexer that always takes something gives exactly one cut of every text. *)
Theorem C125_one_cut (rule : lexer) u : (forall s, s <> [] -> 0 < rule s) ->
  exists ps rest, cuts rule u ps rest /\ forall ps' rest', cuts rule u ps' rest' -> ps' = ps /\ rest' = rest.
Proof.
  intro Pos. destruct (cuts_total rule Pos u) as (ps & rest & C). exists ps, rest. split; [exact C|]. exact (cuts_fun _ _ _ _ C).
Qed.

Section Positions.
  Variable bs : list comparison -> nat + nat.
  Variable gs : list char -> list (list char).
  Hypothesis BS : search_contract bs.
  Hypothesis GS : graphemes_contract gs.
  (** C125.  The pieces lie one after the other: each starts and ends at the position its text has in the buffer, and one ends
      where the next starts. *)
  Theorem C125_positions h (rule : lexer) r u ps rs : api_range h r -> br_as_str r = Ret u -> cuts rule u ps [] ->
    runs_to (cut rule r) (Ret (Ok rs)) ->
    exists name pre post, h (bf_addr (br_buf r)) = Some (name, pre ++ u ++ post) /\
      forall i q, nth_error rs i = Some q -> exists a b, start_pos bs gs q = Ret a /\ end_pos bs gs q = Ret b /\
        is_pos gs (pre ++ u ++ post) (length (pre ++ concat (firstn i ps))) a /\
        is_pos gs (pre ++ u ++ post) (length (pre ++ concat (firstn (S i) ps))) b /\
        forall q', nth_error rs (S i) = Some q' -> start_pos bs gs q' = Ret b.
  Proof.
    intros R E C Run. destruct (api_at h r R) as (name & pre & v & post & A). rewrite (at_as_str _ _ _ _ _ _ A) in E. injection E as ->.
    exists name, pre, post. split; [exact (proj1 A)|].
    destruct (cut_runs h rule u ps [] C r name pre post [] A R) as (qs & n & L & F & Y & _).
    assert (qs = rs) as ->.
    { assert (X : runs_to (cut rule r) (Ret (Ok qs))) by (apply (runs_to_intro _ _ n); [discriminate|exact (Y eq_refl)]).
      pose proof (runs_to_fun _ _ _ X Run) as Z. injection Z as ->. reflexivity. }
    pose proof (cuts_concat _ _ _ _ C) as Ec. rewrite app_nil_r in Ec.
    assert (Pos : forall i q, nth_error rs i = Some q -> exists a b, start_pos bs gs q = Ret a /\ end_pos bs gs q = Ret b /\
        is_pos gs (pre ++ u ++ post) (length (pre ++ concat (firstn i ps))) a /\
        is_pos gs (pre ++ u ++ post) (length (pre ++ concat (firstn (S i) ps))) b).
    { intros i q Eq. destruct (laid_nth _ _ _ _ _ _ L i q Eq) as (p & Ep & Aq). cbn [app] in Aq.
      rewrite Forall_forall in F. destruct (C34_positions bs gs BS GS h q (F q (nth_error_In _ _ Eq))) as (nm & pr & v & po & a & b & H1 & H2 & H3 & H4 & H5 & H6).
      exists a, b. split; [exact H3|]. split; [exact H5|]. pose proof (at_as_str _ _ _ _ _ _ Aq) as As. rewrite H2 in As. injection As as ->.
      destruct Aq as (Q1 & Q2 & Q3 & Q4). rewrite Q1 in H1. injection H1 as <- Et.
      assert (Ef : concat (firstn (S i) ps) = concat (firstn i ps) ++ p).
      { clear - Ep. revert i Ep. induction ps as [|x ps IH]; intros [|i] Ep; try discriminate; cbn in Ep.
        - injection Ep as ->. cbn. rewrite app_nil_r. reflexivity.
        - change (x ++ concat (firstn (S i) ps) = (x ++ concat (firstn i ps)) ++ p). rewrite (IH i Ep), app_assoc. reflexivity. }
      assert (Eu : concat (firstn i ps) ++ p ++ concat (skipn (S i) ps) = u).
      { rewrite app_assoc, <- Ef, <- concat_app, firstn_skipn. exact Ec. }
      assert (Etx : pr ++ p ++ po = pre ++ u ++ post).
      { rewrite <- Et, <- Eu, <- !app_assoc. reflexivity. }
      assert (pr = pre ++ concat (firstn i ps)) as ->.
      { assert (O : tp_byte_offset a = br_start q) by (unfold start_pos, get_text_pos in H3; destruct (get_line_str _ _ _) as [[[? ?] ?]| |]; try discriminate; injection H3 as <-; reflexivity).
        destruct H4 as [H4 _]. rewrite O, Q3, firstn_app, firstn_all, Nat.sub_diag, app_nil_r in H4.
        symmetry. refine (proj1 (app_len_inj _ _ _ _ Et _)). cbn [firstn] in H4. rewrite ?app_nil_r in H4. exact H4. }
      rewrite Etx in H4, H6. rewrite Ef, (app_assoc pre (concat (firstn i ps)) p). split; [exact H4|exact H6]. }
    intros i q Eq. destruct (Pos i q Eq) as (a & b & P1 & P2 & P3 & P4). exists a, b. do 4 (split; [assumption|]).
    intros q' Eq'. destruct (Pos (S i) q' Eq') as (a' & b' & P1' & _ & P3' & _). rewrite P1'. f_equal. exact (pos_fun gs _ _ _ _ P3' P4).
  Qed.
End Positions.

Section Parse.
  Context {T NT AK AV V : Type} `{OrdEq T} `{OrdEq NT} `{OrdEq AK} `{OrdEq V}.
  Variables (kind : BufferRange -> T) (value : BufferRange -> V) (spelling : V -> list char).
  Hypothesis Spell : forall q s, br_as_str q = Ret s -> spelling (value q) = s.
  Variable g : Grammar T NT AK AV.
  Variable sg : StartGrammar T NT AK AV.
  Variable lay : layout (StartNonTerminal NT).
  Hypothesis Bg : built g.
  Hypothesis Wr : runs_to (wrap_grammar_with_start g) (Ret (Ok sg)).
  Hypothesis Lay : lay_inj sg lay.
  Local Notation P := (rhs_of g).
  Local Notation S0 := (start_nt g).
  Variables (h : heap) (rule : lexer) (r : BufferRange) (u : list char) (t0 : Inner T AK V).
  Hypothesis Rr : api_range h r.
  Hypothesis Er : br_as_str r = Ret u.
  Hypothesis At0 : api_tree t0.
  Local Notation program := (parse_text kind value rule lay sg r t0).
  Local Notation tokens rs := (map (token_of kind value) rs).

  Lemma kinds_of rs : map tk_kind (tokens rs) = map kind rs.
  Proof. rewrite map_map. reflexivity. Qed.
  Lemma spell_of ps rs : Forall2 (fun p q => br_as_str q = Ret p) ps rs -> concat (map (fun t => spelling (tk_value t)) (tokens rs)) = concat ps.
  Proof. induction 1 as [|p q ps rs E _ IH]; [reflexivity|]. cbn. rewrite IH, (Spell q p E). reflexivity. Qed.
  Lemma parse_after ps rs x : cuts rule u ps [] -> runs_to (cut rule r) (Ret (Ok rs)) ->
    runs_to (fun fuel => parse lay sg (tokens rs) t0 fuel) x ->
    runs_to program (match x with Ret y => Ret (Ok y) | Panic m => Panic m | NoFuel => NoFuel end).
  Proof.
    intros C R X. unfold parse_text. refine (runs_to_bind _ (fun n c => match c with Err rest => Ret (Err rest) | Ok pieces => y <- parse lay sg (tokens pieces) t0 n ;; Ret (Ok y) end) _ _ R _).
    destruct X as (Nf & k & X). split; [destruct x; congruence|]. exists k. intros fuel L. cbn. rewrite (X fuel L). destruct x; reflexivity.
  Qed.

  (** C125.  Whatever the grammar: if the program returns a node, the text is cut completely, the kinds of its pieces are a
      word of the language, every derivation tree of the tokens can be read off the node and its leaves spell the text,
      and every leaf of every tree that can be read off is one of the pieces; if it returns no node, the text is cut
      completely and the kinds are no word; if it returns an error, that is the text the lexer could not cut. *)
  Theorem C125_parse_text :
    (forall m t, runs_to program (Ret (Ok (Some m, t))) -> exists ps rs, cuts rule u ps [] /\ Forall2 (fun p q => br_as_str q = Ret p) ps rs /\
       lang P S0 (map kind rs) /\
       (forall tr, dtree g (NonTerm S0) (tokens rs) tr -> reads t m tr /\ concat (map (fun l => spelling (tk_value l)) (yield tr)) = u) /\
       (forall tr l, reads t m tr -> In l (yield tr) -> In (spelling (tk_value l)) ps)) /\
    (forall t, runs_to program (Ret (Ok (None, t))) -> exists ps rs, cuts rule u ps [] /\ Forall2 (fun p q => br_as_str q = Ret p) ps rs /\
       ~ lang P S0 (map kind rs)) /\
    (forall r', runs_to program (Ret (Err r')) -> exists ps rest, cuts rule u ps rest /\ rest <> [] /\ br_as_str r' = Ret rest).
  Proof.
    assert (Cl : forall z, runs_to program z ->
      (exists ps rs x, cuts rule u ps [] /\ Forall2 (fun p q => br_as_str q = Ret p) ps rs /\ runs_to (fun fuel => parse lay sg (tokens rs) t0 fuel) x /\
         z = (match x with Ret y => Ret (Ok y) | Panic m => Panic m | NoFuel => NoFuel end)) \/
      (exists ps rest r', cuts rule u ps rest /\ rest <> [] /\ br_as_str r' = Ret rest /\ z = Ret (Err r'))).
    { intros z Rz. destruct (C125_cut h rule r u Rr Er) as (Y1 & Y2 & Y3).
      destruct Rz as (Nf & k & Rz). pose proof (Rz k (le_n _)) as Ek. unfold parse_text in Ek.
      assert (exists ps rest, cuts rule u ps rest) as (ps & rest & C).
      { (* the cut has ended *)
        assert (X : cut rule r k <> NoFuel) by (intro E0; rewrite E0 in Ek; cbn in Ek; congruence).
        clear - X Rr Er. unfold cut in X. revert X. destruct (api_at h r Rr) as (name & pre & v & post & A). rewrite (at_as_str _ _ _ _ _ _ A) in Er. injection Er as ->.
        clear Rr. generalize (@nil BufferRange) as out. revert r u pre A. induction k as [|k IH]; intros r u pre A out X; [destruct (X eq_refl)|].
        destruct u as [|c u0] eqn:Eu; [exists [], []; constructor|]. rewrite <- Eu in *. assert (N : u <> []) by (rewrite Eu; discriminate). clear u0 c Eu.
        pose proof (cut_step h rule r name pre u post k out A N) as St. destruct (Nat.leb_spec (rule u) (length u)) as [Le|Lt].
        - destruct St as (r' & q & A' & _ & _ & _ & E). rewrite E in X. destruct (IH _ _ _ A' _ X) as (ps & rest & C).
          exists (firstn (rule u) u :: ps), rest. rewrite <- (firstn_skipn (rule u) u) at 1. apply cuts_piece; [rewrite firstn_skipn; exact N| |exact C].
          rewrite firstn_skipn, firstn_length. lia.
        - exists [], u. constructor; assumption. }
      destruct rest as [|c rest].
      - left. destruct (Y1 ps C) as (_ & rs & Rc & F2 & _). destruct (main g sg lay Bg Wr Lay (tokens rs) t0 At0) as (x & Rx & _).
        exists ps, rs, x. split; [exact C|]. split; [exact F2|]. split; [exact Rx|].
        apply (runs_to_fun program); [split; [exact Nf|exists k; exact Rz]|]. exact (parse_after ps rs x C Rc Rx).
      - right. destruct (Y2 ps _ C) as (_ & r' & Rc & E' & _); [discriminate|]. exists ps, (c :: rest), r'. split; [exact C|]. split; [discriminate|].
        split; [exact E'|]. apply (runs_to_fun program); [split; [exact Nf|exists k; exact Rz]|].
        unfold parse_text. refine (runs_to_bind _ (fun n c => match c with Err rest => Ret (Err rest) | Ok pieces => y <- parse lay sg (tokens pieces) t0 n ;; Ret (Ok y) end) _ _ Rc _).
        apply runs_to_ret. }
    split; [|split].
    - intros m t R. destruct (Cl _ R) as [(ps & rs & x & C & F2 & Rx & Ez)|(ps & rest & r' & _ & _ & _ & Ez)]; [|discriminate].
      destruct x as [[o t']| |]; try discriminate. injection Ez as <- <-. exists ps, rs. split; [exact C|]. split; [exact F2|].
      split; [rewrite <- kinds_of; exact (C42_parse_accepts_only_words g sg lay Bg Wr Lay _ _ _ _ At0 Rx)|]. split.
      + intros tr D. split; [exact (C45_forest_complete g sg lay Bg Wr Lay _ _ _ _ At0 Rx tr D)|]. rewrite (proj1 (dtree_yield g) _ _ _ D), (spell_of ps rs F2).
        rewrite <- (cuts_concat _ _ _ _ C), app_nil_r. reflexivity.
      + intros tr l Rd I. pose proof (C81_leaves_are_tokens g sg Bg Wr lay _ _ _ _ Lay At0 Rx tr l Rd I) as J.
        apply in_map_iff in J. destruct J as (q & <- & J). cbn. clear - F2 J Spell. induction F2 as [|p q0 ps rs E _ IH]; [destruct J|].
        destruct J as [->|J]; [left; symmetry; exact (Spell q p E)|right; exact (IH J)].
    - intros t R. destruct (Cl _ R) as [(ps & rs & x & C & F2 & Rx & Ez)|(ps & rest & r' & _ & _ & _ & Ez)]; [|discriminate].
      destruct x as [[o t']| |]; try discriminate. injection Ez as <- <-. exists ps, rs. split; [exact C|]. split; [exact F2|].
      rewrite <- kinds_of. exact (C43_parse_rejects_only_nonwords g sg lay Bg Wr Lay _ _ _ At0 Rx).
    - intros r' R. destruct (Cl _ R) as [(ps & rs & x & C & F2 & Rx & Ez)|(ps & rest & r2 & C & N & E & Ez)]; [destruct x; discriminate|].
      injection Ez as ->. eauto.
  Qed.

  (** C125.  For grammars in which one token decides (C108) and texts that are cut completely: a word of the language gives
      one tree, whose leaves spell the text; a proper beginning of a word gives no node; anything else is the panic of a
      syntax error. *)
  Theorem C125_ll1_text ps : ll1 g -> productive P S0 -> cuts rule u ps [] ->
    exists rs, Forall2 (fun p q => br_as_str q = Ret p) ps rs /\
      (lang P S0 (map kind rs) -> exists tr m t, dtree g (NonTerm S0) (tokens rs) tr /\ runs_to program (Ret (Ok (Some m, t))) /\
         (forall tr', reads t m tr' <-> tr' = tr) /\ concat (map (fun l => spelling (tk_value l)) (yield tr)) = u) /\
      (forall v, lang P S0 (map kind rs ++ v) -> v <> [] -> exists t, runs_to program (Ret (Ok (None, t)))) /\
      ((forall v, ~ lang P S0 (map kind rs ++ v)) -> runs_to program (Panic "assertion failed: !new_state.is_empty()")).
  Proof.
    intros Ll Pd C. destruct (proj1 (C125_cut h rule r u Rr Er) ps C) as (Ec & rs & Rc & F2 & _). exists rs. split; [exact F2|].
    destruct (C108_ll1_parse g sg lay Bg Wr Lay (tokens rs) t0 Ll Pd At0) as (Y1 & Y2 & Y3). rewrite kinds_of in *. split; [|split].
    - intro L. destruct (Y1 L) as (tr & m & t & D & Rx & Tr). exists tr, m, t. split; [exact D|]. split; [exact (parse_after ps rs _ C Rc Rx)|].
      split; [exact Tr|]. rewrite (proj1 (dtree_yield g) _ _ _ D), (spell_of ps rs F2). exact Ec.
    - intros v L N. destruct (Y2 v L N) as (t & Rx). exists t. exact (parse_after ps rs _ C Rc Rx).
    - intro N. exact (parse_after ps rs _ C Rc (Y3 N)).
  Qed.
End Parse.

(** A lexer: numbers are as long as they can be, everything else is one character; ["QSP12N3N45"] is
    seq (set (plus 12 (neg 3))) (neg 45) in the Polish notation of [ex_pol_g]. *)
Definition ex_digit (c : char) : bool := N.leb 48 c && N.leb c 57.
Fixpoint ex_digits (s : list char) : nat := match s with c :: r => if ex_digit c then S (ex_digits r) else 0 | [] => 0 end.
Definition ex_rule : lexer := fun s => match ex_digits s with 0 => 1 | n => n end.
Definition ex_value (q : BufferRange) : list char := match br_as_str q with Ret s => s | _ => [] end.
Definition ex_kind (q : BufferRange) : nat :=
  match ex_value q with c :: _ => if ex_digit c then 5 else if N.eqb c 81 then 1 else if N.eqb c 83 then 0 else if N.eqb c 80 then 6 else 7 | [] => 9 end.
Definition ex_source : list char := [81; 83; 80; 49; 50; 78; 51; 78; 52; 53]%N.
Definition ex_pieces : list (list char) := [[81]; [83]; [80]; [49; 50]; [78]; [51]; [78]; [52; 53]]%N.
Definition ex_src : BufferRange := br_new 3 "src" ex_source.
Definition ex_heap : heap := fun a => if Nat.eqb a 3 then Some ("src"%string, ex_source) else None.
Definition ex_run (fuel : nat) := parse_text ex_kind ex_value ex_rule ex_slay (ex_wrap ex_pol_g) ex_src (@in_new nat nat (list char)) fuel.
Example ex_cut_hyps : api_range ex_heap ex_src /\ br_as_str ex_src = Ret ex_source /\ cuts ex_rule ex_source ex_pieces [] /\
  (forall q s, br_as_str q = Ret s -> (fun v => v) (ex_value q) = s) /\ (forall s, s <> [] -> 0 < ex_rule s).
Proof.
  split; [constructor; reflexivity|]. split; [reflexivity|]. split; [|split].
  - unfold ex_source, ex_pieces.
    do 8 match goal with |- cuts _ ?t (?p :: ?ps) _ => let t' := eval cbn in (skipn (length p) t) in
      change t with (p ++ t'); apply cuts_piece; [discriminate|reflexivity|] end. constructor.
  - intros q s E. unfold ex_value. rewrite E. reflexivity.
  - intros s _. unfold ex_rule. destruct (ex_digits s); lia.
Qed.
Example ex_cut_run : exists rs, cut ex_rule ex_src 20 = Ret (Ok rs) /\ map ex_kind rs = [1; 0; 6; 5; 7; 5; 7; 5] /\ map ex_value rs = ex_pieces.
Proof. eexists. split; [vm_compute; reflexivity|]. split; vm_compute; reflexivity. Qed.
(** The whole program, and what [C125_ll1_text] says of it: one tree, and its leaves spell the text. *)
Example ex_text_parsed : exists m t tr, runs_to ex_run (Ret (Ok (Some m, t))) /\ (forall tr', reads t m tr' <-> tr' = tr) /\
  concat (map (fun l => tk_value l) (yield tr)) = ex_source.
Proof.
  destruct ex_cut_hyps as (Rr & Er & C & Sp & _).
  assert (Wr : runs_to (wrap_grammar_with_start ex_pol_g) (Ret (Ok (ex_wrap ex_pol_g)))) by (apply wrap_vm; vm_compute; reflexivity).
  assert (Lay : lay_inj (ex_wrap ex_pol_g) ex_slay) by (apply ex_slay_inj; vm_compute; reflexivity).
  destruct (C125_ll1_text ex_kind ex_value (fun v => v) Sp ex_pol_g _ _ built_pol Wr Lay ex_heap ex_rule ex_src ex_source (@in_new nat nat (list char))
    Rr Er api_tree_new ex_pieces ex_pol_ll1 pol_productive C) as (rs & F2 & Y & _).
  destruct Y as (tr & m & t & _ & R & Tr & Sx); [|exists m, t, tr; split; [exact R|split; [exact Tr|exact Sx]]].
  assert (K : map ex_kind rs = [1; 0; 6; 5; 7; 5; 7; 5]).
  { assert (Kv : forall q s, br_as_str q = Ret s -> ex_value q = s) by exact Sp.
    unfold ex_pieces in F2. repeat match goal with F : Forall2 _ (_ :: _) ?l |- _ => let q := fresh "q" in let l' := fresh "l" in let E := fresh "E" in
      inversion F as [|? q ? l' E ?]; subst; clear F | F : Forall2 _ [] _ |- _ => inversion F; subst; clear F end.
    cbn [map]. unfold ex_kind. repeat (erewrite Kv by eassumption). reflexivity. }
  rewrite K. change (start_nt ex_pol_g) with 0.
  assert (G : forall A rhs w, (exists k, In (A, k, rhs) (prod_list ex_pol_g)) -> gen (rhs_of ex_pol_g) rhs w -> lang (rhs_of ex_pol_g) A w).
  { intros A rhs w I D. apply lang_iff. exists rhs. split; [apply prod_list_rhs; exact I|exact D]. }
  assert (Ap : forall X rhs a b, lang (rhs_of ex_pol_g) X a -> gen (rhs_of ex_pol_g) rhs b -> gen (rhs_of ex_pol_g) (NonTerm X :: rhs) (a ++ b)).
  { intros X rhs a b L D. apply lang_iff in L. destruct L as (r0 & Pr & D0). exact (gen_nonterm _ X r0 _ _ _ Pr D0 D). }
  assert (Ng : forall w, lang (rhs_of ex_pol_g) 1 w -> lang (rhs_of ex_pol_g) 1 (7 :: w)).
  { intros w L. apply (G 1 [Term 7; NonTerm 1]); [exists 15; vm_compute; auto 10|]. constructor. rewrite <- (app_nil_r w). apply Ap; [exact L|constructor]. }
  apply (G 0 [Term 1; NonTerm 0; NonTerm 0]); [exists 11; vm_compute; auto 10|]. constructor.
  apply (Ap 0 _ [0; 6; 5; 7; 5]).
  - apply (G 0 [Term 0; NonTerm 1]); [exists 10; vm_compute; auto 10|]. constructor. apply (Ap 1 [] [6; 5; 7; 5] []); [|constructor].
    apply (G 1 [Term 6; NonTerm 1; NonTerm 1]); [exists 14; vm_compute; auto 10|]. constructor. apply (Ap 1 _ [5]); [exact pol_num|].
    apply (Ap 1 [] [7; 5] []); [apply Ng; exact pol_num|constructor].
  - apply (Ap 0 [] [7; 5] []); [|constructor]. apply (G 0 [NonTerm 1]); [exists 12; vm_compute; auto 10|].
    apply (Ap 1 [] [7; 5] []); [apply Ng; exact pol_num|constructor].
Qed.
Example ex_text_run : match ex_run 40 with Ret (Ok (Some _, _)) => true | _ => false end = true.
Proof. vm_compute. reflexivity. Qed.

Print Assumptions C125_cut.
Print Assumptions C125_one_cut.
Print Assumptions C125_positions.
Print Assumptions C125_parse_text.
Print Assumptions C125_ll1_text.
