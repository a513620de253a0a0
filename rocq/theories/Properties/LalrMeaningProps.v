(** C102: what LALR parse states mean (src/parsers/lalr.rs). *)
From Coq Require Import String List Arith Lia Permutation NArith Sorted.
From Verif.Model Require Import Ord BTree Outcome Grammar Nullable NonNull Firsts State Lalr.
From Verif.Spec Require Import Reach Cfg NullSpec BuildSpec StateSpec LalrSpec LalrMeaning NonNullSpec Examples.
From Verif.Proofs Require Import OrdFacts BTreeFacts LoopFacts GrammarFacts BuildMore CfgFacts NullableFacts NullableMore FirstsMore NonNullMore
  StateFacts StateSets LalrFacts LalrMore LalrMain LalrActions NullFreeFacts LalrMeaningFacts.
From Verif.Properties Require Import NonNullProps NullFreeProps LalrProps.
Import ListNotations.

Section S.
  Context {T NT AK AV : Type} `{OrdEq T} `{OrdEq NT}.

  (** C102.  In a grammar where no nonterminal derives the empty word and every one derives some word: from items of different
      productions with lookaheads, none of which is in progress in a production of a nonterminal that is expected itself,
      building a parse state always succeeds, and the state consists of the items and of the starts of exactly the
      productions of the nonterminals that are expected next, with exactly the terminals expected after them. *)
  Theorem C102_state (lay : layout NT) (g : Grammar T NT AK AV) keep_last (items : list (ProdState T NT AK AV * btset T)) :
    built g -> lay_inj g lay -> Forall (item_of g) items ->
    one_per_prod (fun s ts => In (s, ts) items) -> (forall s ts, In (s, ts) items -> ts <> []) ->
    (forall A, ~ derives_empty g A) -> productive g ->
    (forall s ts t, In (s, ts) items -> ps_index s <> 0 -> ~ expects g items (p_head (ps_prod s)) t) ->
    exists m, runs_to (fun n => from_prod_lookahead lay g keep_last items n) (Ret (Ok m)) /\
      forall s t, (exists ts, In (s, ts) m /\ In t ts) <->
        (exists ts, In (s, ts) items /\ In t ts) \/ (In (ps_prod s) (prods g) /\ ps_index s = 0 /\ expects g items (p_head (ps_prod s)) t).
  Proof.
    intros B I F U NE NF Pd NC.
    assert (Good : forall s ts, In (s, ts) items -> In (ps_prod s) (prods g)).
    { intros s ts Is. rewrite Forall_forall in F. exact (proj1 (F _ Is)). }
    assert (NC' : no_collision g (fun s ts => In (s, ts) items)).
    { intros s ts Is Ni t L. destruct (lr1_expects g B items _ _ L) as [(ts' & Is' & _)|(_ & _ & E)].
      - apply Ni. destruct (U _ _ _ _ Is' Is eq_refl) as [<- _]. reflexivity.
      - exact (NC s ts t Is Ni E). }
    destruct (C72_from_prod_lookahead lay g keep_last items B I F) as (r & R & S). destruct r as [[m|e]|msg|]; [|exfalso|exfalso|contradiction].
    - exists m. split; [exact R|]. intros s t. rewrite (C52_exact_partial lay g keep_last items m B I F U NC' NE NF R s t). split.
      + apply lr1_expects; assumption.
      + intros [(ts & Is & It)|(Ip & Ei & E)]; [eapply lr1_item; eauto|]. destruct s as [p n]. cbn [ps_prod ps_index] in *. subst n. apply expects_lr1; assumption.
    - exact (nf_unamb g NF (proj2 S)).
    - destruct S as (_ & s & Ps & Un). refine (nf_defined g B NF Pd lay I s _ Un).
      assert (X : forall s, present g (kept keep_last items) s -> In (ps_prod s) (prods g)).
      { intros s1 P1. destruct P1 as [s1 ts1 K|p t C N].
        - apply (kept_all lay g B I keep_last items s1 ts1 F U) in K. exact (Good _ _ K).
        - destruct C as [s1 ts1 t K It|s1 X rest p t P1 Et Ip Eh Lk]; [|exact Ip]. apply (kept_all lay g B I keep_last items s1 ts1 F U) in K. exact (Good _ _ K). }
      exact (X s Ps).
  Qed.

  (** C102.  In particular the state of the start of one production: no condition on the items is left. *)
  Theorem C102_start_state (lay : layout NT) (g : Grammar T NT AK AV) keep_last (p0 : Prod T NT AK AV) (la : btset T) :
    built g -> lay_inj g lay -> In p0 (prods g) -> la <> [] -> StronglySorted (fun a b => cmp a b = Lt) la ->
    (forall A, ~ derives_empty g A) -> productive g ->
    exists m, runs_to (fun n => from_prod_lookahead lay g keep_last [(from_start p0, la)] n) (Ret (Ok m)) /\
      forall s t, (exists ts, In (s, ts) m /\ In t ts) <->
        (s = from_start p0 /\ In t la) \/
        (In (ps_prod s) (prods g) /\ ps_index s = 0 /\
         exists t0 more, In t0 la /\ derives_form (rhs_of g) (elements p0 ++ [Term t0]) (NonTerm (p_head (ps_prod s)) :: Term t :: more)).
  Proof.
    intros B I Ip Ne So NF Pd. destruct (C102_state lay g keep_last [(from_start p0, la)] B I) as (m & R & M).
    - constructor; [|constructor]. split; [exact Ip|]. split; [apply pos_start|exact So].
    - intros s ts s' ts' [[= <- <-]|[]] [[= <- <-]|[]] _. auto.
    - intros s ts [[= <- <-]|[]]. exact Ne.
    - exact NF.
    - exact Pd.
    - intros s ts t [[= <- <-]|[]] X. destruct X. reflexivity.
    - exists m. split; [exact R|]. intros s t. rewrite M. split.
      + intros [(ts & [[= <- <-]|[]] & It)|(A1 & A2 & (s0 & ts & t0 & more & [[= <- <-]|[]] & It & D))]; [left; auto|right]. split; [exact A1|]. split; [exact A2|]. exists t0, more. auto.
      + intros [[-> It]|(A1 & A2 & t0 & more & It & D)]; [left; exists la; simpl; auto|right]. split; [exact A1|]. split; [exact A2|]. exists (from_start p0), la, t0, more. simpl. auto.
  Qed.

  Lemma shifted_both (lay : layout NT) (g : Grammar T NT AK AV) keep_last (items : list (ProdState T NT AK AV * btset T)) x m :
    built g -> lay_inj g lay -> Forall (item_of g) items -> shifted lay g keep_last items x m ->
    forall s ts, In (s, ts) m -> continues g items x s /\ In (ps_prod s) (prods g).
  Proof.
    intros B I F Sh. assert (L : lalr_state lay g keep_last m).
    { clear -Sh F. induction Sh as [m R|x m acts t m' Sh IH R J]; [eapply ls_items; eauto|eapply ls_shift; eauto]. }
    induction Sh as [m R|x m acts t m' Sh IH R J].
    - intros s ts Is. destruct (C72_from_prod_lookahead lay g keep_last items B I F) as (r & R' & S). pose proof (runs_to_fun _ _ _ R R') as E. subst r.
      destruct S as (_ & _ & K & _). apply (continues_closure g B items [] (kept keep_last items)); [|apply K; eauto].
      intros s1 ts1 Ks. apply kept_In in Ks. destruct Ks as [(ts' & Is') _]. split.
      + exists s1, ts'. split; [exact Is'|]. left. split; [reflexivity|]. split; [simpl; lia|reflexivity].
      + rewrite Forall_forall in F. exact (proj1 (F _ Is')).
    - assert (L0 : lalr_state lay g keep_last m).
      { clear -Sh F. induction Sh as [m R|x m acts t m' Sh IH R J]; [eapply ls_items; eauto|eapply ls_shift; eauto]. }
      specialize (IH L0). intros s ts Is. destruct (C73_shift_actions lay g keep_last m B I L0) as (r & R' & S). pose proof (runs_to_fun _ _ _ R R') as E. subst r.
      destruct S as (_ & _ & K). destruct (K t m' J) as (Kp & _). apply (continues_closure g B items (x ++ [t]) (moved m t)); [|apply Kp; eauto].
      intros s1 ts1 (s2 & rest & I2 & Et & ->). destruct (IH s2 ts1 I2) as [C2 P2]. split; [|exact P2]. eapply continues_shift; eauto.
  Qed.

  (** C102.  Every state in a parse state reached by shifting terminals continues one of the items after these terminals, in
      every accepted grammar. *)
  Theorem C102_shifted (lay : layout NT) (g : Grammar T NT AK AV) keep_last (items : list (ProdState T NT AK AV * btset T)) x m s ts :
    built g -> lay_inj g lay -> Forall (item_of g) items -> shifted lay g keep_last items x m -> In (s, ts) m -> continues g items x s.
  Proof. intros B I F Sh Is. exact (proj1 (shifted_both lay g keep_last items x m B I F Sh s ts Is)). Qed.

  (** C102.  So what has been shifted from the start of a production is the beginning of a word of its head. *)
  Theorem C102_shifted_word (lay : layout NT) (g : Grammar T NT AK AV) keep_last (p0 : Prod T NT AK AV) (la : btset T) x m :
    built g -> lay_inj g lay -> In p0 (prods g) -> StronglySorted (fun a b => cmp a b = Lt) la -> productive g ->
    shifted lay g keep_last [(from_start p0, la)] x m -> exists v, lang (rhs_of g) (p_head p0) (x ++ v).
  Proof.
    intros B I Ip So Pd Sh. assert (F : Forall (item_of g) [(from_start p0, la)]).
    { constructor; [|constructor]. split; [exact Ip|]. split; [apply pos_start|exact So]. }
    assert (Rp : rhs_of g (p_head p0) (elements p0)) by (apply prods_rhs; [exact (built_rs_wf g B)|exact Ip]).
    assert (X : x = [] \/ exists s ts, shifted lay g keep_last [(from_start p0, la)] x m /\ In (s, ts) m).
    { destruct Sh as [m R|x m acts t m' Sh R J]; [left; reflexivity|right]. assert (L : lalr_state lay g keep_last m).
      { clear -Sh F. induction Sh as [m R|x m acts t m' Sh IH R J]; [eapply ls_items; eauto|eapply ls_shift; eauto]. }
      destruct (C73_shift_actions lay g keep_last m B I L) as (r & R' & S). pose proof (runs_to_fun _ _ _ R R') as E. subst r. destruct S as (_ & Kk & K).
      destruct (proj1 (Kk t) (ex_intro _ m' J)) as (s & ts & rest & Is & Et). destruct (K t m' J) as (Kp & _).
      destruct (proj2 (Kp (Build_ProdState (ps_prod s) (S (ps_index s))))) as (ts' & Is').
      { apply (present_item g (moved m t) _ ts). exists s, rest. auto. }
      eexists _, ts'. split; [eapply shifted_next; eauto|exact Is']. }
    destruct X as [->|(s & ts & Sh' & Is)].
    - destruct (body_has_word g B _ _ Pd Rp) as (w & G). exists w. apply lang_iff. eauto.
    - destruct (shifted_both lay g keep_last _ x m B I F Sh' s ts Is) as [C Ips]. destruct (continues_form g B _ _ _ C Ips) as (s0 & ts0 & more & [[= <- <-]|[]] & D).
      exact (form_prefix g B Pd _ _ x _ Rp D).
  Qed.
End S.

(** C102.  So for the result of the null-free transformation, when only empty bodies derive the empty word and every
    nonterminal derives a word in the original. *)
Theorem C102_transformed {T NT AK AV} `{OrdEq T} `{OrdEq NT} `{OrdEq AK} (lay lay' : layout NT) (g : Grammar T NT AK AV) g' keep_last p0 (la : btset T) :
  built g -> lay_inj g lay -> runs_to (transform_to_nonnull lay g) (Ret (Ok g')) -> lay_inj g' lay' -> productive g -> null_bodies_empty g ->
  In p0 (prods g') -> la <> [] -> StronglySorted (fun a b => cmp a b = Lt) la ->
  exists m, runs_to (fun n => from_prod_lookahead lay' g' keep_last [(from_start p0, la)] n) (Ret (Ok m)) /\
    forall s t, (exists ts, In (s, ts) m /\ In t ts) <->
      (s = from_start p0 /\ In t la) \/
      (In (ps_prod s) (prods g') /\ ps_index s = 0 /\
       exists t0 more, In t0 la /\ derives_form (rhs_of g') (elements p0 ++ [Term t0]) (NonTerm (p_head (ps_prod s)) :: Term t :: more)).
Proof.
  intros B I R I' Pd Nb Ip Ne So. destruct (transform_nonempty lay g I B g' R) as (B' & _ & NF).
  assert (Pd' : productive g').
  { intros A rhs Pr. apply (tr_rhs lay g I B g' R) in Pr. destruct Pr as (p & fl & k & d & (r & Ir & _) & _).
    destruct (nonempty_word lay g I B g' R A Pd (ex_intro _ r Ir)) as (t & w & L). exists (t :: w).
    apply (C11_nonnull_language_partial lay g g' I B R); [|split; [discriminate|exact L]].
    intros A1 p1 w1 Pp E G. rewrite (Nb A1 p1 Pp E) in G. inversion G. reflexivity. }
  exact (C102_start_state lay' g' keep_last p0 la B' I' Ip Ne So NF Pd').
Qed.
Print Assumptions C102_transformed.
Print Assumptions C102_state.
Print Assumptions C102_start_state.
Print Assumptions C102_shifted.
Print Assumptions C102_shifted_word.

(** The expression grammar meets the hypotheses.  The state of E -> . E + F with lookahead 5 has four productions; in it
    F -> ( . E ) can be reached by shifting the parenthesis, and then F -> id . by shifting id. *)
Lemma expr_productive : productive ex_expr_g.
Proof.
  assert (F1 : lang (rhs_of ex_expr_g) 1 [0]).
  { apply lang_iff. exists [Term 0]. split; [|repeat constructor]. exists (Build_ProdInner 12 0 [Build_ProdElement (Some "id"%string) (Term 0)]). split; [|reflexivity].
    eexists. split; [right; left; reflexivity|]. left. reflexivity. }
  assert (F0 : lang (rhs_of ex_expr_g) 0 [0]).
  { apply lang_iff. exists [NonTerm 1]. split; [|exact F1]. exists (Build_ProdInner 11 0 [Build_ProdElement (Some "f"%string) (NonTerm 1)]). split; [|reflexivity].
    eexists. split; [left; reflexivity|]. right. left. reflexivity. }
  intros A rhs (p & (r & [[= <- <-]|[[= <- <-]|[]]] & _) & _); eauto.
Qed.
Definition ex_sum : Prod nat nat nat nat := Build_Prod 0 0 (Build_ProdInner 10 0 [Build_ProdElement (Some "l"%string) (NonTerm 0);
  Build_ProdElement None (Term 1); Build_ProdElement (Some "r"%string) (NonTerm 1)]).
Example C102_example : built ex_expr_g /\ lay_inj ex_expr_g ex_lay /\ In ex_sum (prods ex_expr_g) /\ (forall A, ~ derives_empty ex_expr_g A) /\ productive ex_expr_g /\
  exists m m', shifted ex_lay ex_expr_g false [(from_start ex_sum, [5])] [] m /\ length m = 4 /\
    shifted ex_lay ex_expr_g false [(from_start ex_sum, [5])] [2; 0] m' /\ m' <> [].
Proof.
  split; [exact built_expr|]. split; [apply ex_lay_inj; vm_compute; reflexivity|]. split; [left; reflexivity|]. split; [exact ex_expr_nullfree|]. split; [exact expr_productive|].
  set (m0 := ok_of [] (from_prod_lookahead ex_lay ex_expr_g false [(from_start ex_sum, [5])] 10)).
  set (a1 := ok_of [] (shift_actions ex_lay ex_expr_g false m0 10)). set (m1 := match bt_get 2 a1 with Some m => m | None => [] end).
  set (a2 := ok_of [] (shift_actions ex_lay ex_expr_g false m1 10)). set (m2 := match bt_get 0 a2 with Some m => m | None => [] end).
  assert (S0 : shifted ex_lay ex_expr_g false [(from_start ex_sum, [5])] [] m0) by (apply shifted_start; from_vm 10).
  assert (S1 : shifted ex_lay ex_expr_g false [(from_start ex_sum, [5])] [2] m1).
  { apply (shifted_next _ _ _ _ [] m0 a1 2); [exact S0| |vm_compute; tauto]. apply (runs_to_mono _ 10); [apply shift_mono|vm_compute; reflexivity|discriminate]. }
  exists m0, m2. split; [exact S0|]. split; [vm_compute; reflexivity|]. split; [|let X := fresh in intro X; apply (f_equal (@List.length _)) in X; vm_compute in X; discriminate X].
  apply (shifted_next _ _ _ _ [2] m1 a2 0); [exact S1| |vm_compute; tauto]. apply (runs_to_mono _ 10); [apply shift_mono|vm_compute; reflexivity|discriminate].
Qed.

(** The grammar of [C94_example] meets the hypotheses of [C102_transformed]. *)
Example C102_transformed_example : exists (g : Grammar nat nat nat nat) g' p0 m, built g /\ lay_inj g ex_lay /\ runs_to (transform_to_nonnull ex_lay g) (Ret (Ok g')) /\ lay_inj g' ex_lay /\
  productive g /\ null_bodies_empty g /\ In p0 (prods g') /\ p_head p0 = 0 /\
  runs_to (fun n => from_prod_lookahead ex_lay g' false [(from_start p0, [5])] n) (Ret (Ok m)) /\
  map (fun x => (p_head (ps_prod (fst x)), snd x)) m = [(0, [5]); (1, [8])].
Proof.
  destruct C94_example as (g & g' & Rb & I & R & I' & Nb & Pd & _).
  assert (Bg : built g) by (exists 0, nf_ex; exact Rb).
  eassert (Rb' : runs_to (build 0 nf_ex) _) by (apply (build_vm _ _ 10); [vm_compute; reflexivity|discriminate]).
  pose proof (runs_to_fun _ _ _ Rb Rb') as E. injection E as ->. clear Rb'.
  match type of Bg with built ?x => eassert (R' : runs_to (transform_to_nonnull ex_lay x) _) by (apply (transform_vm _ _ 10); [vm_compute; reflexivity|discriminate]) end.
  pose proof (runs_to_fun _ _ _ R R') as E. injection E as ->. clear R'.
  match type of I' with lay_inj ?x _ => let l := eval vm_compute in (prods x) in match l with ?p :: _ => eexists; exists x, p, (ok_of [] (from_prod_lookahead ex_lay x false [(from_start p, [5])] 10)) end end.
  split; [exact Bg|]. split; [exact I|]. split; [exact R|]. split; [exact I'|]. split; [exact Pd|]. split; [exact Nb|].
  split; [vm_compute; left; reflexivity|]. split; [reflexivity|]. split; [from_vm 10|vm_compute; reflexivity].
Qed.
