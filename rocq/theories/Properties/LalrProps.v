(** LALR parse states (C52, C72, C73). *)
From Coq Require Import String List Arith Lia Permutation NArith Sorted.
From Verif.Model Require Import Ord BTree Outcome Grammar Nullable Firsts State Lalr.
From Verif.Spec Require Import Reach Cfg NullSpec BuildSpec StateSpec LalrSpec Examples.
From Verif.Proofs Require Import OrdFacts BTreeFacts LoopFacts GrammarFacts BuildMore CfgFacts NullableFacts NullableMore FirstsMore
  StateFacts StateSets LalrFacts LalrMore LalrMain LalrActions.
Import ListNotations.

Section S.
  Context {T NT AK AV : Type} `{OrdEq T} `{OrdEq NT}.

  (** C72. Exactly what [from_prod_lookahead] returns, for every accepted grammar and list of items: the
      call ends; it fails iff the grammar is null-ambiguous; it panics iff some state of the closure has
      a nonterminal without Firsts entry right after the nonterminal at its dot; otherwise the parse
      state holds exactly the states [present] in the closure, each with exactly the terminals its
      production [carries]. *)
  Theorem C72_from_prod_lookahead (lay : layout NT) (g : Grammar T NT AK AV) keep_last
    (items : list (ProdState T NT AK AV * btset T)) :
    built g -> lay_inj g lay -> Forall (item_of g) items ->
    exists r, runs_to (fun n => from_prod_lookahead lay g keep_last items n) r /\
      match r with
      | Ret (Err e) => e = FNullableError Ambiguity /\ null_ambiguous g
      | Ret (Ok m) => ~ null_ambiguous g /\
          NoDup (map (fun x => ps_prod (fst x)) m) /\
          (forall s, (exists ts, In (s, ts) m) <-> present g (kept keep_last items) s) /\
          (forall s ts, In (s, ts) m ->
             StronglySorted (fun a b => cmp a b = Lt) ts /\
             forall t, In t ts <-> carries g (kept keep_last items) (ps_prod s) t) /\
          (forall s, present g (kept keep_last items) s -> ~ undefined g s)
      | Panic _ => ~ null_ambiguous g /\ exists s, present g (kept keep_last items) s /\ undefined g s
      | NoFuel => False
      end.
  Proof.
    intros B I F. destruct (from_prod_spec lay g B I keep_last items F) as (r & R & S). exists r. split; [exact R|].
    destruct r as [[m|e]|msg|]; [|exact S|exact S|exact S]. destruct S as (Na & Ms & K & V & U).
    split; [exact Na|]. split; [|auto]. clear - Ms. unfold msorted in Ms. induction m as [|[s ts] m IH]; [constructor|].
    simpl in *. apply sorted_inv in Ms. destruct Ms as [Ms Hd]. constructor; [|apply IH; exact Ms].
    intro X. apply in_map_iff in X. destruct X as (y & E & Iy). rewrite Forall_forall in Hd.
    specialize (Hd (fst y) (in_map fst _ _ Iy)).
    pose proof (cmp_prod_refl lay s (fst y) (eq_sym E)) as C. unfold cmp in *. congruence.
  Qed.

  (** C52, sound part.  When the items are of different productions, none has an empty lookahead, and
      no production with an item in progress can also start in the closure: every state and lookahead
      computed is one of LR(1) closure, and every item is kept with its lookaheads. *)
  Theorem C52_sound_partial (lay : layout NT) (g : Grammar T NT AK AV) keep_last
    (items : list (ProdState T NT AK AV * btset T)) m :
    built g -> lay_inj g lay -> Forall (item_of g) items ->
    let item := fun s ts => In (s, ts) items in
    one_per_prod item -> no_collision g item -> (forall s ts, item s ts -> ts <> []) ->
    runs_to (fun n => from_prod_lookahead lay g keep_last items n) (Ret (Ok m)) ->
    (forall s ts, In (s, ts) m -> ts <> [] /\ forall t, In t ts -> lr1 g item s t) /\
    (forall s ts t, item s ts -> In t ts -> exists ts', In (s, ts') m /\ In t ts').
  Proof.
    intros B I F item U NC NE R. destruct (from_prod_spec lay g B I keep_last items F) as (r & R' & S).
    pose proof (runs_to_fun _ _ _ R R') as E. subst r. destruct S as (_ & _ & K & V & _).
    assert (Q : forall s ts, kept keep_last items s ts <-> item s ts)
      by (intros s ts; apply (kept_all lay g B I keep_last items s ts F U)).
    destruct (closure_ext g _ _ Q) as (X1 & X2 & _).
    destruct (closure_ext g _ _ (fun s ts => iff_sym (Q s ts))) as (Y1 & Y2 & _).
    destruct (closure_sound g item U NC NE) as (S1 & S2 & _). split.
    - intros s ts Is. destruct (V s ts Is) as [_ Vt].
      assert (P : present g item s) by (apply X2, K; eauto).
      split.
      + intros ->. assert (C : exists t, carries g item (ps_prod s) t).
        { destruct P as [s ts Hi|p u C _]; [|eauto]. destruct ts as [|u ts]; [destruct (NE _ _ Hi eq_refl)|].
          exists u. exact (carries_item g item s (u :: ts) u Hi (or_introl eq_refl)). }
        destruct C as (t & C). apply Y1, Vt in C. exact C.
      + intros t It. apply (S1 (ps_prod s) t); [apply X1, Vt; exact It | apply (present_the g); exact P | reflexivity].
    - intros s ts t Hi It. assert (P : present g (kept keep_last items) s) by (apply Y2; exact (present_item g item s ts Hi)).
      apply K in P. destruct P as (ts' & I'). exists ts'. split; [exact I'|]. apply (V s ts' I'). apply Y1.
      exact (carries_item g item s ts t Hi It).
  Qed.

  (** C52, exact part: in a grammar without nullable nonterminals the result is exactly LR(1) closure. *)
  Theorem C52_exact_partial (lay : layout NT) (g : Grammar T NT AK AV) keep_last
    (items : list (ProdState T NT AK AV * btset T)) m :
    built g -> lay_inj g lay -> Forall (item_of g) items ->
    let item := fun s ts => In (s, ts) items in
    one_per_prod item -> no_collision g item -> (forall s ts, item s ts -> ts <> []) ->
    (forall A, ~ derives_empty g A) ->
    runs_to (fun n => from_prod_lookahead lay g keep_last items n) (Ret (Ok m)) ->
    forall s t, (exists ts, In (s, ts) m /\ In t ts) <-> lr1 g item s t.
  Proof.
    intros B I F item U NC NE NF R s t. split.
    - intros (ts & Is & It). destruct (C52_sound_partial lay g keep_last items m B I F U NC NE R) as [S _].
      exact (proj2 (S s ts Is) t It).
    - intro L. destruct (from_prod_spec lay g B I keep_last items F) as (r & R' & S).
      pose proof (runs_to_fun _ _ _ R R') as E. subst r. destruct S as (_ & _ & K & V & _).
      assert (Q : forall s ts, kept keep_last items s ts <-> item s ts)
        by (intros s' ts; apply (kept_all lay g B I keep_last items s' ts F U)).
      destruct (closure_ext g _ _ (fun s ts => iff_sym (Q s ts))) as (Y1 & Y2 & _).
      assert (DI : forall p, In p (prods g) ->
        (exists s ts, item s ts /\ ps_prod s = p) \/ (forall s ts, item s ts -> ps_prod s <> p)).
      { intros p Ip. rewrite Forall_forall in F.
        assert (X : forall l, incl l items -> (exists s ts, In (s, ts) l /\ ps_prod s = p) \/
          (forall s ts, In (s, ts) l -> ps_prod s <> p)).
        { induction l as [|[s1 ts1] l IH]; intro Sub; [right; intros s1 ts1 []|].
          destruct IH as [(s2 & ts2 & I2 & E2)|N]; [intros x X; apply Sub; right; exact X | left; exists s2, ts2; simpl; auto|].
          pose proof (cmp_eq_prod lay g B I s1 (from_start p) (proj1 (F _ (Sub _ (or_introl eq_refl)))) Ip) as C.
          simpl in C. destruct (@cmp _ (Ord_ProdState lay) s1 (from_start p)).
          - left. exists s1, ts1. split; [left; reflexivity | apply C; reflexivity].
          - right. intros s2 ts2 [[= -> ->]|I2]; [intro Z; apply C in Z; discriminate | exact (N s2 ts2 I2)].
          - right. intros s2 ts2 [[= -> ->]|I2]; [intro Z; apply C in Z; discriminate | exact (N s2 ts2 I2)]. }
        exact (X items (incl_refl _)). }
      destruct (closure_complete g item NC DI NF s t L) as [P C].
      apply Y2, K in P. destruct P as (ts & Is). exists ts. split; [exact Is|]. apply (V s ts Is). apply Y1. exact C.
  Qed.

  (** C73. [shift_actions] on any parse state the API can produce: it ends; otherwise than by the two
      failures of C72 it returns a map whose keys are exactly the terminals at a dot of the state, and
      each value is the closure (C72) of the items at that terminal, moved over it. *)
  Theorem C73_shift_actions (lay : layout NT) (g : Grammar T NT AK AV) keep_last (m : ParseState T NT AK AV) :
    built g -> lay_inj g lay -> lalr_state lay g keep_last m ->
    exists r, runs_to (fun n => shift_actions lay g keep_last m n) r /\
      match r with
      | Ret (Err e) => e = FNullableError Ambiguity /\ null_ambiguous g /\
          exists s ts t rest, In (s, ts) m /\ todo s = Term t :: rest
      | Ret (Ok acts) =>
          StronglySorted (fun a b => cmp a b = Lt) (map fst acts) /\
          (forall t, (exists st, In (t, st) acts) <-> exists s ts rest, In (s, ts) m /\ todo s = Term t :: rest) /\
          (forall t st, In (t, st) acts ->
             (forall s, (exists ts, In (s, ts) st) <-> present g (moved m t) s) /\
             (forall s ts, In (s, ts) st -> forall u, In u ts <-> carries g (moved m t) (ps_prod s) u) /\
             (forall s, present g (moved m t) s -> ~ undefined g s))
      | Panic _ => ~ null_ambiguous g /\ exists t s, present g (moved m t) s /\ undefined g s
      | NoFuel => False
      end.
  Proof.
    intros B I L. pose proof (lalr_state_ok lay g B I keep_last m L) as O.
    destruct (shift_spec lay g B I keep_last m O) as (r & R & S). exists r. split; [exact R|].
    destruct r as [[acts|e]|msg|]; [|exact S|exact S|exact S]. destruct S as (Ms & V & K).
    split; [exact Ms|]. split.
    - intro t. rewrite <- K. unfold bt_keys. rewrite in_map_iff. split.
      + intros (st & Is). exists (t, st). auto.
      + intros ([t' st] & <- & Is). exists st. exact Is.
    - intros t st Is. destruct (V t st Is) as (_ & _ & A1 & A2 & A3). auto.
  Qed.

  (** C73. [reducable_actions]: the action keys of exactly the complete states, one for each. *)
  Theorem C73_reducable_actions (lay : layout NT) (g : Grammar T NT AK AV) keep_last (m : ParseState T NT AK AV) :
    built g -> lay_inj g lay -> lalr_state lay g keep_last m ->
    exists l, reducable_actions m = map (fun s => action_key (ps_prod s)) l /\
      NoDup l /\ forall s, In s l <-> (exists ts, In (s, ts) m) /\ todo s = [].
  Proof.
    intros B I L. destruct (reduce_spec lay g m (lalr_state_ok lay g B I keep_last m L)) as (l & E & S & Q).
    exists l. split; [exact E|]. split; [|exact Q]. apply (@sorted_NoDup _ _ (TotalPre_PS lay)). exact S.
  Qed.
End S.

(** ** Examples *)
(** F -> ( . E ) with lookahead [plus], in the expression grammar. *)
Definition lk_paren : list (ProdState nat nat nat nat * list nat) :=
  [(Build_ProdState (Build_Prod 1 1 (Build_ProdInner 13 0 [Build_ProdElement None (Term 2);
      Build_ProdElement (Some "e"%string) (NonTerm 0); Build_ProdElement None (Term 3)])) 1, [1])].
(** E -> . E + F with lookahead 5. *)
Definition lk_sum : list (ProdState nat nat nat nat * list nat) :=
  [(Build_ProdState (Build_Prod 0 0 (Build_ProdInner 10 0 [Build_ProdElement (Some "l"%string) (NonTerm 0);
      Build_ProdElement None (Term 1); Build_ProdElement (Some "r"%string) (NonTerm 1)])) 0, [5])].
(** 0 -> . 1 2 x with lookahead 5, with 2 nullable. *)
Definition lk_follow : list (ProdState nat nat nat nat * list nat) :=
  [(Build_ProdState (Build_Prod 0 0 (Build_ProdInner 10 0 [Build_ProdElement None (NonTerm 1);
      Build_ProdElement None (NonTerm 2); Build_ProdElement None (Term 7)])) 0, [5])].
(** 0 -> . 1 2 with lookahead 5, where 2 only derives the empty word. *)
Definition lk_panic : list (ProdState nat nat nat nat * list nat) :=
  [(Build_ProdState (Build_Prod 0 0 (Build_ProdInner 10 0 [Build_ProdElement None (NonTerm 1);
      Build_ProdElement None (NonTerm 2)])) 0, [5])].

Ltac item_tac := apply Forall_cons; [split; [simpl; tauto | split; [apply position_all; simpl; lia | repeat constructor]] | apply Forall_nil].
Definition ok_of {A E} (d : A) (r : outcome (result A E)) : A := match r with Ret (Ok m) => m | _ => d end.
Ltac from_vm n := apply (runs_to_mono _ n); [apply from_prod_mono | vm_compute; reflexivity | discriminate].

(** C52 as stated is false, in three ways.  The start of a production is lost when the same production
    is an item in progress: F -> ( . E ) in the expression grammar. *)
Theorem C52_collision_refuted keep_last : exists m s t,
  built ex_expr_g /\ in_memory ex_expr_g ex_lay /\ Forall (item_of ex_expr_g) lk_paren /\
  runs_to (fun n => from_prod_lookahead ex_lay ex_expr_g keep_last lk_paren n) (Ret (Ok m)) /\
  lr1 ex_expr_g (fun s ts => In (s, ts) lk_paren) s t /\ ~ exists ts, In (s, ts) m.
Proof.
  exists (ok_of [] (from_prod_lookahead ex_lay ex_expr_g false lk_paren 10)).
  exists (from_start (Build_Prod 1 1 (Build_ProdInner 13 0 [Build_ProdElement None (Term 2);
      Build_ProdElement (Some "e"%string) (NonTerm 0); Build_ProdElement None (Term 3)]))), 3.
  split; [exact built_expr|]. split; [apply ex_lay_mem; vm_compute; reflexivity|]. split; [item_tac|].
  split; [destruct keep_last; from_vm 10|]. split.
  - eapply lr1_step with (B := 1) (t := 3) (rest := []) (more := [])
      (s := from_start (Build_Prod 0 1 (Build_ProdInner 11 0 [Build_ProdElement (Some "f"%string) (NonTerm 1)]))).
    + eapply lr1_step with (B := 0) (t := 1) (rest := [Term 3]) (more := [Term 1]).
      * apply (lr1_item _ _ _ [1]); [left; reflexivity | left; reflexivity].
      * reflexivity.
      * simpl. tauto.
      * reflexivity.
      * apply df_refl.
    + reflexivity.
    + simpl. tauto.
    + reflexivity.
    + apply df_refl.
  - intros (ts & X). vm_compute in X. repeat (destruct X as [X|X]; [discriminate X|]). exact X.
Qed.

(** Nullable symbols after the nonterminal are not skipped. *)
Theorem C52_nullable_refuted keep_last : exists m s t ts,
  built ex_follow_g /\ in_memory ex_follow_g ex_lay /\ Forall (item_of ex_follow_g) lk_follow /\
  runs_to (fun n => from_prod_lookahead ex_lay ex_follow_g keep_last lk_follow n) (Ret (Ok m)) /\
  lr1 ex_follow_g (fun s ts => In (s, ts) lk_follow) s t /\ In (s, ts) m /\ ~ In t ts.
Proof.
  exists (ok_of [] (from_prod_lookahead ex_lay ex_follow_g false lk_follow 10)).
  exists (from_start (Build_Prod 1 0 (Build_ProdInner 11 0 [Build_ProdElement None (Term 8)]))), 7, [9].
  split; [exact built_follow|]. split; [apply ex_lay_mem; vm_compute; reflexivity|]. split; [item_tac|].
  split; [destruct keep_last; from_vm 10|]. split; [|split].
  - eapply lr1_step with (B := 1) (t := 5) (rest := [NonTerm 2; Term 7]) (more := [Term 5]).
    + apply (lr1_item _ _ _ [5]); [left; reflexivity | left; reflexivity].
    + reflexivity.
    + simpl. tauto.
    + reflexivity.
    + apply df_step. apply (sstep_intro _ [] 2 [] [Term 7; Term 5]).
      exists (Build_ProdInner 12 0 []). split; [|reflexivity].
      eexists. split; [simpl; right; right; left; reflexivity | simpl; auto].
  - vm_compute. auto.
  - simpl. lia.
Qed.

(** A nonterminal that only derives the empty word, right after the nonterminal at the dot: panic. *)
Theorem C52_panic_refuted keep_last : exists msg,
  built ex_follow_panic_g /\ in_memory ex_follow_panic_g ex_lay /\ Forall (item_of ex_follow_panic_g) lk_panic /\
  runs_to (fun n => from_prod_lookahead ex_lay ex_follow_panic_g keep_last lk_panic n) (Panic msg).
Proof.
  exists "called `Option::unwrap()` on a `None` value"%string. split; [exact built_follow_panic|]. split; [apply ex_lay_mem; vm_compute; reflexivity|]. split; [item_tac|]. destruct keep_last; from_vm 10.
Qed.

(** E -> E + . F with lookahead 5 meets all the hypotheses of [C52_exact_partial], and the closure has
    three states. *)
Definition lk_f : list (ProdState nat nat nat nat * list nat) :=
  [(Build_ProdState (Build_Prod 0 0 (Build_ProdInner 10 0 [Build_ProdElement (Some "l"%string) (NonTerm 0);
      Build_ProdElement None (Term 1); Build_ProdElement (Some "r"%string) (NonTerm 1)])) 2, [5])].
Example C52_example :
  built ex_expr_g /\ lay_inj ex_expr_g ex_lay /\ Forall (item_of ex_expr_g) lk_f /\
  one_per_prod (fun s ts => In (s, ts) lk_f) /\ no_collision ex_expr_g (fun s ts => In (s, ts) lk_f) /\
  (forall s ts, In (s, ts) lk_f -> ts <> []) /\ (forall A, ~ derives_empty ex_expr_g A) /\
  exists m, (forall keep_last, runs_to (fun n => from_prod_lookahead ex_lay ex_expr_g keep_last lk_f n) (Ret (Ok m))) /\
    length m = 3 /\ Forall (fun x => snd x = [5]) m.
Proof.
  split; [exact built_expr|]. split; [apply ex_lay_inj; vm_compute; reflexivity|]. split; [item_tac|]. split; [|split; [|split; [|split]]].
  - intros s ts s' ts' [[= <- <-]|[]] [[= <- <-]|[]] _. auto.
  - intros s ts [[= <- <-]|[]] _ t L. cbn [ps_prod] in L.
    assert (X : forall s t, lr1 ex_expr_g (fun s ts => In (s, ts) lk_f) s t ->
      ps_index s = 2 \/ (ps_index s = 0 /\ In (ps_prod s) (prods ex_expr_g) /\ p_head (ps_prod s) = 1)).
    { clear. induction 1 as [s ts t [[= <- <-]|[]] It|s t B rest p b more L IH Td Ip Hp D]; [left; reflexivity|].
      right. split; [reflexivity|]. split; [exact Ip|]. cbn [ps_prod]. rewrite Hp. clear p b more Ip Hp D.
      destruct IH as [E|(E & Ip & Hp)].
      - inversion L as [? ? ? Ii _|]; subst; [|discriminate E]. destruct Ii as [[= <- <-]|[]]. cbv in Td. congruence.
      - destruct s as [p i]. simpl in *. subst i.
        destruct Ip as [<-|[<-|[<-|[<-|[]]]]]; simpl in Hp; try discriminate; discriminate Td. }
    apply X in L. destruct L as [L|(_ & _ & L)]; discriminate L.
  - intros s ts [[= <- <-]|[]]. discriminate.
  - exact ex_expr_nullfree.
  - exists (ok_of [] (from_prod_lookahead ex_lay ex_expr_g false lk_f 10)). split.
    + intros []; from_vm 10.
    + split; [reflexivity|]. repeat constructor.
Qed.

(** Shifting that state over [id] and then reducing. *)
Example C73_example keep_last :
  let m := ok_of [] (from_prod_lookahead ex_lay ex_expr_g false lk_f 10) in
  let acts := ok_of [] (shift_actions ex_lay ex_expr_g false m 10) in
  lalr_state ex_lay ex_expr_g keep_last m /\
  runs_to (fun n => shift_actions ex_lay ex_expr_g keep_last m n) (Ret (Ok acts)) /\
  map fst acts = [0; 2] /\ map (fun x => reducable_actions (snd x)) acts = [[12]; []].
Proof.
  cbv zeta. split; [|split; [|split]].
  - apply (ls_items _ _ _ lk_f); [item_tac|]. destruct keep_last; from_vm 10.
  - apply (runs_to_mono _ 10); [apply shift_mono | destruct keep_last; vm_compute; reflexivity | discriminate].
  - vm_compute. reflexivity.
  - vm_compute. reflexivity.
Qed.

Print Assumptions C72_from_prod_lookahead.
Print Assumptions C52_sound_partial.
Print Assumptions C52_exact_partial.
Print Assumptions C73_shift_actions.
Print Assumptions C73_reducable_actions.
Print Assumptions C52_collision_refuted.
Print Assumptions C52_nullable_refuted.
Print Assumptions C52_panic_refuted.
