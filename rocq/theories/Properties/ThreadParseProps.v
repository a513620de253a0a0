(** C101: several threads parse into one tree at the same time (src/parsers/earley.rs, src/parsers/tree.rs). *)
From Coq Require Import String List Arith Bool Lia.
From Verif.Model Require Import Ord BTree Outcome Utils Grammar StartGrammar Tokens Tree State Earley EarleyShared RwLock.
From Verif.Spec Require Import Reach TreeSpec RwLockSpec EarleySpec ShareSpec ThreadParseSpec Examples.
From Verif.Proofs Require Import OrdFacts BTreeFacts LoopFacts GrammarFacts TreeFacts TreeHist EarleyRun EarleyMore EarleyShare
  RwLockSafe RwLockInv RwLockStuck ParseThreads.
From Verif.Properties Require Import EarleyProps ShareProps RwLockProps.
Import ListNotations.

Section Props.
  Context {T NT AK AV V : Type} `{OrdEq T} `{OrdEq NT} `{OrdEq AK} `{OrdEq V}.
  Local Notation cfg := (config T AK V).
  Local Notation lst := (list (lin_event T AK V)).
  Implicit Types (w : list (Token T V)) (t : Inner T AK V) (lay : layout (StartNonTerminal NT)) (sg : StartGrammar T NT AK AV).

  Lemma running_can_call wp allowed (c : cfg) : reachable wp allowed c -> forall j o p, c_thread c j = Running o p -> can_call (returned (c_trace c)) o.
  Proof.
    intro R. induction R as [|c1 c2 R IH St]; intros j o p Er; [discriminate|].
    assert (Up : forall e tr (o0 : tr_op T AK V), can_call (returned tr) o0 -> can_call (returned (e :: tr)) o0).
    { intros e tr o0. apply can_call_incl. intros x X. unfold returned. cbn [flat_map]. apply in_or_app. right. exact X. }
    destruct St as [i o1 c Et K Al|c c' I].
    - cbn [c_thread c_trace] in *. apply Up. destruct (Nat.eq_dec j i) as [->|N]; [rewrite upd_same in Er; injection Er as <- _; exact K|rewrite upd_other in Er by exact N; exact (IH _ _ _ Er)].
    - destruct I as [i c c' Ts|i o1 r c Et].
      + unfold thread_step in Ts. destruct (c_thread c i) as [|o1 p1] eqn:Et; [discriminate|].
        assert (X : forall p' wl ls, c_thread {| c_world := wl; c_lock := ls; c_thread := RwLock.upd (c_thread c) i (Running o1 p'); c_trace := c_trace c |} j = Running o p -> can_call (returned (c_trace c)) o).
        { intros p' wl ls. cbn [c_thread]. destruct (Nat.eq_dec j i) as [->|N]; [rewrite upd_same; intros [= <- _]; exact (IH _ _ _ Et)|rewrite upd_other by exact N; apply IH]. }
        destruct p1; cbv zeta in Ts; try discriminate;
          repeat match type of Ts with context [if ?b then _ else _] => destruct b | context [match nth_error ?l ?n with _ => _ end] => destruct (nth_error l n) end;
          try discriminate; injection Ts as <-; cbn [c_trace]; eapply X; exact Er.
      + cbn [c_thread c_trace] in *. apply Up. destruct (Nat.eq_dec j i) as [->|N]; [rewrite upd_same in Er; discriminate|rewrite upd_other in Er by exact N; exact (IH _ _ _ Er)].
  Qed.

  (** The execution from [c1] to [c], with the effects. *)
  Record span (c1 c : cfg) (tr : list (call_event T AK V)) (E L1 : lst) : Prop := {
    sp_ok : okL (E ++ L1);
    sp_run : run (effects (E ++ L1)) (c_world c);
    sp_run1 : run (effects L1) (c_world c1);
    sp_erase : erase E = tr;
    sp_idle1 : forall j, c_thread c1 j = Idle -> cur j L1 = None;
    sp_idle : forall j, c_thread c j = Idle -> cur j (E ++ L1) = None;
    sp_pend : forall j o d, cur j L1 = Some (o, d) -> can_call (effects L1) o;
    sp_tree : forall h, known_tree (returned (c_trace c1)) h -> exists t, nth_error (c_world c1) h = Some t
  }.
  Lemma span_exists wp (c1 c : cfg) tr : reachable wp any_call c1 -> steps wp any_call c1 c -> c_trace c = tr ++ c_trace c1 -> exists E L1, span c1 c tr E L1.
  Proof.
    intros R S Et. destruct (reachable_good wp any_call c1 R) as (L1 & st1 & hs1 & G1). destruct (steps_good wp any_call c1 c L1 st1 hs1 G1 S) as (E & st & hs & G).
    exists E, L1. destruct G as [Gl Ge Gr Gk Gi Gu _ _]. destruct G1 as [Gl1 Ge1 Gr1 Gk1 Gi1 Gu1 _ _]. constructor.
    - exists st. exact Gl.
    - exact Gr.
    - exact Gr1.
    - unfold erase in Ge. rewrite flat_map_app in Ge. fold (erase E) in Ge. fold (erase L1) in Ge. rewrite Ge1, Et in Ge. exact (app_inv_tail _ _ _ Ge).
    - intros j Ij. rewrite <- (lin_cur _ _ Gl1 j). exact (proj1 (Gi1 j Ij)).
    - intros j Ij. rewrite <- (lin_cur _ _ Gl j). exact (proj1 (Gi j Ij)).
    - intros j o d Cj. rewrite <- (lin_cur _ _ Gl1 j) in Cj. destruct (c_thread c1 j) as [|o1 p] eqn:Ej.
      + rewrite (proj1 (Gi1 j Ej)) in Cj. discriminate.
      + destruct (Gu1 j o1 p Ej) as (d1 & Es & _). rewrite Es in Cj. injection Cj as <- <-. eapply known_ret_call; [exact Gk1|]. exact (running_can_call wp any_call c1 R j o1 p Ej).
    - intros h Kt. pose proof (known_ret_tree _ _ _ Gk1 Kt) as K. pose proof (hi_tree _ _ (run_inv _ _ Gr1) h K) as Lh.
      destruct (nth_error (c_world c1) h) eqn:En; [eauto|]. apply nth_error_None in En. lia.
  Qed.

  (** C101.  Thread [i] parses into the tree [h] from [c1] to [c]: its calls meanwhile are those of a parse.  The other
      threads do whatever they like except adding to nodes made by [i].  Then the parse returned what it returns alone, on any
      other tree: "no parse", or a root whose forest in the shared tree is the same up to the numbers of nodes and alternatives. *)
  Theorem C101_parse_among_threads wp (c1 c : cfg) tr i h lay sg w o t0 :
    reachable wp any_call c1 -> steps wp any_call c1 c -> c_trace c = tr ++ c_trace c1 ->
    c_thread c1 i = Idle -> c_thread c i = Idle -> known_tree (returned (c_trace c1)) h ->
    parse_log lay sg w h (calls_of i tr) o ->
    (forall j n, j <> i -> adds_to j tr n -> ~ node_of i tr n) -> api_tree t0 ->
    exists o0 t th, runs_to (fun fuel => parse lay sg w t0 fuel) (Ret (o0, t)) /\ nth_error (c_world c) h = Some th /\
      match o0, o with
      | Some m0, Some m => exists R, same_forest R t th /\ R m0 m
      | None, None => True
      | _, _ => False
      end.
  Proof.
    intros R S Et I1 If Kt (fuel & Pl) Ad At. destruct (span_exists wp c1 c tr R S Et) as (E & L1 & Sp). destruct (sp_tree _ _ _ _ _ Sp h Kt) as (t1 & E1).
    pose proof (sp_erase _ _ _ _ _ Sp) as Er. subst tr.
    assert (Ad' : forall j n, j <> i -> nd_inner n = h -> adds_to j (erase E) n -> ~ node_of i (erase E) n) by (intros j n Nj _; exact (Ad j n Nj)).
    pose proof (view_sim i h E L1 (c_world c) (sp_ok _ _ _ _ _ Sp) (sp_run _ _ _ _ _ Sp) (sp_idle1 _ _ _ _ _ Sp i I1) (sp_pend _ _ _ _ _ Sp) Ad' lay sg w fuel _ t1 t0 (sp_run1 _ _ _ _ _ Sp) E1 (api_tree_inv _ At)) as X.
    rewrite log_erase, Pl in X. destruct (parse lay sg w t0 fuel) as [[o0 t]|?|] eqn:Ep; simpl in X; try contradiction. destruct X as (W & Aw & O). cbn [fst snd] in *.
    destruct (AT_end i h E L1 (c_world c) (sp_ok _ _ _ _ _ Sp) (sp_run _ _ _ _ _ Sp) (sp_idle1 _ _ _ _ _ Sp i I1) (sp_idle _ _ _ _ _ Sp i If) (sp_pend _ _ _ _ _ Sp) Ad' W t Aw) as (th & Eh & Sr).
    exists o0, t, th. split; [|split; [exact Eh|]].
    - apply (runs_to_mono _ fuel _ (parse_mono _ _ _ _)); [exact Ep|discriminate].
    - destruct o as [m|], o0 as [m0|]; try contradiction; [|exact Logic.I].
      exists (fun n n' => In (n', n) W). split; [|exact O]. pose proof (SR_forest _ _ _ Sr) as [Sf Si Sa]. constructor.
      + intros n x y X Y. exact (Si _ _ _ X Y).
      + intros n x y X Y. exact (Sf _ _ _ X Y).
      + intros n n' X. destruct (Sa _ _ X) as (s & s' & G & G' & U & U'). exists s', s. auto.
  Qed.

  (** A panic of the parser is the one it has alone. *)
  Theorem C101_panic_among_threads wp (c1 c : cfg) tr i h lay sg w e t0 :
    reachable wp any_call c1 -> steps wp any_call c1 c -> c_trace c = tr ++ c_trace c1 ->
    c_thread c1 i = Idle -> known_tree (returned (c_trace c1)) h ->
    panic_log lay sg w h (calls_of i tr) e ->
    (forall j n, j <> i -> adds_to j tr n -> ~ node_of i tr n) -> api_tree t0 ->
    runs_to (fun fuel => parse lay sg w t0 fuel) (Panic e).
  Proof.
    intros R S Et I1 Kt (fuel & Pl) Ad At. destruct (span_exists wp c1 c tr R S Et) as (E & L1 & Sp). destruct (sp_tree _ _ _ _ _ Sp h Kt) as (t1 & E1).
    pose proof (sp_erase _ _ _ _ _ Sp) as Er. subst tr.
    assert (Ad' : forall j n, j <> i -> nd_inner n = h -> adds_to j (erase E) n -> ~ node_of i (erase E) n) by (intros j n Nj _; exact (Ad j n Nj)).
    pose proof (view_sim i h E L1 (c_world c) (sp_ok _ _ _ _ _ Sp) (sp_run _ _ _ _ _ Sp) (sp_idle1 _ _ _ _ _ Sp i I1) (sp_pend _ _ _ _ _ Sp) Ad' lay sg w fuel _ t1 t0 (sp_run1 _ _ _ _ _ Sp) E1 (api_tree_inv _ At)) as X.
    rewrite log_erase, Pl in X. destruct (parse lay sg w t0 fuel) as [[o0 t]|?|] eqn:Ep; simpl in X; try contradiction. subst.
    apply (runs_to_mono _ fuel _ (parse_mono _ _ _ _)); [exact Ep|discriminate].
  Qed.

  (** *** What a parser adds to *)
  Local Notation log := (list (tr_op T AK V * outcome (tr_val T AK V))).
  Definition returns_node (l : log) (n : Node) : Prop := exists o, In (o, Ret (RNode n)) l.
  Definition own_targets (l : log) : Prop := forall o r, In (o, r) l ->
    match o with TAddAll n _ => returns_node l n | TAddAlt _ _ => False | _ => True end.
  Definition LOG (l0 : log) (h : TreeHandle) (W : list (nat * nat)) (s s' : log) : Prop :=
    s = s' /\ exists d, l0 = d ++ s /\ own_targets d /\ forall n n', rel W n n' -> n = n' /\ returns_node d {| nd_index := n; nd_inner := h |}.
  Lemma returns_more (d : log) e n : returns_node d n -> returns_node (d ++ [e]) n.
  Proof. intros (o & X). exists o. apply in_or_app. left. exact X. Qed.
  Lemma own_more (d : log) o r : own_targets d -> match o with TAddAll n _ => returns_node d n | TAddAlt _ _ => False | _ => True end -> own_targets (d ++ [(o, r)]).
  Proof.
    intros O X o' r' J. apply in_app_or in J. destruct J as [J|[[= <- <-]|[]]].
    - specialize (O o' r' J). destruct o'; auto using returns_more.
    - destruct o; auto using returns_more.
  Qed.
  Lemma log_targets lay sg w h (l0 : log) o fuel : gparse (logged h) lay sg w l0 fuel = Ret (o, []) -> own_targets l0.
  Proof.
    intro P. pose proof (parse_sim false (logged h) (logged h) lay sg (LOG l0 h)) as X.
    assert (Mk : forall W (e : tr_op T AK V) n s d, l0 = d ++ (e, Ret (RNode n)) :: s -> own_targets d -> nd_inner n = h ->
      match e with TAddAll _ _ | TAddAlt _ _ => False | _ => True end ->
      (forall n n', rel W n n' -> n = n' /\ returns_node d {| nd_index := n; nd_inner := h |}) ->
      LOG l0 h ((nd_index n, nd_index n) :: W) s s).
    { intros W e n s d El Od Hn Te Rw. split; [reflexivity|]. exists (d ++ [(e, Ret (RNode n))]). split; [rewrite <- app_assoc; exact El|]. split.
      - apply own_more; [exact Od|]. destruct e; solve [contradiction|exact Logic.I].
      - intros x y [[= <- <-]|Y]; [split; [reflexivity|]; exists e; apply in_or_app; right; left; rewrite <- Hn; destruct n; reflexivity|]. destruct (Rw x y Y) as [-> Z]. split; [reflexivity|]. apply returns_more. exact Z. }
    assert (Y : osim (later (LOG l0 h) [] (fun W o o' => match o, o' with Some n, Some n' => rel W n n' | None, None => True | _, _ => False end))
      (gparse (logged h) lay sg w l0 fuel) (gparse (logged h) lay sg w l0 fuel)).
    { apply X.
      - intros W k v s s' (<- & d & El & Od & Rw). cbn [logged op_leaf]. destruct s as [|[e r] s]; [exact Logic.I|]. destruct e; try exact Logic.I. destruct r as [x|?|]; try exact Logic.I. destruct x; try exact Logic.I.
        destruct (_ && _ && _ && _) eqn:B; [|exact Logic.I]. apply andb_prop in B. destruct B as [_ B]. apply Nat.eqb_eq in B. simpl. eapply Mk; eauto; exact Logic.I.
      - intros W x ns ns' s s' (<- & d & El & Od & Rw) F. cbn [logged op_branch].
        assert (ns' = ns) as ->. { clear -F Rw. induction F as [|a b l l' Y F IH]; [reflexivity|]. destruct (Rw a b Y) as [-> _]. f_equal. exact IH. }
        destruct s as [|[e r] s]; [exact Logic.I|]. destruct e; try exact Logic.I. destruct r as [y|?|]; try exact Logic.I. destruct y; try exact Logic.I.
        destruct (_ && _ && _ && _) eqn:B; [|exact Logic.I]. apply andb_prop in B. destruct B as [_ B]. apply Nat.eqb_eq in B. simpl. eapply Mk; eauto; exact Logic.I.
      - intros W n m n' m' s s' (<- & d & El & Od & Rw) Rn Rm. destruct (Rw _ _ Rn) as [<- Zn]. destruct (Rw _ _ Rm) as [<- Zm]. cbn [logged op_add_all].
        destruct s as [|[e r] s]; [exact Logic.I|]. destruct e; try exact Logic.I. destruct r as [y|?|]; try exact Logic.I. destruct y; try exact Logic.I.
        destruct (node_is h n n0 && node_is h m other) eqn:B; [|exact Logic.I]. simpl. split; [reflexivity|]. split; [reflexivity|].
        exists (d ++ [(TAddAll n0 other, Ret (RChanged c))]). split; [rewrite <- app_assoc; exact El|]. apply andb_prop in B. destruct B as [B _]. unfold node_is in B. apply andb_prop in B. destruct B as [B1 B2]. apply Nat.eqb_eq in B1, B2. split.
        + apply own_more; [exact Od|]. subst. destruct n0; exact Zn.
        + intros x y Y. destruct (Rw x y Y) as [-> Z]. split; [reflexivity|]. apply returns_more. exact Z.
      - split; [reflexivity|]. exists []. split; [reflexivity|]. split; [intros ? ? []|intros n n' []]. }
    rewrite P in Y. simpl in Y. destruct Y as (W & _ & (_ & d & El & Od & _) & _). cbn [snd] in El. rewrite app_nil_r in El. subst d. exact Od.
  Qed.

  (** C101.  Any number of threads parse at the same time, each with its own grammar and input, into one tree or into several,
      while further threads do whatever they like except adding to the nodes the parsers have made.  Every one of them gets
      what it gets alone. *)
  Theorem C101_parsers wp (c1 c : cfg) tr (parsers : list nat) (h : nat -> TreeHandle) (lay : nat -> layout (StartNonTerminal NT))
    (sg : nat -> StartGrammar T NT AK AV) (w : nat -> list (Token T V)) (o : nat -> option nat) t0 :
    reachable wp any_call c1 -> steps wp any_call c1 c -> c_trace c = tr ++ c_trace c1 ->
    (forall i, In i parsers -> c_thread c1 i = Idle /\ c_thread c i = Idle /\ known_tree (returned (c_trace c1)) (h i) /\
                           parse_log (lay i) (sg i) (w i) (h i) (calls_of i tr) (o i)) ->
    (forall i j n, In i parsers -> ~ In j parsers -> adds_to j tr n -> ~ node_of i tr n) -> api_tree t0 ->
    forall i, In i parsers -> exists o0 t th, runs_to (fun fuel => parse (lay i) (sg i) (w i) t0 fuel) (Ret (o0, t)) /\ nth_error (c_world c) (h i) = Some th /\
      match o0, o i with
      | Some m0, Some m => exists R, same_forest R t th /\ R m0 m /\ forall d, EarleySpec.reads t m0 d <-> EarleySpec.reads th m d
      | None, None => True
      | _, _ => False
      end.
  Proof.
    intros R S Et Ps Oth At i Pi. destruct (Ps i Pi) as (I1 & If & Kt & Pl).
    destruct (C101_parse_among_threads wp c1 c tr i (h i) (lay i) (sg i) (w i) (o i) t0 R S Et I1 If Kt Pl) as (o0 & t & th & Rt & Eh & M).
    - intros j n Nj Aj. destruct (in_dec Nat.eq_dec j parsers) as [Pj|Nj']; [|exact (Oth i j n Pi Nj' Aj)].
      destruct (Ps j Pj) as (J1 & Jf & _ & (fj & Plj)). pose proof (log_targets _ _ _ _ _ _ _ Plj) as Own.
      destruct (span_exists wp c1 c tr R S Et) as (E & L1 & Sp). pose proof (sp_erase _ _ _ _ _ Sp) as Er. subst tr.
      assert (Back : forall o1, In (ECall j o1) (erase E) -> exists r, In (o1, r) (calls_of j (erase E))).
      { intros o1 Jc. apply erase_call' in Jc. rewrite <- log_erase. destruct (returns_later j E L1 o1 (sp_ok _ _ _ _ _ Sp) (sp_idle _ _ _ _ _ Sp j Jf) Jc) as (r & X). eauto. }
      assert (Nd : node_of j (erase E) n).
      { destruct Aj as [(a & Jc)|(m & Jc)]; destruct (Back _ Jc) as (r & X); specialize (Own _ _ X); simpl in Own; [contradiction|].
        destruct Own as (o1 & Y). exists o1. apply erase_ret. apply log_In. rewrite log_erase. exact Y. }
      intro Ni. apply Nj. symmetry.
      pose proof (ret_made i E L1 _ n (sp_ok _ _ _ _ _ Sp) (sp_run _ _ _ _ _ Sp) (sp_idle1 _ _ _ _ _ Sp i I1) Ni) as Mi.
      pose proof (ret_made j E L1 _ n (sp_ok _ _ _ _ _ Sp) (sp_run _ _ _ _ _ Sp) (sp_idle1 _ _ _ _ _ Sp j J1) Nd) as Mj.
      eapply (made_once (E ++ L1) (c_world c)); [exact (sp_run _ _ _ _ _ Sp)|apply in_or_app; left; exact Mi|apply in_or_app; left; exact Mj].
    - exact At.
    - exists o0, t, th. split; [exact Rt|]. split; [exact Eh|]. destruct o0 as [m0|], (o i) as [m|]; try contradiction; [|exact Logic.I].
      destruct M as (Rl & Sf & X). exists Rl. split; [exact Sf|]. split; [exact X|]. intro d. exact (same_reads Rl t th m0 m d Sf X).
  Qed.
End Props.
Print Assumptions C101_parse_among_threads.
Print Assumptions C101_panic_among_threads.
Print Assumptions C101_parsers.

(** Non-vacuity: two threads parse into one tree, step by step in turns, each its own grammar and word. *)
Definition nodeb (a b : Node) : bool := Nat.eqb (nd_index a) (nd_index b) && Nat.eqb (nd_inner a) (nd_inner b).
Definition knownb (tr : history nat nat nat) (n : Node) : bool := existsb (fun e => match e with (_, Ret (RNode m)) => nodeb m n | _ => false end) tr.
Definition treeb (tr : history nat nat nat) (h : TreeHandle) : bool := existsb (fun e => match e with (TNewTree, Ret (RHandle h')) => Nat.eqb h' h | _ => false end) tr.
Definition can_callb (tr : history nat nat nat) (o : tr_op nat nat nat) : bool :=
  match o with
  | TMakeLeafNode h _ _ => treeb tr h
  | TMakeBranchNode h _ ns => treeb tr h && forallb (knownb tr) ns
  | TAddAll n m => knownb tr n && knownb tr m
  | _ => false
  end.
Lemma knownb_ok tr n : knownb tr n = true -> known_node tr n.
Proof.
  unfold knownb. rewrite existsb_exists. intros ([o [v|?|]] & I & E); try discriminate. destruct v as [| m | | | |]; try discriminate.
  left. exists o. unfold nodeb in E. apply andb_prop in E. destruct E as [E1 E2]. apply Nat.eqb_eq in E1, E2. destruct m, n; simpl in *; subst. exact I.
Qed.
Lemma treeb_ok tr h : treeb tr h = true -> known_tree tr h.
Proof.
  unfold treeb. rewrite existsb_exists. intros ([o [v|?|]] & I & E); destruct o; try discriminate. destruct v; try discriminate. apply Nat.eqb_eq in E. subst. exact I.
Qed.
Lemma can_callb_ok tr o : can_callb tr o = true -> can_call tr o.
Proof.
  destruct o; simpl; try discriminate; try apply treeb_ok.
  - rewrite andb_true_iff. intros [A B]. split; [apply treeb_ok; exact A|]. apply Forall_forall. intros n I. apply knownb_ok. rewrite forallb_forall in B. exact (B n I).
  - rewrite andb_true_iff. intros [A B]. split; apply knownb_ok; assumption.
Qed.

(** The first call that the log does not answer. *)
Definition ask (h : TreeHandle) : TreeOps nat nat nat (list (tr_op nat nat nat * outcome (tr_val nat nat nat)) * option (tr_op nat nat nat)) :=
  let nd n := {| nd_index := n; nd_inner := h |} in
  {| op_leaf := fun k v s => match s with ((_, Ret (RNode n)) :: l, None) => Ret (nd_index n, (l, None)) | ([], None) => Ret (0, ([], Some (TMakeLeafNode h k v))) | _ => Ret (0, s) end;
     op_branch := fun x ns s => match s with ((_, Ret (RNode n)) :: l, None) => Ret (nd_index n, (l, None)) | ([], None) => Ret (0, ([], Some (TMakeBranchNode h x (map nd ns)))) | _ => Ret (0, s) end;
     op_add_all := fun n m s => match s with ((_, Ret (RChanged c)) :: l, None) => Ret (c, (l, None)) | ([], None) => Ret (Unchanged, ([], Some (TAddAll (nd n) (nd m)))) | _ => Ret (Unchanged, s) end |}.
Definition ex_pg (i : nat) := ex_wrap (if Nat.eqb i 0 then ex_cyc_g else ex_bbc_g).
Definition ex_pw (i : nat) : list (Token nat nat) := map ex_tok (if Nat.eqb i 0 then [7] else [7; 7; 8]).
Definition next_call (i : nat) (tr : list (call_event nat nat nat)) : option (tr_op nat nat nat) :=
  match gparse (ask 0) ex_slay (ex_pg i) (ex_pw i) (calls_of i tr, None) 60 with Ret (_, (_, o)) => o | _ => None end.
Local Notation ncfg := (config nat nat nat).
Definition turn (i : nat) (l : ncfg * list (call_event nat nat nat)) : ncfg * list (call_event nat nat nat) :=
  let (c, tr) := l in
  match c_thread c i with
  | Idle => match next_call i tr with
            | Some o => if can_callb (returned (c_trace c)) o then (call i o c, ECall i o :: tr) else l
            | None => l
            end
  | Running o (Done r) =>
      ({| c_world := c_world c; c_lock := c_lock c; c_thread := RwLock.upd (c_thread c) i Idle; c_trace := ERet i o r :: c_trace c |}, ERet i o r :: tr)
  | _ => match thread_step false i c with Some c' => (c', tr) | None => l end
  end.
Definition turns (k : nat) := Nat.iter k (fun l => turn 1 (turn 0 l)) (ex1 false, []).
Lemma thread_step_trace wp i (c c' : ncfg) : thread_step wp i c = Some c' -> c_trace c' = c_trace c.
Proof.
  unfold thread_step. destruct (c_thread c i) as [|o p]; [discriminate|]. destruct p; cbv zeta; try discriminate;
    repeat match goal with |- context [if ?b then _ else _] => destruct b | |- context [match nth_error ?l ?n with _ => _ end] => destruct (nth_error l n) end;
    try discriminate; intros [= <-]; reflexivity.
Qed.
Lemma turn_ok i l c0 : steps false any_call c0 (fst l) /\ c_trace (fst l) = snd l ++ c_trace c0 ->
  steps false any_call c0 (fst (turn i l)) /\ c_trace (fst (turn i l)) = snd (turn i l) ++ c_trace c0.
Proof.
  destruct l as [c tr]. cbn [fst snd]. intros [S Et]. unfold turn. destruct (c_thread c i) as [|o p] eqn:Ei.
  - destruct (next_call i tr) as [o|]; [|exact (conj S Et)]. destruct (can_callb (returned (c_trace c)) o) eqn:K; [|exact (conj S Et)]. cbn [fst snd]. split.
    + apply call_steps; [exact S|exact Ei|exact (can_callb_ok _ _ K)|exact Logic.I].
    + cbn [call c_trace]. rewrite Et. reflexivity.
  - assert (X : steps false any_call c0 (fst (match thread_step false i c with Some c' => (c', tr) | None => (c, tr) end)) /\
      c_trace (fst (match thread_step false i c with Some c' => (c', tr) | None => (c, tr) end)) = snd (match thread_step false i c with Some c' => (c', tr) | None => (c, tr) end) ++ c_trace c0).
    { destruct (thread_step false i c) as [c'|] eqn:Ts; [|exact (conj S Et)]. cbn [fst snd]. split.
      - eapply steps_step; [exact S|]. apply st_inside. eapply in_run. exact Ts.
      - rewrite <- Et. exact (thread_step_trace _ _ _ _ Ts). }
    destruct p; try exact X. cbn [fst snd]. split.
    + eapply steps_step; [exact S|]. apply st_inside. apply in_ret. exact Ei.
    + cbn [c_trace]. rewrite Et. reflexivity.
Qed.
Lemma turns_ok k : steps false any_call (ex1 false) (fst (turns k)) /\ c_trace (fst (turns k)) = snd (turns k) ++ c_trace (ex1 false).
Proof. induction k as [|k IH]; [split; [apply steps_refl|reflexivity]|]. apply turn_ok, turn_ok, IH. Qed.

Definition ex_c : ncfg := fst (turns 1500).
Definition ex_tr := snd (turns 1500).
Example ex_two_parsers : reachable false any_call (ex1 false) /\ steps false any_call (ex1 false) ex_c /\ c_trace ex_c = ex_tr ++ c_trace (ex1 false) /\
  (forall i, In i [0; 1] -> c_thread (ex1 false) i = Idle /\ c_thread ex_c i = Idle /\ known_tree (returned (c_trace (ex1 false))) 0 /\
     parse_log ex_slay (ex_pg i) (ex_pw i) 0 (calls_of i ex_tr) (Some (if Nat.eqb i 0 then 2 else 25))) /\
  (forall i j n, In i [0; 1] -> ~ In j [0; 1] -> adds_to j ex_tr n -> ~ node_of i ex_tr n).
Proof.
  split; [apply ex1_reachable; exact Logic.I|]. split; [apply turns_ok|]. split; [apply turns_ok|]. split.
  - intros i [<-|[<-|[]]]; (split; [vm_compute; reflexivity|split; [vm_compute; reflexivity|split; [vm_compute; auto|exists 60; vm_compute; reflexivity]]]).
  - intros i j n _ Nj Aj _. assert (X : forallb (fun e : call_event nat nat nat => match e with ECall j _ => Nat.ltb j 2 | _ => true end) ex_tr = true) by (vm_compute; reflexivity).
    rewrite forallb_forall in X. assert (L : j < 2) by (destruct Aj as [(a & Y)|(m & Y)]; specialize (X _ Y); apply Nat.ltb_lt in X; exact X).
    apply Nj. destruct j as [|[|j]]; simpl; auto; lia.
Qed.
Example ex_two_parses t0 : api_tree t0 -> forall i, In i [0; 1] -> exists m0 t th R, runs_to (fun fuel => parse ex_slay (ex_pg i) (ex_pw i) t0 fuel) (Ret (Some m0, t)) /\
  nth_error (c_world ex_c) 0 = Some th /\ same_forest R t th /\ R m0 (if Nat.eqb i 0 then 2 else 25).
Proof.
  intros At i Ii. destruct ex_two_parsers as (A & B & C & D & E).
  destruct (C101_parsers false (ex1 false) ex_c ex_tr [0; 1] (fun _ => 0) (fun _ => ex_slay) ex_pg ex_pw (fun i => Some (if Nat.eqb i 0 then 2 else 25)) t0 A B C D E At i Ii)
    as ([m0|] & t & th & Rt & Eh & M); [|contradiction]. destruct M as (Rl & Sf & X & _). exists m0, t, th, Rl. auto.
Qed.

(** C54. C101 assumes that all calls return.  Where writers are preferred, two threads that have just begun to parse can stop each
    other for ever: each is in the first call of its parse. *)
Definition ex_stop : ncfg := run_acts true (repeat (Go 0) 10 ++ [Go 1])%list (call 1 (TMakeLeafNode 0 7 0) (call 0 (TMakeLeafNode 0 7 0) (ex1 true))).
Theorem C54_parsers_deadlock_refuted : exists (c : ncfg) (lay : layout (StartNonTerminal nat)) (sg0 sg1 : StartGrammar nat nat nat nat) w0 w1 h,
  reachable true any_call c /\ c_trace c = [ECall 1 (TMakeLeafNode h 7 0); ECall 0 (TMakeLeafNode h 7 0)] ++ c_trace (ex1 true) /\
  (exists r rest o, parse_log lay sg0 w0 h ((TMakeLeafNode h 7 0, r) :: rest) o) /\
  (exists r rest o, parse_log lay sg1 w1 h ((TMakeLeafNode h 7 0, r) :: rest) o) /\
  stuck_forever true c 0 /\ stuck_forever true c 1.
Proof.
  exists ex_stop, ex_slay, (ex_pg 0), (ex_pg 1), (ex_pw 0), (ex_pw 1), 0. split.
  { apply run_acts_steps, call_steps; [apply call_steps; [apply ex1_reachable; exact Logic.I|reflexivity|vm_compute; auto|exact Logic.I]|vm_compute; reflexivity|vm_compute; auto|exact Logic.I]. }
  split; [vm_compute; reflexivity|]. split; [|split].
  - destruct ex_two_parsers as (_ & _ & _ & D & _). destruct (D 0 (or_introl eq_refl)) as (_ & _ & _ & P).
    assert (X : exists r rest, calls_of 0 ex_tr = (TMakeLeafNode 0 7 0, r) :: rest) by (eexists _, _; vm_compute; reflexivity).
    destruct X as (r & rest & X). rewrite X in P. eauto.
  - destruct ex_two_parsers as (_ & _ & _ & D & _). destruct (D 1 (or_intror (or_introl eq_refl))) as (_ & _ & _ & P).
    assert (X : exists r rest, calls_of 1 ex_tr = (TMakeLeafNode 0 7 0, r) :: rest) by (eexists _, _; vm_compute; reflexivity).
    destruct X as (r & rest & X). rewrite X in P. eauto.
  - eapply (deadlocked_stuck 0 1 0). split; [vm_compute; reflexivity|]. split; [vm_compute; reflexivity|]. split; [vm_compute; left; reflexivity|vm_compute; left; reflexivity].
Qed.
Print Assumptions C54_parsers_deadlock_refuted.
