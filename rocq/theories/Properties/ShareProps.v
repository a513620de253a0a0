(** C86: parsing into a tree that other threads are using (src/parsers/earley.rs, src/parsers/tree.rs). *)
From Coq Require Import String List Arith Lia.
From Verif.Model Require Import Ord BTree Outcome Utils Grammar StartGrammar Tokens Tree State Earley EarleyShared.
From Verif.Spec Require Import Reach Cfg BuildSpec NullSpec TreeSpec EarleySpec Examples ShareSpec.
From Verif.Proofs Require Import OrdFacts BTreeFacts LoopFacts GrammarFacts StartFacts BuildMore CfgFacts TreeFacts TreeHist
  EarleyItems EarleyRun EarleyParse EarleyMain EarleyMore EarleyShare.
From Verif.Properties Require Import EarleyProps.
Import ListNotations.

Section Read.
  Context {T AK V : Type}.
  Implicit Types t : Inner T AK V.

  Fixpoint reads_same (R : nat -> nat -> Prop) t t' (Sm : forall n n', R n n' -> exists s s', get_node t n = Ret s /\ get_node t' n' = Ret s' /\ alts_in R t s t' s')
    n n' tr (X : R n n') (Rd : reads t n tr) {struct Rd} : reads t' n' tr
  with reads_all_same (R : nat -> nat -> Prop) t t' (Sm : forall n n', R n n' -> exists s s', get_node t n = Ret s /\ get_node t' n' = Ret s' /\ alts_in R t s t' s')
    ns ns' trs (X : Forall2 R ns ns') (Rd : reads_all t ns trs) {struct Rd} : reads_all t' ns' trs.
  Proof.
    - destruct Rd as [n s a k v G Ia Ga|n s a x ns cs G Ia Ga Rs].
      + destruct (Sm n n' X) as (s0 & s' & E & E' & A). assert (s0 = s) as -> by congruence.
        destruct (A a Ia) as (a' & c & c' & Ia' & Ec & Ec' & Sc). rewrite Ga in Ec. injection Ec as <-. inversion Sc; subst.
        exact (reads_leaf t' n' s' a' k v E' Ia' Ec').
      + destruct (Sm n n' X) as (s0 & s' & E & E' & A). assert (s0 = s) as -> by congruence.
        destruct (A a Ia) as (a' & c & c' & Ia' & Ec & Ec' & Sc). rewrite Ga in Ec. injection Ec as <-. inversion Sc; subst.
        refine (reads_branch t' n' s' a' x ns' cs E' Ia' Ec' _). apply (reads_all_same R t t' Sm ns ns' cs); assumption.
    - destruct Rd as [|n ns c cs R1 R2]; inversion X; subst; constructor.
      + eapply (reads_same R t t' Sm n); eassumption.
      + eapply (reads_all_same R t t' Sm ns); eassumption.
  Qed.
  Lemma same_reads R t t' n n' tr : same_forest R t t' -> R n n' -> (reads t n tr <-> reads t' n' tr).
  Proof.
    intros [_ _ A] X. split.
    - apply (reads_same R); [|exact X]. intros a b Y. destruct (A a b Y) as (s & s' & P & Q & U & _). eauto 6.
    - apply (reads_same (fun x y => R y x)); [|exact X]. intros a b Y. destruct (A b a Y) as (s & s' & P & Q & _ & U). eauto 6.
  Qed.
End Read.

Section Props.
  Context {T NT AK AV V : Type} `{OrdEq T} `{OrdEq NT} `{OrdEq AK} `{OrdEq V}.
  Variable sg : StartGrammar T NT AK AV.
  Variable lay : layout (StartNonTerminal NT).
  Implicit Types (w : list (Token T V)) (t : Inner T AK V).

  Lemma node_get t n : node_ok t n -> get_node t n = Ret (nalts t n).
  Proof. unfold node_ok, get_node, nalts. intro L. destruct (nth_error (in_nodes t) n) eqn:E; [reflexivity|]. apply nth_error_None in E. lia. Qed.
  Lemma alt_get t a c : acont t a = Some c -> get_alt t a = Ret c.
  Proof. unfold get_alt, acont. intros ->. reflexivity. Qed.
  Lemma SR_forest W t t' : SR W t t' -> same_forest (fun n n' => In (n, n') W) t t'.
  Proof.
    intro R. constructor; [exact (sr_fun _ _ _ R)|exact (sr_inj _ _ _ R)|]. intros n n' X. destruct (sr_ok _ _ _ R n n' X) as [O O'].
    exists (nalts t n), (nalts t' n'). split; [exact (node_get _ _ O)|]. split; [exact (node_get _ _ O')|]. split.
    - intros a Ia. destruct (sr_alt _ _ _ R n n' a X Ia) as (a' & c & c' & P1 & P2 & P3 & P4). exists a', c, c'. auto using alt_get.
    - intros a Ia. destruct (sr_alt' _ _ _ R n n' a X Ia) as (a' & c & c' & P1 & P2 & P3 & P4). exists a', c', c.
      split; [exact P1|]. split; [exact (alt_get _ _ _ P3)|]. split; [exact (alt_get _ _ _ P2)|]. clear -P4. destruct P4 as [k v|x ns ns' F]; constructor.
      induction F; constructor; assumption.
  Qed.

  (** C86.  Other threads work on the tree while the parser does: between any two critical sections of the parser
      they make nodes and alternatives and add alternatives to nodes, whatever and whenever.  The parse ends as it
      does alone on another tree: with the same panic, with "no parse", or with a root whose forest is the same
      up to the numbers of nodes and alternatives. *)
  Theorem C86_shared_parse w t0 t0' others r : api_tree t0 -> api_tree t0' ->
    runs_to (fun fuel => parse lay sg w t0 fuel) r ->
    exists r', runs_to (fun fuel => shared_parse lay sg w others t0' fuel) r' /\
      match r, r' with
      | Ret (Some m, t), Ret (Some m', t') => exists R, same_forest R t t' /\ R m m'
      | Ret (None, _), Ret (None, _) => True
      | Panic e, Panic e' => e = e'
      | _, _ => False
      end.
  Proof.
    intros A A' [N (f & R)].
    assert (X : forall fuel, f <= fuel -> osim (fun x y => exists W, SR W (snd x) (snd y) /\ match fst x, fst y with Some m, Some m' => rel W m m' | None, None => True | _, _ => False end)
      r (shared_parse lay sg w others t0' fuel)).
    { intros fuel L. rewrite <- (R fuel L). exact (shared_sim lay sg w t0 t0' others fuel (api_tree_inv _ A) (api_tree_inv _ A')). }
    pose proof (X f (le_n _)) as X0. exists (shared_parse lay sg w others t0' f). split.
    - apply (runs_to_mono _ f _ (shared_mono lay sg w others t0')); [reflexivity|]. intro E. rewrite E in X0.
      destruct r as [[? ?]|?|]; simpl in X0; congruence.
    - destruct r as [[o t]|e|], (shared_parse lay sg w others t0' f) as [[o' t']|e'|]; simpl in X0; try contradiction; try discriminate; try assumption.
      destruct X0 as (W & Sr & O). cbn [fst snd] in *. destruct o, o'; try contradiction; [|exact I].
      exists (fun n n' => In (n, n') W). split; [exact (SR_forest _ _ _ Sr)|exact O].
  Qed.

  (** In particular the same trees can be read off the two results. *)
  Theorem C86_shared_reads w t0 t0' others m t : api_tree t0 -> api_tree t0' ->
    runs_to (fun fuel => parse lay sg w t0 fuel) (Ret (Some m, t)) ->
    exists m' t', runs_to (fun fuel => shared_parse lay sg w others t0' fuel) (Ret (Some m', t')) /\
      forall tr, reads t m tr <-> reads t' m' tr.
  Proof.
    intros A A' R. destruct (C86_shared_parse w t0 t0' others _ A A' R) as (r' & R' & X).
    destruct r' as [[[m'|] t']|e|]; try contradiction. destruct X as (Rel & Sf & Y). exists m', t'. split; [exact R'|].
    intro tr. exact (same_reads Rel t t' m m' tr Sf Y).
  Qed.

  (** And a node that was in the tree before keeps exactly its alternatives, unless one of the other threads
      adds some: the parser itself touches no node but its own. *)
  Theorem C86_shared_keeps w t0 others o t n s : api_tree t0 ->
    runs_to (fun fuel => shared_parse lay sg w others t0 fuel) (Ret (o, t)) -> get_node t0 n = Ret s ->
    (forall ops op, In ops others -> In op ops -> match op with OAddAlt n' _ | OAddAll n' _ => n' <> n | _ => True end) ->
    get_node t n = Ret s.
  Proof.
    intros A [_ (f & R)] G Q. specialize (R f (le_n _)).
    assert (Ok : node_ok t0 n).
    { unfold node_ok. unfold get_node in G. destruct (nth_error (in_nodes t0) n) eqn:E; [|discriminate]. apply nth_error_Some. congruence. }
    destruct (shared_keeps lay sg w t0 others f o t n (api_tree_inv _ A) Ok Q R) as [O E].
    rewrite (node_get _ _ O), E, <- (node_get _ _ Ok). exact G.
  Qed.
End Props.
Print Assumptions C86_shared_parse.
Print Assumptions C86_shared_reads.
Print Assumptions C86_shared_keeps.

(** The hypotheses are met, by a grammar with a cycle, and by other threads that make the very alternative the
    parser is about to make, put it into a node of their own, make a branch on a node of the parser, and add to
    their node. *)
Definition ex_others : list (list (other_op nat nat nat)) :=
  [[OMakeNode; OMakeAlt (CLeaf 7 7)]; [OAddAlt 0 0]; []; [OMakeNode; OMakeAlt (CBranch 12 [1])]; [OAddAlt 2 1; OAddAll 2 0]].
Example ex_cyc_shared : api_tree (@in_new nat nat nat) /\
  exists m t m' t', runs_to (fun fuel => parse ex_slay (ex_wrap ex_cyc_g) (map ex_tok [7]) in_new fuel) (Ret (Some m, t)) /\
    runs_to (fun fuel => shared_parse ex_slay (ex_wrap ex_cyc_g) (map ex_tok [7]) ex_others in_new fuel) (Ret (Some m', t')) /\
    m <> m' /\ length (in_nodes t) <> length (in_nodes t').
Proof.
  split; [exact api_tree_new|]. eexists. eexists. eexists. eexists.
  split; [apply (parse_vm _ _ _ _ 20); [vm_compute; reflexivity|discriminate]|].
  split; [apply (runs_to_mono _ 20 _ (shared_mono _ _ _ _ _)); [vm_compute; reflexivity|discriminate]|].
  vm_compute. split; discriminate.
Qed.
