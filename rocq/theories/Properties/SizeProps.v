(** C85: how much the Earley parser uses (src/parsers/earley.rs, src/parsers/earley/state.rs). *)
From Coq Require Import String List Arith NArith Lia.
From Verif.Model Require Import Ord BTree Outcome Utils Grammar StartGrammar Tokens Tree State Earley.
From Verif.Spec Require Import Reach Cfg BuildSpec NullSpec TreeSpec EarleySpec Examples SizeSpec.
From Verif.Proofs Require Import OrdFacts BTreeFacts LoopFacts GrammarFacts StartFacts BuildMore CfgFacts TreeFacts TreeHist
  EarleyItems EarleyRun EarleyParse EarleyMain EarleyMore EarleySize.
From Verif.Properties Require Import EarleyProps.
Import ListNotations.

Section Props.
  Context {T NT AK AV V : Type} `{OrdEq T} `{OrdEq NT} `{OrdEq AK} `{OrdEq V}.
  Variable g : Grammar T NT AK AV.
  Variable sg : StartGrammar T NT AK AV.
  Variable lay : layout (StartNonTerminal NT).
  Hypothesis Bg : built g.
  Hypothesis Wr : runs_to (wrap_grammar_with_start g) (Ret (Ok sg)).
  Implicit Types (w : list (Token T V)).

  Lemma result w t0 o t : api_tree t0 -> runs_to (fun fuel => parse lay sg w t0 fuel) (Ret (o, t)) ->
    length (in_nodes t) <= length (in_nodes t0) + made_bound g (length w) /\
    (forall l, NoDup l -> (forall a, In a l -> (exists c, get_alt t a = Ret c) /\ forall c, get_alt t0 a <> Ret c) -> length l <= alts_bound g (length w)) /\
    forall m, o = Some m ->
      (forall l, NoDup l -> (forall n, In n l -> forest_node t m n) -> length l <= nodes_bound g (length w)) /\
      (forall l, NoDup l -> (forall a, In a l -> forest_alt t m a) -> length l <= alts_bound g (length w)).
  Proof.
    intros A [_ (f & R)]. specialize (R f (le_n _)). rewrite (sg_eq g sg Bg Wr) in R.
    exact (parse_result g (built_accepted g Bg) lay w t0 (api_tree_inv _ A) f o t R).
  Qed.

  (** C85.  The forest below the returned node is shared: however many trees can be read off it, it has no more
      nodes than one for every symbol of every right-hand side and every piece of the input (and the root), and
      no more alternatives than one for every token and one for every production and piece of the input. *)
  Theorem C85_forest_size w t0 m t : api_tree t0 -> runs_to (fun fuel => parse lay sg w t0 fuel) (Ret (Some m, t)) ->
    (forall l, NoDup l -> (forall n, In n l -> forest_node t m n) -> length l <= nodes_bound g (length w)) /\
    (forall l, NoDup l -> (forall a, In a l -> forest_alt t m a) -> length l <= alts_bound g (length w)).
  Proof. intros A R. exact (proj2 (proj2 (result w t0 _ t A R)) m eq_refl). Qed.

  (** The same bound holds for all alternatives the parser adds to the caller's tree, reachable or not. *)
  Theorem C85_new_alternatives w t0 o t : api_tree t0 -> runs_to (fun fuel => parse lay sg w t0 fuel) (Ret (o, t)) ->
    forall l, NoDup l -> (forall a, In a l -> (exists c, get_alt t a = Ret c) /\ forall c, get_alt t0 a <> Ret c) ->
    length l <= alts_bound g (length w).
  Proof. intros A R. exact (proj1 (proj2 (result w t0 o t A R))). Qed.

  (** And the nodes it adds, those it throws away included, are bounded by a polynomial. *)
  Theorem C85_new_nodes w t0 o t : api_tree t0 -> runs_to (fun fuel => parse lay sg w t0 fuel) (Ret (o, t)) ->
    length (in_nodes t) <= length (in_nodes t0) + made_bound g (length w).
  Proof. intros A R. exact (proj1 (result w t0 o t A R)). Qed.

  (** The loop at every position stops after at most [rounds_bound g (length w)] rounds, whatever the outcome:
      the fuel of the model is the number of rounds after which a loop is cut, and with this much no loop is. *)
  Theorem C85_rounds w t0 : api_tree t0 ->
    exists r, runs_to (fun fuel => parse lay sg w t0 fuel) r /\
      forall fuel, rounds_bound g (length w) <= fuel -> parse lay sg w t0 fuel = r.
  Proof.
    intros A. assert (N : forall fuel, rounds_bound g (length w) <= fuel -> parse lay sg w t0 fuel <> NoFuel).
    { intros fuel L E. rewrite (sg_eq g sg Bg Wr) in E.
      pose proof (parse_size g (built_accepted g Bg) lay w t0 (api_tree_inv _ A) fuel) as Sz. rewrite E in Sz. lia. }
    pose proof (parse_vm lay sg w t0 _ _ eq_refl (N _ (le_n _))) as R.
    exists (parse lay sg w t0 (rounds_bound g (length w))). split; [exact R|]. intros fuel L.
    exact (runs_to_eq (fun fuel => parse lay sg w t0 fuel) fuel _ _ (parse_mono lay sg w t0) R eq_refl (N fuel L)).
  Qed.
End Props.
Print Assumptions C85_forest_size.
Print Assumptions C85_new_alternatives.
Print Assumptions C85_new_nodes.
Print Assumptions C85_rounds.

(** The hypotheses are met, by a grammar with a cycle, where infinitely many trees can be read off the forest ... *)
Example ex_cyc_size : built ex_cyc_g /\ runs_to (wrap_grammar_with_start ex_cyc_g) (Ret (Ok (ex_wrap ex_cyc_g))) /\ api_tree (@in_new nat nat nat) /\
  exists m t, runs_to (fun fuel => parse ex_slay (ex_wrap ex_cyc_g) (map ex_tok [7]) in_new fuel) (Ret (Some m, t)) /\
    exists n a, forest_node t m n /\ n <> m /\ forest_alt t m a.
Proof.
  refine (conj built_cyc (conj wrap_cyc (conj api_tree_new _))). eexists. eexists. split; [apply (parse_vm _ _ _ _ 20); [vm_compute; reflexivity|discriminate]|].
  exists 0, 2. split; [|split; [discriminate|]].
  - apply (star_step _ _ 1); [constructor|]. exists [1; 2], 1, 11, [0]. vm_compute. auto.
  - exists 1, [1; 2]. split; [constructor|]. vm_compute. auto.
Qed.
(** ... and by a word of seven tokens, where the bounds are these. *)
Example ex_br_size : built ex_br_g /\ nprods ex_br_g = 2 /\ nsyms ex_br_g = 5 /\ alts_bound ex_br_g 7 = 79 /\ nodes_bound ex_br_g 7 = 181.
Proof. split; [exact built_br|]. vm_compute. repeat split; reflexivity. Qed.
