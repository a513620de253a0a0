(** C91: how many rounds the fixed-point loops of grammar construction and of the passes make.

    The fuel of a model function is the number of rounds after which one of its loops would be cut.
    The result under unlimited fuel is [runs_to f r]; each theorem says that a stated number of
    rounds already gives it, whatever it is (a value, an error or a panic). *)
From Coq Require Import String List Arith Lia Bool NArith.
From Verif.Model Require Import Ord BTree Outcome Utils Grammar Nullable Firsts NonNull.
From Verif.Spec Require Import Reach Cfg BuildSpec NullSpec SizeSpec Examples.
From Verif.Proofs Require Import OrdFacts BTreeFacts LoopFacts UtilsFacts GrammarFacts BuildMore NullableFacts NullableMore
  FirstsFacts FollowsFacts FirstsMore NonNullMore RoundFacts.
Import ListNotations.

(** [f] is settled after [b] rounds. *)
Definition settled {A} (f : nat -> outcome A) (b : nat) : Prop :=
  exists r, runs_to f r /\ forall fuel, b <= fuel -> f fuel = r.

Section Props.
  Context {T NT AK AV : Type} `{OrdEq T} `{OrdEq NT}.

  (** C91. The search makes at most two rounds more than there are elements to find, for any
      successor function, even a partial one. *)
  Theorem C91_bfs {X} `{OrdEq X} (f : X -> outcome (list X)) initial U :
    (forall x, f x <> NoFuel) ->
    (forall x y, In x initial -> plus (fun a b => exists l, f a = Ret l /\ In b l) x y -> In y U) ->
    settled (breadth_first_search initial f) (length U + 2).
  Proof.
    intros NF Uu. apply bounded_runs; [apply bfs_mono|]. apply bfs_bound; [exact NF|].
    intros y (x & Ix & P). exact (Uu x y Ix P).
  Qed.

  (** C91. [build] on any calls. *)
  Theorem C91_build (start : NT) (calls : list (gb_call T NT AK AV)) ns :
    (forall B, is_mentioned calls B -> In B ns) -> settled (build start calls) (length ns + 2).
  Proof. intro U. apply bounded_runs; [apply build_mono|]. apply build_bound. exact U. Qed.

  Variable lay : layout NT.
  Variable g : Grammar T NT AK AV.
  Hypothesis Inj : lay_inj g lay.
  Hypothesis B : built g.

  (** C91. The nullable pass: one more than the number of productions. *)
  Theorem C91_nullable : settled (calculate_nullables lay g) (nprods g + 1).
  Proof.
    apply bounded_runs; [apply calculate_nullables_mono|]. intros fuel L.
    apply nullables_bound; [exact Inj|apply acc_wf, built_accepted; exact B|lia].
  Qed.

  (** C91. The transformation. *)
  Theorem C91_transform ns :
    (forall A, (exists X rhs, rhs_of g X rhs /\ In (NonTerm A) rhs) -> In A ns) ->
    settled (transform_to_nonnull lay g) (Nat.max (nprods g + 1) (length ns + 2)).
  Proof.
    intro Ns. apply bounded_runs; [apply transform_mono|]. intros fuel L.
    apply (transform_bound lay g Inj B ns Ns); lia.
  Qed.

  Section Pairs.
    Variable ns : list NT.
    Variable ts : list T.
    (** [ns] has every nonterminal of the grammar and [ts] every terminal. *)
    Hypothesis Ns : forall A, (exists X rhs, rhs_of g X rhs /\ (A = X \/ In (NonTerm A) rhs)) -> In A ns.
    Hypothesis Ts : forall t, (exists X rhs, rhs_of g X rhs /\ In (Term t) rhs) -> In t ts.

    (** C91. The passes that compute sets of terminals: one more than the number of pairs. *)
    Theorem C91_firsts : settled (calculate_firsts lay g) (Nat.max (nprods g) (length ns * length ts) + 1).
    Proof.
      apply bounded_runs; [apply calculate_firsts_mono|]. intros fuel L. apply (firsts_bound lay g Inj B ns ts Ns Ts); lia.
    Qed.
    Theorem C91_follows : settled (calculate_follows lay g) (Nat.max (nprods g) (length ns * length ts) + 1).
    Proof.
      apply bounded_runs; [apply calculate_follows_mono|]. intros fuel L. apply (follows_bound lay g Inj B ns ts Ns Ts); lia.
    Qed.
  End Pairs.
End Props.
Print Assumptions C91_bfs.
Print Assumptions C91_build.
Print Assumptions C91_nullable.
Print Assumptions C91_transform.
Print Assumptions C91_firsts.
Print Assumptions C91_follows.

(** The hypotheses are met by a grammar with five productions, three nonterminals and three terminals;
    the bounds are then these numbers, and some rounds are really needed. *)
Example ex_rounds : built ex_null_g /\ lay_inj ex_null_g ex_lay /\
  (forall A, (exists X rhs, rhs_of ex_null_g X rhs /\ (A = X \/ In (NonTerm A) rhs)) -> In A [0; 1; 2]) /\
  (forall t, (exists X rhs, rhs_of ex_null_g X rhs /\ In (Term t) rhs) -> In t [7; 8; 9]) /\
  nprods ex_null_g + 1 = 6 /\ Nat.max (nprods ex_null_g) (length [0; 1; 2] * length [7; 8; 9]) + 1 = 10 /\
  calculate_nullables ex_lay ex_null_g 1 = NoFuel /\ calculate_firsts ex_lay ex_null_g 1 = NoFuel /\
  exists i, calculate_firsts ex_lay ex_null_g 10 = Ret (Ok i).
Proof.
  split; [exact built_null|]. split; [apply ex_lay_inj; vm_compute; reflexivity|].
  assert (Q : forall X rhs, rhs_of ex_null_g X rhs -> In X [0; 1; 2] /\ forall e, In e rhs -> In e [NonTerm 1; NonTerm 2; Term 7; Term 8; Term 9]).
  { intros X rhs (p & (r & Ir & Ip) & ->). simpl in Ir.
    destruct Ir as [E|[E|[E|[]]]]; injection E as <- <-; simpl in Ip;
      repeat (destruct Ip as [<-|Ip]); try destruct Ip; (split; [simpl; tauto|]); simpl; intros e I;
      repeat (destruct I as [<-|I]); try destruct I; auto 6. }
  split; [|split; [|split; [reflexivity|split; [reflexivity|split; [vm_compute; reflexivity|split; [vm_compute; reflexivity|eexists; vm_compute; reflexivity]]]]]].
  - intros A (X & rhs & R & [->|I]); destruct (Q X rhs R) as [Q1 Q2]; [exact Q1|].
    specialize (Q2 _ I). simpl in *. intuition congruence.
  - intros t (X & rhs & R & I). destruct (Q X rhs R) as [_ Q2]. specialize (Q2 _ I). simpl in *. intuition congruence.
Qed.
