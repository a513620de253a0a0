(** Properties of the pass context (C19-C21, C61, C62). *)
From Coq Require Import String List Arith.
From Verif.Model Require Import Ord BTree Outcome Utils Grammar Nullable Firsts Passes.
From Verif.Spec Require Import Reach PassSpec Examples.
From Verif.Proofs Require Import OrdFacts PassesFacts PassesMore.
Import ListNotations.

Section S.
  Context {P Val E : Type} `{OrdEq P}.

  (** C19. Whatever a client does with a context, and however it ends: every body was started at most
      once; all successful answers for one pass are the same value in the same allocation; answers for
      different passes are in different allocations; and every answer is the one of plain evaluation. *)
  Theorem C19_pass_runs_once (run : P -> body P Val E) client fuel :
    let st := snd (use_context run client fuel) in
    NoDup (started st) /\
    (forall p a b, In (EvReturn p (Ok a)) (trace st) -> In (EvReturn p (Ok b)) (trace st) -> a = b) /\
    (forall p q c v w, In (EvReturn p (Ok (c, v))) (trace st) -> In (EvReturn q (Ok (c, w))) (trace st) -> p = q) /\
    (forall p c v, In (EvReturn p (Ok (c, v))) (trace st) -> eval run (run p) (Ok v)) /\
    (forall p e, In (EvReturn p (Err e)) (trace st) -> eval run (run p) (Err e)).
  Proof. exact (use_once run client fuel). Qed.

  (** C19. The context is transparent: a client whose requests succeed gets what plain evaluation gives,
      and no client gets anything else. *)
  Theorem C19_context_transparent (run : P -> body P Val E) client r :
    eval_ok run client r -> runs_to (fun fuel => fst (use_context run client fuel)) (Ret r).
  Proof. exact (fun X => conj (ret_not_nofuel _) (use_transparent run client r X)). Qed.

  Theorem C19_context_sound (run : P -> body P Val E) client fuel r :
    fst (use_context run client fuel) = Ret r -> eval run client r.
  Proof. exact (use_sound run client fuel r). Qed.

  (** C20. With finitely many passes whose bodies do not loop by themselves, no client loops. *)
  Theorem C20_passes_terminate (run : P -> body P Val E) (all : list P) client fuel :
    (forall p, In p all) -> (forall p, no_hang (run p)) -> no_hang client -> length all < fuel ->
    fst (use_context run client fuel) <> NoFuel.
  Proof. exact (fun A N C L => use_terminates run all A N client fuel C L). Qed.

  (** C20. A pass without a finite plain evaluation panics with the recursion message, in every context a
      client can leave behind. *)
  Theorem C20_recursion_detected (run : P -> body P Val E) (all : list P) p client fuel :
    (forall q, In q all) -> (forall q, quiet (run q)) -> (forall r, ~ eval run (run p) r) ->
    length all < fuel ->
    fst (get_pass run fuel p (snd (use_context run client fuel))) = Panic rec_msg.
  Proof. exact (no_eval_panics run all p client fuel). Qed.

  (** C20. In particular a pass on a cycle of requests. *)
  Theorem C20_cycle_detected (run : P -> body P Val E) (all : list P) p client fuel :
    (forall q, In q all) -> (forall q, quiet (run q)) -> plus (requests_first run) p p ->
    length all < fuel ->
    fst (get_pass run fuel p (snd (use_context run client fuel))) = Panic rec_msg.
  Proof. exact (fun A Q C L => no_eval_panics run all p client fuel A Q (cycle_no_eval run p C) L). Qed.

  (** C61. After a request that returned an error, every later request of the same pass panics. *)
  Theorem C61_failed_pass_panics (run : P -> body P Val E) client client2 fuel p e :
    let st := snd (use_context run client fuel) in
    fst (get_pass run fuel p st) = Ret (Err e) ->
    let st2 := snd (run_body (get_pass run fuel) client2 (snd (get_pass run fuel p st))) in
    forall n, fst (get_pass run (S n) p st2) = Panic rec_msg.
  Proof. exact (failed_again_panics run client client2 fuel p e). Qed.
End S.

(** C21 is false: the second request of a failing pass panics. *)
Theorem C21_failed_pass_again_refuted : exists (run : nat -> body nat nat string) p e,
  eval run (run p) (Err e) /\
  (exists fuel st, get_pass run fuel p pc_new = (Ret (Err e), st) /\
     fst (get_pass run fuel p st) = Panic rec_msg).
Proof.
  exact (ex_intro _ (fun _ => BErr "no"%string) (ex_intro _ 0 (ex_intro _ "no"%string
    (conj (ev_err _ _) (ex_intro _ 1 (ex_intro _ _ (conj eq_refl eq_refl))))))).
Qed.

(** C62. The library's passes requested from a fresh context give what their direct computation gives. *)
Theorem C62_std_passes {T NT AK AV : Type} `{Ord T} `{Ord NT} (lay : layout NT) (g : Grammar T NT AK AV) (n m : nat) p :
  3 <= m ->
  match get_pass (std_run_pass lay g n) m p pc_new with
  | (Ret r, _) => std_direct lay g n p = Ret (forget r)
  | (Panic s, _) => std_direct lay g n p = Panic s
  | (NoFuel, _) => std_direct lay g n p = NoFuel
  end.
Proof. exact (std_first_request lay g n p m). Qed.

(** C62. And so does every answer they get in any context. *)
Theorem C62_std_passes_eval {T NT AK AV : Type} `{Ord T} `{Ord NT} (lay : layout NT) (g : Grammar T NT AK AV) (n : nat) p r :
  eval (std_run_pass lay g n) (std_run_pass lay g n p) r <-> std_direct lay g n p = Ret r.
Proof. exact (std_eval lay g n p r). Qed.

(** C62. In every context, whatever was asked before and in whatever order: each answer any request ever got is
    the value (or error) of the direct computation. *)
Theorem C62_any_context {T NT AK AV : Type} `{OrdEq T} `{OrdEq NT} (lay : layout NT) (g : Grammar T NT AK AV) (n : nat) client fuel p r :
  In (EvReturn p r) (trace (snd (use_context (std_run_pass lay g n) client fuel))) ->
  std_direct lay g n p = Ret (forget r).
Proof.
  intro I. apply std_eval. destruct (use_once (std_run_pass lay g n) client fuel) as (_ & _ & _ & A & B).
  destruct r as [[c v]|e]; cbn; [exact (A p c v I)|exact (B p e I)].
Qed.

Print Assumptions C19_pass_runs_once.
Print Assumptions C19_context_transparent.
Print Assumptions C19_context_sound.
Print Assumptions C20_passes_terminate.
Print Assumptions C20_recursion_detected.
Print Assumptions C20_cycle_detected.
Print Assumptions C61_failed_pass_panics.
Print Assumptions C62_std_passes.
Print Assumptions C62_std_passes_eval.
Print Assumptions C62_any_context.

(** Three passes: 0 needs 1 and 2, 2 needs 1, 1 needs nothing. *)
Definition ex_run (p : StdPass) : body StdPass nat string :=
  match p with
  | PFollows => BGet PNullable (fun a => BGet PFirsts (fun b =>
      match a, b with Ok x, Ok y => BRet (x * 100 + y) | _, _ => BErr "e"%string end))
  | PFirsts => BGet PNullable (fun a => match a with Ok x => BRet (x + 1) | _ => BErr "e"%string end)
  | PNullable => BRet 7
  end.
Definition ex_client : body StdPass nat string :=
  BGet PFollows (fun _ => BGet PNullable (fun _ => BGet PFollows (fun r =>
    match r with Ok x => BRet x | Err e => BErr e end))).
Example ex_use : let '(o, st) := use_context ex_run ex_client 4 in
  o = Ret (Ok 708) /\ rev (started st) = [PFollows; PNullable; PFirsts] /\
  In (EvReturn PFollows (Ok (2, 708))) (trace st).
Proof. vm_compute. auto 10. Qed.
Example ex_use_hyps : eval_ok ex_run ex_client (Ok 708) /\ (forall p, quiet (ex_run p)) /\
  (forall p, In p [PNullable; PFirsts; PFollows]).
Proof.
  split; [|split].
  - assert (N : eval_ok ex_run (ex_run PNullable) (Ok 7)) by exact (eo_ret _ 7).
    assert (F : eval_ok ex_run (ex_run PFirsts) (Ok 8)) by exact (eo_get _ _ _ _ _ N (eo_ret _ 8)).
    assert (W : eval_ok ex_run (ex_run PFollows) (Ok 708)).
    { exact (eo_get ex_run PNullable _ _ _ N (eo_get ex_run PFirsts _ _ _ F (eo_ret _ 708))). }
    exact (eo_get ex_run PFollows _ _ _ W (eo_get ex_run PNullable _ _ _ N (eo_get ex_run PFollows _ _ _ W (eo_ret _ 708)))).
  - intros []; simpl; constructor; intros [x|e]; simpl; constructor; intros [y|e']; simpl; constructor.
  - intros []; simpl; auto.
Qed.

(** A cycle: 1 -> 2 -> 1, entered from 0. *)
Definition ex_cyc (p : StdPass) : body StdPass nat string :=
  match p with
  | PNullable => BGet PFirsts (fun _ => BRet 0)
  | PFirsts => BGet PFollows (fun _ => BRet 1)
  | PFollows => BGet PFirsts (fun _ => BRet 2)
  end.
Example ex_cyc_hyps : plus (requests_first ex_cyc) PFirsts PFirsts /\ (forall p, quiet (ex_cyc p)).
Proof.
  split.
  - exists PFollows. split; [apply star_step with PFirsts; [constructor|eexists; reflexivity]|eexists; reflexivity].
  - intros []; repeat (constructor; intros).
Qed.
