(** C107: pass contexts in programs that catch panics (src/grammar/passes/mod.rs). *)
From Coq Require Import String List Arith Lia.
From Verif.Model Require Import Ord BTree Outcome Utils Passes PassesCatch.
From Verif.Spec Require Import Reach PassSpec PassCatchSpec.
From Verif.Proofs Require Import OrdFacts BTreeFacts LoopFacts PassesFacts PassesCatchFacts.
Import ListNotations.

Section Props.
  Context {P Val E : Type} `{OrdEq P}.

  (** C107.  Even if passes and the program catch panics, every pass body is started at most once, all requests
      of a pass that were answered with a value got the same allocation, and different passes different ones. *)
  Theorem C107_runs_once (run : P -> cbody P Val E) fuel st : reached run fuel st ->
    NoDup (started st) /\
    (forall p a b, In (EvReturn p (Ok a)) (trace st) -> In (EvReturn p (Ok b)) (trace st) -> a = b) /\
    (forall p q c v w, In (EvReturn p (Ok (c, v))) (trace st) -> In (EvReturn q (Ok (c, w))) (trace st) -> p = q).
  Proof.
    intro R. destruct (reached_inv run fuel st R) as [_ I2 _ I4 I5]. split; [exact I2|]. split.
    - intros p [c v] [d w] A B. apply I4 in A. apply I4 in B. congruence.
    - intros p q c v w A B. exact (I5 _ _ _ _ _ (I4 _ _ _ A) (I4 _ _ _ B)).
  Qed.

  (** C107.  What a second request of a pass gives, whatever happens in between: the same value if the first
      gave a value, and the recursion panic if the first failed or panicked. *)
  Theorem C107_asked_again (run : P -> cbody P Val E) fuel st p o st1 st2 n :
    reached run fuel st -> get_pass_c run fuel p st = (o, st1) -> goes_on run fuel st1 st2 ->
    match o with
    | Ret (Ok a) => fst (get_pass_c run (S n) p st2) = Ret (Ok a)
    | Ret (Err _) | Panic _ => fst (get_pass_c run (S n) p st2) = Panic rec_msg
    | NoFuel => True
    end.
  Proof.
    intros R G Go. pose proof (get_pass_c_ok run fuel p st (reached_inv run fuel st R)) as Q. rewrite G in Q.
    destruct Q as (I1 & _ & Q). destruct (goes_on_ok run fuel st1 st2 I1 Go) as [_ X].
    destruct o as [[[c v]|e]|m|]; [| | |exact Logic.I]; apply X in Q; cbn [get_pass_c]; rewrite Q; try reflexivity.
    unfold pc_lookup. rewrite Q. reflexivity.
  Qed.

  Section Plain.
    Variable run : P -> body P Val E.
    Local Notation crun := (fun q => embed (run q)).

    (** C107.  Passes that do not catch, a program that may: values and errors are those of the plain
        evaluation of the pass. *)
    Theorem C107_answers_right fuel st p r st1 : reached crun fuel st -> get_pass_c crun fuel p st = (Ret r, st1) ->
      eval run (run p) (forget r).
    Proof.
      intros R G. destruct (reached_plain run fuel st R) as [I _]. rewrite get_embed in G.
      pose proof (get_pass_ok run fuel p st I) as Q. rewrite G in Q. destruct Q as (I1 & _ & Q).
      destruct r as [[c v]|e]; [exact (proj2 (iv_comp run st1 I1 p c v Q))|exact Q].
    Qed.

    (** C107.  A pass that succeeds by itself, all passes it asks for succeeding too, is never spoilt by
        panics of others: it answers with its value in every context a program can get to. *)
    Theorem C107_good_pass_answers fuel st p v : reached crun fuel st -> eval_ok run (run p) (Ok v) ->
      exists c, runs_to (fun n => fst (get_pass_c crun n p st)) (Ret (Ok (c, v))).
    Proof.
      intros R X. destruct (reached_plain run fuel st R) as [I T].
      destruct (evb_complete run (run p) (Ok v) X) as (h & Q).
      assert (G : evp run (S h) p = Some v) by (cbn [evp]; rewrite Q; reflexivity).
      destruct (good_answers run (S h) p v st (S h) I T G (le_n _)) as (c & st' & A & _).
      exists c. split; [discriminate|]. exists (S h). intros n L. rewrite get_embed.
      rewrite (get_pass_mono run (S h) n p st L); rewrite A; [reflexivity|discriminate].
    Qed.

    (** The model of C19 to C21 is this one for passes and programs that do not catch. *)
    Theorem C107_without_catching client fuel :
      run_cbody (get_pass_c crun fuel) (embed client) pc_new = use_context run client fuel.
    Proof. apply run_embed. apply get_embed. Qed.
  End Plain.
End Props.

(** ** A concrete program: pass 0 panics; pass 1 is fine; pass 2 asks for 1 and then 0.  The program asks for
    2 (panics), for 2 again (the recursion message, though nothing recurses), for 0 and for 1. *)
Definition cex_run (p : nat) : body nat nat string :=
  match p with
  | 0 => BPanic "zero"
  | 1 => BRet 11
  | _ => BGet 1 (fun _ => BGet 0 (fun _ => BRet 22))
  end.
Definition said (a : answer nat string) : nat :=
  match a with AOk v => v | AErr _ => 100 | APanicked m => if String.eqb m rec_msg then 200 else 300 end.
Definition cex_says (a b c d : answer nat string) : bool :=
  (Nat.eqb (said a) 300 && Nat.eqb (said b) 200 && Nat.eqb (said c) 200 && Nat.eqb (said d) 11)%bool.
Definition cex_client : cbody nat nat string :=
  CGet 2 (fun a => CGet 2 (fun b => CGet 0 (fun c => CGet 1 (fun d => CRet (if cex_says a b c d then 1 else 0))))).
Definition cex_st := snd (run_cbody (get_pass_c (fun q => embed (cex_run q)) 4) cex_client pc_new).
Example cex_run_says : fst (run_cbody (get_pass_c (fun q => embed (cex_run q)) 4) cex_client pc_new) = Ret (Ok 1).
Proof. reflexivity. Qed.
Example cex_reached : reached (fun q => embed (cex_run q)) 4 cex_st.
Proof. exists cex_client. split; [discriminate|reflexivity]. Qed.
Example cex_good : exists c, runs_to (fun n => fst (get_pass_c (fun q => embed (cex_run q)) n 1 cex_st)) (Ret (Ok (c, 11))).
Proof. apply (C107_good_pass_answers cex_run 4 cex_st 1 11 cex_reached). constructor. Qed.
Example cex_spoilt : forall n, fst (get_pass_c (fun q => embed (cex_run q)) (S n) 2 cex_st) = Panic rec_msg.
Proof. reflexivity. Qed.

Print Assumptions C107_runs_once.
Print Assumptions C107_asked_again.
Print Assumptions C107_answers_right.
Print Assumptions C107_good_pass_answers.
Print Assumptions C107_without_catching.
