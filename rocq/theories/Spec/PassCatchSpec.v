(** Contexts in the hands of programs that catch panics. *)
From Coq Require Import List.
From Verif.Model Require Import Ord BTree Outcome Utils Passes PassesCatch.
Import ListNotations.

Section S.
  Context {P Val E : Type} `{Ord P}.

  (** [reached run fuel st]: a program, which may have caught any number of panics, has come to an end or to a
      point where it may make its next request, and [st] is the context now.  [fuel] bounds the nesting of the
      passes it has requested. *)
  Definition reached (run : P -> cbody P Val E) (fuel : nat) (st : PassContext P Val E) : Prop :=
    exists client, fst (run_cbody (get_pass_c run fuel) client pc_new) <> NoFuel /\
      st = snd (run_cbody (get_pass_c run fuel) client pc_new).
  (** The program goes on from there. *)
  Definition goes_on (run : P -> cbody P Val E) (fuel : nat) (st st' : PassContext P Val E) : Prop :=
    exists client, fst (run_cbody (get_pass_c run fuel) client st) <> NoFuel /\
      st' = snd (run_cbody (get_pass_c run fuel) client st).
End S.
