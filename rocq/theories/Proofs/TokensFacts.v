From Coq Require Import String List Arith Lia.
From Verif.Model Require Import Outcome Tokens.
Import ListNotations.

Section T.
  Context {K T : Type}.
  Lemma vts_exact (s : VecTokenStream K T) :
    vts_next s =
    if Nat.eqb (vts_position s) (length (vts_tokens s)) then Ret None
    else if Nat.ltb (vts_position s) (length (vts_tokens s)) then Panic "assertion failed: len == position"
    else Panic "index out of bounds".
  Proof.
    unfold vts_next. destruct s as [l p]. simpl. destruct (Nat.eqb_spec p (length l)) as [->|N].
    - rewrite Nat.ltb_irrefl, Nat.eqb_refl. reflexivity.
    - destruct (Nat.ltb_spec (length l) p) as [L|L].
      + assert (E : nth_error l p = None) by (apply nth_error_None; lia). rewrite E. simpl.
        destruct (Nat.ltb_spec p (length l)); [lia|reflexivity].
      + destruct (Nat.ltb_spec p (length l)); [|lia].
        assert (E : Nat.eqb (length l) p = false) by (apply Nat.eqb_neq; lia). rewrite E. reflexivity.
  Qed.

  Lemma vts_fresh (l : list (Token K T)) :
    runs_to (fun fuel => vts_read fuel (vts_from l))
      (match l with [] => Ret [] | _ => Panic "assertion failed: len == position" end).
  Proof.
    split; [destruct l; discriminate|]. exists 1. intros [|fuel] L; [lia|]. simpl. rewrite vts_exact. simpl.
    destruct l; reflexivity.
  Qed.
End T.
