(** What a program holds when the crate computes with machine integers. *)
From Coq Require Import String List Arith NArith.
From Verif.Model Require Import Ord Outcome Grammar State Tokens Buffer Machine.
From Verif.Spec Require Import BufferSpec.
Import ListNotations.

Section Machine.
  Variable W : nat.
  Variable b : profile.

  (** As [position] of StateSpec.v, with the machine's functions. *)
  Inductive w_position {T NT AK AV} `{Ord T} `{Ord NT} (p : Prod T NT AK AV) : ProdState T NT AK AV -> Prop :=
  | wp_start : w_position p (from_start p)
  | wp_next s e s' : w_position p s -> w_next_elem_state W b s = Ret (Some (e, s')) -> w_position p s'
  | wp_advance s e s' : w_position p s -> w_advance_if W b s e = Ret (Some s') -> w_position p s'.

  (** As [api_range] of BufferSpec.v. *)
  Inductive w_api_range (h : heap) : BufferRange -> Prop :=
  | war_new a name text : h a = Some (name, text) -> w_api_range h (br_new a name text)
  | war_read_char_mut r o r' : w_api_range h r -> w_read_char_mut W b r = Ret (o, r') -> w_api_range h r'
  | war_read_char r c r' : w_api_range h r -> w_read_char W b r = Ret (Some (c, r')) -> w_api_range h r'
  | war_advance_n_mut r n o r' : w_api_range h r -> w_advance_n_mut W b r n = Ret (o, r') -> w_api_range h r'
  | war_advance_n r n s r' : w_api_range h r -> w_advance_n W b r n = Ret (Some (s, r')) -> w_api_range h r'
  | war_remove_suffix r s r' : w_api_range h r -> w_api_range h s -> remove_suffix r s = Ret r' -> w_api_range h r'.

  (** The token streams a program can hold. *)
  Inductive w_stream {K T} (l : list (Token K T)) : VecTokenStream K T -> Prop :=
  | ws_new : w_stream l (vts_from l)
  | ws_next s t s' : w_stream l s -> w_vts_next W b s = Ret (Some (t, s')) -> w_stream l s'.
End Machine.

(** Rust allocates no object of more than isize::MAX bytes, so the texts of all buffers are shorter than the
    largest [usize]. *)
Definition texts_fit (W : nat) (h : heap) : Prop :=
  forall a name text, h a = Some (name, text) -> length (as_bytes text) < W.
