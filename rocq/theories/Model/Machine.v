(** The arithmetic of the crate on machine integers.

    Elsewhere [usize] is [nat].  Here every expression of /repo/src that computes with [usize] is done again with
    the operations of the machine; there are eight: state.rs:90, 115, parsers/mod.rs:66, utils/buffer.rs:96, 109,
    220, 229, 245.  Lengths, comparisons and indexing do not overflow. *)
From Coq Require Import String List Arith NArith.
From Verif.Model Require Import Ord Outcome Grammar State Tokens Buffer.
Import ListNotations.

(** cargo's profiles: with overflow checks (dev), without (release). *)
Inductive profile := Dev | Release.

Section Machine.
  (** usize::MAX + 1, and how the crate was compiled. *)
  Variable W : nat.
  Variable b : profile.

  (** [+] and [-] on [usize] (core::ops::arith; the reference, "Overflow"). *)
  Definition wadd (x y : nat) : outcome nat :=
    if Nat.ltb (x + y) W then Ret (x + y)
    else match b with Dev => Panic "attempt to add with overflow" | Release => Ret ((x + y) mod W) end.
  Definition wsub (x y : nat) : outcome nat :=
    if Nat.leb y x then Ret (x - y)
    else match b with Dev => Panic "attempt to subtract with overflow" | Release => Ret ((x + W - y) mod W) end.

  (** *** state.rs *)
  Section States.
    Context {T NT AK AV : Type}.
    Local Notation PS := (ProdState T NT AK AV).
    (** state.rs:89-91 [offset_prod_elem]; 93-95 [offset_elem]; 97-99 [next_prod_elem]; 101-103 [next_elem]. *)
    Definition w_offset_prod_elem (s : PS) (i : nat) : outcome (option (ProdElement T NT)) :=
      k <- wadd (ps_index s) i ;; Ret (nth_error (prod_elements (ps_prod s)) k).
    Definition w_offset_elem (s : PS) (i : nat) : outcome (option (Elem T NT)) :=
      o <- w_offset_prod_elem s i ;; Ret (option_map pe_elem o).
    Definition w_next_prod_elem (s : PS) : outcome (option (ProdElement T NT)) := w_offset_prod_elem s 0.
    Definition w_next_elem (s : PS) : outcome (option (Elem T NT)) := w_offset_elem s 0.
    (** state.rs:107-119 [next_elem_state]. *)
    Definition w_next_elem_state (s : PS) : outcome (option (ProdElement T NT * PS)) :=
      o <- w_next_prod_elem s ;;
      match o with
      | Some prod_elem => k <- wadd (ps_index s) 1 ;; Ret (Some (prod_elem, Build_ProdState (ps_prod s) k))
      | None => Ret None
      end.
    (** state.rs:137-145 [advance_if]. *)
    Definition w_advance_if `{Ord T} `{Ord NT} (s : PS) (elem : Elem T NT) : outcome (option PS) :=
      o <- w_next_elem_state s ;;
      Ret (match o with
           | Some (e, next) => if eqb (pe_elem e) elem then Some next else None
           | None => None
           end).
  End States.

  (** *** parsers/mod.rs *)
  (** parsers/mod.rs:60-73 [next]. *)
  Definition w_vts_next {K T} (s : VecTokenStream K T) : outcome (option (Token K T * VecTokenStream K T)) :=
    if Nat.ltb (length (vts_tokens s)) (vts_position s) then
      t <- expect (nth_error (vts_tokens s) (vts_position s)) "index out of bounds" ;;
      k <- wadd (vts_position s) 1 ;;
      Ret (Some (t, Build_VecTokenStream (vts_tokens s) k))
    else
      _ <- assert_ (Nat.eqb (length (vts_tokens s)) (vts_position s)) "assertion failed: len == position" ;;
      Ret None.

  (** *** utils/buffer.rs *)
  (** buffer.rs:95-97 [byte_len]. *)
  Definition w_byte_len (r : BufferRange) : outcome nat := wsub (br_end r) (br_start r).
  (** buffer.rs:102-115 [read_char_mut]; 117-120 [read_char]. *)
  Definition w_read_char_mut (r : BufferRange) : outcome (option char * BufferRange) :=
    s <- br_as_str r ;;
    match char_indices s with
    | [] => Ret (None, r)
    | (_, next_ch) :: chars =>
        start_index <- match chars with [] => Ret (br_end r) | (new_offset, _) :: _ => wadd (br_start r) new_offset end ;;
        Ret (Some next_ch, with_start r start_index)
    end.
  Definition w_read_char (r : BufferRange) : outcome (option (char * BufferRange)) :=
    '(o, copy) <- w_read_char_mut r ;;
    Ret (option_map (fun ch => (ch, copy)) o).
  (** buffer.rs:124-129: the loop of [advance_n_mut]. *)
  Fixpoint w_advance_loop (n : nat) (r : BufferRange) : outcome (option BufferRange) :=
    match n with
    | 0 => Ret (Some r)
    | S n => '(o, r') <- w_read_char_mut r ;;
             match o with None => Ret None | Some _ => w_advance_loop n r' end
    end.
  (** buffer.rs:122-131 [advance_n_mut]; 133-142 [advance_n]. *)
  Definition w_advance_n_mut (r : BufferRange) (n : nat) : outcome (option (list char) * BufferRange) :=
    let old_start := br_start r in
    o <- w_advance_loop n r ;;
    match o with
    | None => Ret (None, with_start r old_start)
    | Some r' => s <- slice (bf_text (br_buf r')) old_start (br_start r') ;; Ret (Some s, r')
    end.
  Definition w_advance_n (r : BufferRange) (n : nat) : outcome (option (list char * BufferRange)) :=
    '(o, copy) <- w_advance_n_mut r n ;;
    match o with
    | Some _ => s <- slice (bf_text (br_buf r)) (br_start r) (br_start copy) ;; Ret (Some (s, copy))
    | None => Ret None
    end.

  Section Positions.
    (** As in [Buffer.Positions]. *)
    Variable binary_search : list comparison -> nat + nat.
    Variable graphemes : list char -> list (list char).
    (** buffer.rs:203-232 [get_line_str_from_byte_offset]. *)
    Definition w_get_line_str (buf : Buffer) (byte_offset : nat) : outcome (list char * nat * nat) :=
      _ <- assert_ (Nat.leb byte_offset (str_len (bf_text buf))) "assertion failed: byte_offset <= self.0.text.len()" ;;
      line_range_index <-
        match binary_search (map (line_cmp byte_offset) (bf_line_ranges buf)) with
        | inl i => Ret i
        | inr insert_pos => wsub insert_pos 1
        end ;;
      '(start_byte_index, end_byte_index) <- expect (nth_error (bf_line_ranges buf) line_range_index) "index out of bounds" ;;
      line <- slice (bf_text buf) start_byte_index end_byte_index ;;
      line_byte_offset <- wsub (if Nat.leb byte_offset end_byte_index then byte_offset else end_byte_index) start_byte_index ;;
      Ret (line, line_range_index, line_byte_offset).
    (** buffer.rs:240-246: the loop counting the pieces. *)
    Fixpoint w_count_columns (offsets : list nat) (line_byte_offset col_index : nat) : outcome nat :=
      match offsets with
      | [] => Ret col_index
      | grapheme_offset :: r =>
          if Nat.leb line_byte_offset grapheme_offset then Ret col_index
          else c <- wadd col_index 1 ;; w_count_columns r line_byte_offset c
      end.
    (** buffer.rs:234-253 [get_text_pos_from_byte_offset]; 157-159 [start_pos]; 161-163 [end_pos]. *)
    Definition w_get_text_pos (buf : Buffer) (byte_offset : nat) : outcome TextPos :=
      '(line, line_number, line_byte_offset) <- w_get_line_str buf byte_offset ;;
      col_index <- w_count_columns (grapheme_offsets 0 (graphemes line)) line_byte_offset 0 ;;
      Ret {| tp_line := line_number; tp_column := col_index; tp_byte_offset := byte_offset |}.
    Definition w_start_pos (r : BufferRange) : outcome TextPos := w_get_text_pos (br_buf r) (br_start r).
    Definition w_end_pos (r : BufferRange) : outcome TextPos := w_get_text_pos (br_buf r) (br_end r).
  End Positions.
End Machine.
