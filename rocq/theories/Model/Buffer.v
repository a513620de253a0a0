(** src/utils/buffer.rs: text buffers, ranges of them, and positions.

    A [str] is the list of its characters (Unicode scalar values, as numbers); byte offsets are computed from
    the lengths of the UTF-8 encodings.  Slicing at an offset that is not a character boundary panics, as in
    Rust.  [usize] is [nat]: a Rust string is at most isize::MAX bytes long, so no offset overflows (C116). *)
From Coq Require Import String List Arith NArith Lia.
From Verif.Model Require Import Ord Outcome.
Import ListNotations.

Definition char := N.
Definition LF : char := 10%N.   (** '\n' *)
Definition CR : char := 13%N.   (** '\r' *)

(** ** UTF-8, from the Rust standard library (core::char::methods::encode_utf8_raw, len_utf8) *)
Definition len_utf8 (c : char) : nat :=
  if (c <? 128)%N then 1 else if (c <? 2048)%N then 2 else if (c <? 65536)%N then 3 else 4.
Definition encode_utf8 (c : char) : list N :=
  if (c <? 128)%N then [c]
  else if (c <? 2048)%N then [192 + c / 64; 128 + c mod 64]%N
  else if (c <? 65536)%N then [224 + c / 4096; 128 + (c / 64) mod 64; 128 + c mod 64]%N
  else [240 + c / 262144; 128 + (c / 4096) mod 64; 128 + (c / 64) mod 64; 128 + c mod 64]%N.
(** [str::as_bytes], [str::len]. *)
Definition as_bytes (s : list char) : list N := flat_map encode_utf8 s.
Fixpoint str_len (s : list char) : nat :=
  match s with [] => 0 | c :: r => len_utf8 c + str_len r end.

(** What is left of [s] after its first [n] bytes, and these bytes; [None] when that is not a character
    boundary. *)
Fixpoint split_bytes (n : nat) (s : list char) : option (list char * list char) :=
  match n, s with
  | 0, _ => Some ([], s)
  | _, [] => None
  | _, c :: r =>
      if Nat.leb (len_utf8 c) n then
        option_map (fun '(a, b) => (c :: a, b)) (split_bytes (n - len_utf8 c) r)
      else None
  end.
(** [&s[a..b]] (core::str::traits, [SliceIndex<str> for Range<usize>]). *)
Definition slice (s : list char) (a b : nat) : outcome (list char) :=
  if Nat.leb a b then
    match split_bytes a s with
    | Some (_, r) =>
        match split_bytes (b - a) r with
        | Some (m, _) => Ret m
        | None => Panic "byte index is not a char boundary"
        end
    | None => Panic "byte index is not a char boundary"
    end
  else Panic "slice index starts after its end".
(** [str::char_indices], the byte offset of each character with the character. *)
Fixpoint char_indices_from (offset : nat) (s : list char) : list (nat * char) :=
  match s with [] => [] | c :: r => (offset, c) :: char_indices_from (offset + len_utf8 c) r end.
Definition char_indices (s : list char) : list (nat * char) := char_indices_from 0 s.

(** ** Buffers *)
(** buffer.rs:256-260 [BufferInner], 20-21 [Buffer]: the address stands for the identity of the [Rc]. *)
Record Buffer := {
  bf_addr : nat;
  bf_source_name : string;
  bf_text : list char;
  bf_line_ranges : list (nat * nat)
}.
(** buffer.rs:23-28 [BufferRange]. *)
Record BufferRange := { br_start : nat; br_end : nat; br_buf : Buffer }.

(** buffer.rs:47-51, 55-59, 70-74: the range pushed at the end of a line. *)
Definition line_entry (line_start : option nat) (offset : nat) : nat * nat :=
  match line_start with Some start => (start, offset) | None => (offset, offset) end.
(** buffer.rs:36-78: the loop; [indices] is what [char_iter] has still to yield. *)
Fixpoint line_loop (text_len : nat) (indices : list (nat * char)) (line_start : option nat) : list (nat * nat) :=
  match indices with
  | (offset, ch) :: char_iter =>
      if N.eqb ch CR then
        line_entry line_start offset ::
        match char_iter with
        | (_, ch2) :: lookahead_iter =>
            if N.eqb ch2 LF then line_loop text_len lookahead_iter None else line_loop text_len char_iter None
        | [] => line_loop text_len char_iter None
        end
      else if N.eqb ch LF then line_entry line_start offset :: line_loop text_len char_iter None
      else line_loop text_len char_iter (match line_start with None => Some offset | Some _ => line_start end)
  | [] => [line_entry line_start text_len]
  end.
(** buffer.rs:31-91 [BufferRange::new]; [addr] is where the new [Rc] is allocated. *)
Definition br_new (addr : nat) (source_name : string) (text : list char) : BufferRange :=
  let line_ranges := line_loop (str_len text) (char_indices text) (Some 0) in
  let buffer := Build_Buffer addr source_name text line_ranges in
  {| br_start := 0; br_end := str_len text; br_buf := buffer |}.

(** buffer.rs:92-94 [as_str]; 95-97 [byte_len] (the subtraction panics on overflow); 98-100 [empty]. *)
Definition br_as_str (r : BufferRange) : outcome (list char) := slice (bf_text (br_buf r)) (br_start r) (br_end r).
Definition br_byte_len (r : BufferRange) : outcome nat :=
  if Nat.leb (br_start r) (br_end r) then Ret (br_end r - br_start r) else Panic "attempt to subtract with overflow".
Definition br_empty (r : BufferRange) : bool := Nat.eqb (br_start r) (br_end r).

Definition with_start (r : BufferRange) (start : nat) : BufferRange :=
  {| br_start := start; br_end := br_end r; br_buf := br_buf r |}.
(** buffer.rs:102-115 [read_char_mut]: the answer and the range afterwards. *)
Definition read_char_mut (r : BufferRange) : outcome (option char * BufferRange) :=
  s <- br_as_str r ;;
  match char_indices s with
  | [] => Ret (None, r)
  | (_, next_ch) :: chars =>
      let start_index := match chars with [] => br_end r | (new_offset, _) :: _ => br_start r + new_offset end in
      Ret (Some next_ch, with_start r start_index)
  end.
(** buffer.rs:117-120 [read_char]. *)
Definition read_char (r : BufferRange) : outcome (option (char * BufferRange)) :=
  '(o, copy) <- read_char_mut r ;;
  Ret (option_map (fun ch => (ch, copy)) o).
(** buffer.rs:124-129: the loop of [advance_n_mut]; [None] is the early return. *)
Fixpoint advance_loop (n : nat) (r : BufferRange) : outcome (option BufferRange) :=
  match n with
  | 0 => Ret (Some r)
  | S n => '(o, r') <- read_char_mut r ;;
           match o with None => Ret None | Some _ => advance_loop n r' end
  end.
(** buffer.rs:122-131 [advance_n_mut]. *)
Definition advance_n_mut (r : BufferRange) (n : nat) : outcome (option (list char) * BufferRange) :=
  let old_start := br_start r in
  o <- advance_loop n r ;;
  match o with
  | None => Ret (None, with_start r old_start)
  | Some r' => s <- slice (bf_text (br_buf r')) old_start (br_start r') ;; Ret (Some s, r')
  end.
(** buffer.rs:133-142 [advance_n]. *)
Definition advance_n (r : BufferRange) (n : nat) : outcome (option (list char * BufferRange)) :=
  '(o, copy) <- advance_n_mut r n ;;
  match o with
  | Some _ => s <- slice (bf_text (br_buf r)) (br_start r) (br_start copy) ;; Ret (Some (s, copy))
  | None => Ret None
  end.
(** buffer.rs:199-201 [ref_eq]. *)
Definition ref_eq (a b : Buffer) : bool := Nat.eqb (bf_addr a) (bf_addr b).
(** buffer.rs:146-155 [remove_suffix]. *)
Definition remove_suffix (r suffix : BufferRange) : outcome BufferRange :=
  _ <- assert_ (ref_eq (br_buf r) (br_buf suffix)) "assertion failed: self.buf.ref_eq(&suffix.buf)" ;;
  _ <- assert_ (Nat.eqb (br_end r) (br_end suffix)) "assertion failed: `(left == right)`" ;;
  _ <- assert_ (Nat.leb (br_start r) (br_start suffix)) "assertion failed: self.start_index <= suffix.start_index" ;;
  Ret {| br_start := br_start r; br_end := br_start suffix; br_buf := br_buf r |}.

(** ** Positions *)
(** buffer.rs:262-267 [TextPos]. *)
Record TextPos := { tp_line : nat; tp_column : nat; tp_byte_offset : nat }.

Section Positions.
  (** [slice::binary_search_by], given how each element compares: [inl] is [Ok], [inr] is [Err].  The standard
      library fixes only its contract (Spec/BufferSpec.v), so it is a parameter. *)
  Variable binary_search : list comparison -> nat + nat.
  (** [UnicodeSegmentation::graphemes(true)]: the pieces of a line. *)
  Variable graphemes : list char -> list (list char).

  (** buffer.rs:209-217: the comparison of a line with the offset. *)
  Definition line_cmp (byte_offset : nat) (range : nat * nat) : comparison :=
    if Nat.ltb byte_offset (fst range) then Gt else if Nat.ltb (snd range) byte_offset then Lt else Eq.
  (** buffer.rs:203-232 [get_line_str_from_byte_offset]. *)
  Definition get_line_str (b : Buffer) (byte_offset : nat) : outcome (list char * nat * nat) :=
    _ <- assert_ (Nat.leb byte_offset (str_len (bf_text b))) "assertion failed: byte_offset <= self.0.text.len()" ;;
    line_range_index <-
      match binary_search (map (line_cmp byte_offset) (bf_line_ranges b)) with
      | inl i => Ret i
      | inr insert_pos => if Nat.ltb 0 insert_pos then Ret (insert_pos - 1) else Panic "attempt to subtract with overflow"
      end ;;
    '(start_byte_index, end_byte_index) <- expect (nth_error (bf_line_ranges b) line_range_index) "index out of bounds" ;;
    line <- slice (bf_text b) start_byte_index end_byte_index ;;
    let clamped := if Nat.leb byte_offset end_byte_index then byte_offset else end_byte_index in
    line_byte_offset <-
      (if Nat.leb start_byte_index clamped then Ret (clamped - start_byte_index) else Panic "attempt to subtract with overflow") ;;
    Ret (line, line_range_index, line_byte_offset).

  (** unicode_segmentation [grapheme_indices]: the byte offset of each piece. *)
  Fixpoint grapheme_offsets (offset : nat) (gs : list (list char)) : list nat :=
    match gs with [] => [] | x :: r => offset :: grapheme_offsets (offset + str_len x) r end.
  (** buffer.rs:240-246: the loop counting the pieces. *)
  Fixpoint count_columns (offsets : list nat) (line_byte_offset col_index : nat) : nat :=
    match offsets with
    | [] => col_index
    | grapheme_offset :: r =>
        if Nat.leb line_byte_offset grapheme_offset then col_index else count_columns r line_byte_offset (col_index + 1)
    end.
  (** buffer.rs:234-253 [get_text_pos_from_byte_offset]. *)
  Definition get_text_pos (b : Buffer) (byte_offset : nat) : outcome TextPos :=
    '(line, line_number, line_byte_offset) <- get_line_str b byte_offset ;;
    let col_index := count_columns (grapheme_offsets 0 (graphemes line)) line_byte_offset 0 in
    Ret {| tp_line := line_number; tp_column := col_index; tp_byte_offset := byte_offset |}.
  (** buffer.rs:157-159 [start_pos]; 161-163 [end_pos]. *)
  Definition start_pos (r : BufferRange) : outcome TextPos := get_text_pos (br_buf r) (br_start r).
  Definition end_pos (r : BufferRange) : outcome TextPos := get_text_pos (br_buf r) (br_end r).
End Positions.

(** core::slice::binary_search_by (the loop on [left], [right], [size]); [size] bounds the number of rounds. *)
Fixpoint std_search_loop (fuel : nat) (l : list comparison) (left right : nat) : nat + nat :=
  match fuel with
  | 0 => inr left
  | S fuel =>
      if Nat.ltb left right then
        let mid := left + (right - left) / 2 in
        match nth mid l Gt with
        | Lt => std_search_loop fuel l (mid + 1) right
        | Gt => std_search_loop fuel l left mid
        | Eq => inl mid
        end
      else inr left
  end.
Definition std_binary_search (l : list comparison) : nat + nat := std_search_loop (S (length l)) l 0 (length l).

(** ** Keys *)
(** core::str [Ord for str]: the bytes, lexicographically. *)
Fixpoint bytes_cmp (a b : list N) : comparison :=
  match a, b with
  | [], [] => Eq
  | [], _ => Lt
  | _, [] => Gt
  | x :: a, y :: b => match N.compare x y with Eq => bytes_cmp a b | c => c end
  end.
(** buffer.rs:169-176 [BufferRangeKey], [as_str]; 178-182 [Ord]; 190-194 [PartialEq]. *)
Definition key_cmp (a b : BufferRange) : outcome comparison :=
  s <- br_as_str a ;; t <- br_as_str b ;; Ret (bytes_cmp (as_bytes s) (as_bytes t)).
Definition key_eqb (a b : BufferRange) : outcome bool :=
  c <- key_cmp a b ;; Ret (match c with Eq => true | _ => false end).
