(** Texts, lines and ranges, seen from outside. *)
From Coq Require Import String List Arith NArith.
From Verif.Model Require Import Outcome Buffer.
Import ListNotations.

(** Unicode scalar values. *)
Definition scalar (c : char) : Prop := (c < 55296)%N \/ (57344 <= c < 1114112)%N.

(** What has been allocated where, at some moment: distinct live buffers have distinct addresses. *)
Definition heap := nat -> option (string * list char).

(** The ranges a program can hold. *)
Inductive api_range (h : heap) : BufferRange -> Prop :=
| ar_new a name text : h a = Some (name, text) -> api_range h (br_new a name text)
| ar_read_char_mut r o r' : api_range h r -> read_char_mut r = Ret (o, r') -> api_range h r'
| ar_read_char r c r' : api_range h r -> read_char r = Ret (Some (c, r')) -> api_range h r'
| ar_advance_n_mut r n o r' : api_range h r -> advance_n_mut r n = Ret (o, r') -> api_range h r'
| ar_advance_n r n s r' : api_range h r -> advance_n r n = Ret (Some (s, r')) -> api_range h r'
| ar_remove_suffix r s r' : api_range h r -> api_range h s -> remove_suffix r s = Ret r' -> api_range h r'.

(** [r'] was obtained from [r] by reading forward. *)
Inductive forward (r : BufferRange) : BufferRange -> Prop :=
| fw_refl : forward r r
| fw_read r' o r'' : forward r r' -> read_char_mut r' = Ret (o, r'') -> forward r r''
| fw_advance r' n o r'' : forward r r' -> advance_n_mut r' n = Ret (o, r'') -> forward r r''.

(** [n] reads one after the other: the answers. *)
Fixpoint reads_n (n : nat) (r : BufferRange) : outcome (list (option char)) :=
  match n with
  | 0 => Ret []
  | S n => '(o, r') <- read_char_mut r ;; l <- reads_n n r' ;; Ret (o :: l)
  end.

(** A line terminator ("\n", "\r", or "\r\n" as one) ends just before the character number [k]. *)
Definition terminator_ends (text : list char) (k : nat) : Prop :=
  exists j, k = S j /\
    (nth_error text j = Some LF \/ (nth_error text j = Some CR /\ nth_error text k <> Some LF)).
(** The line of the place before character number [i] begins before character number [s] and ends before
    character number [e]. *)
Definition line_bounds (text : list char) (i s e : nat) : Prop :=
  s <= i /\ (s = 0 \/ terminator_ends text s) /\ (forall k, s < k -> k <= i -> ~ terminator_ends text k) /\
  s <= e /\ e <= length text /\ (forall k, s <= k -> k < e -> nth_error text k <> Some LF /\ nth_error text k <> Some CR) /\
  (e = length text \/ nth_error text e = Some LF \/ nth_error text e = Some CR).
(** [n] is the number of elements of [0 .. m] at which [P] holds. *)
Inductive count_upto (P : nat -> Prop) : nat -> nat -> Prop :=
| cu_0_no : ~ P 0 -> count_upto P 0 0
| cu_0_yes : P 0 -> count_upto P 0 1
| cu_S_no m n : count_upto P m n -> ~ P (S m) -> count_upto P (S m) n
| cu_S_yes m n : count_upto P m n -> P (S m) -> count_upto P (S m) (S n).

(** The contract of [binary_search_by] on a sequence of the form Lt.. Eq.. Gt.. *)
Definition sorted_cmps (l : list comparison) : Prop :=
  exists a b c, l = repeat Lt a ++ repeat Eq b ++ repeat Gt c.
Definition search_contract (bs : list comparison -> nat + nat) : Prop := forall l, sorted_cmps l ->
  match bs l with
  | inl i => nth_error l i = Some Eq
  | inr p => p <= length l /\ (forall i, i < p -> nth_error l i = Some Lt) /\ (forall i, p <= i -> i < length l -> nth_error l i = Some Gt)
  end.
(** The contract of [graphemes]: it cuts a line into nonempty pieces. *)
Definition graphemes_contract (gs : list char -> list (list char)) : Prop := forall l,
  concat (gs l) = l /\ forall x, In x (gs l) -> x <> [].

(** Lexicographic order of texts by code points. *)
Fixpoint text_cmp (a b : list char) : comparison :=
  match a, b with
  | [], [] => Eq
  | [], _ => Lt
  | _, [] => Gt
  | x :: a, y :: b => match N.compare x y with Eq => text_cmp a b | c => c end
  end.

(** [p] is the position, in [text], of the place before character number [i]: its line is the number of
    terminators that end there or earlier, its column the number of graphemes of that line that start before
    the place (or before the end of the line, for the place between "\r" and "\n"). *)
Definition is_pos (gs : list char -> list (list char)) (text : list char) (i : nat) (p : TextPos) : Prop :=
  tp_byte_offset p = str_len (firstn i text) /\
  count_upto (terminator_ends text) i (tp_line p) /\
  exists s e, line_bounds text i s e /\
    let line := firstn (e - s) (skipn s text) in
    let before := Nat.min i e - s in
    tp_column p <= length (gs line) /\
    (forall m, m < tp_column p -> length (concat (firstn m (gs line))) < before) /\
    (forall m, tp_column p <= m -> m < length (gs line) -> before <= length (concat (firstn m (gs line)))).
