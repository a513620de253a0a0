(** src/parsers/tree.rs:415-424, 727-762: what the dot export writes. *)
From Coq Require Import String Ascii List Arith Bool Decimal DecimalString.
From Verif.Model Require Import Ord BTree Outcome Tree.
Import ListNotations.
Local Open Scope string_scope.

(** [format!("{}", n)] for [usize]. *)
Definition show_usize (n : nat) : string := NilZero.string_of_uint (Nat.to_uint n).

(** dot::Id::new (crate [dot] 0.1.4): a letter or underscore, then letters, digits, underscores. *)
Definition in_range (lo c hi : ascii) : bool :=
  Nat.leb (nat_of_ascii lo) (nat_of_ascii c) && Nat.leb (nat_of_ascii c) (nat_of_ascii hi).
Definition is_letter_or_underscore (c : ascii) : bool :=
  in_range "a" c "z" || in_range "A" c "Z" || Ascii.eqb c "_".
Definition is_constituent (c : ascii) : bool := is_letter_or_underscore c || in_range "0" c "9".
Definition id_new (name : string) : option string :=
  match name with
  | "" => None
  | String c rest =>
      if is_letter_or_underscore c && forallb is_constituent (list_ascii_of_string rest) then Some name else None
  end.
(** [dot::Id::new(..).unwrap()] *)
Definition id_unwrap (name : string) : outcome string :=
  match id_new name with Some i => Ret i | None => Panic "unwrap: not a dot id" end.

(** The statements of a dot graph, in order. *)
Inductive dot_stmt :=
| NodeStmt (id label shape : string)
| EdgeStmt (source target : string).

Section Labels.
  Context {T AK V : Type}.
  (** [format!("{:?}", ..)] *)
  Variables (debug_t : T -> string) (debug_ak : AK -> string) (debug_v : V -> string).

  (** tree.rs:734-739 [node_id] *)
  Definition node_id (x : DotNode) : outcome string :=
    match x with
    | DNode i => id_unwrap ("n" ++ show_usize i)
    | DAlt i => id_unwrap ("a" ++ show_usize i)
    end.
  (** tree.rs:741-746 [node_shape] *)
  Definition node_shape (x : DotNode) : string := match x with DNode _ => "point" | DAlt _ => "box" end.
  (** tree.rs:748-761 [node_label] *)
  Definition node_label (t : Inner T AK V) (x : DotNode) : outcome string :=
    match x with
    | DNode _ => Ret ""
    | DAlt i =>
        c <- get_alt t i ;;
        Ret (match c with
             | CBranch action _ => debug_ak action
             | CLeaf kind value => debug_t kind ++ "(" ++ debug_v value ++ ")"
             end)
    end.

  (** [dot::render]: a statement per vertex, then a statement per edge (edge labels are empty and vertex
      styles default; the text of the statements is left to the crate). *)
  Definition node_stmt (t : Inner T AK V) (x : DotNode) : outcome dot_stmt :=
    id <- node_id x ;; label <- node_label t x ;; Ret (NodeStmt id label (node_shape x)).
  Definition edge_stmt (e : DotNode * DotNode) : outcome dot_stmt :=
    s <- node_id (fst e) ;; d <- node_id (snd e) ;; Ret (EdgeStmt s d).
  (** tree.rs:420-424 [to_dot] *)
  Definition to_dot_stmts (t : Inner T AK V) (node : nat) (fuel : nat) : outcome (list dot_stmt) :=
    '(ns, es) <- to_dot t node fuel ;;
    a <- flat_map_o (fun x => s <- node_stmt t x ;; Ret [s]) ns ;;
    b <- flat_map_o (fun e => s <- edge_stmt e ;; Ret [s]) es ;;
    Ret (a ++ b)%list.
End Labels.
