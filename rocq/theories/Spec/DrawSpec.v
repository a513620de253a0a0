(** Reading trees from the statements of a dot graph: follow the arrows, choosing one arrow at each point and taking
    all arrows, in order, at each box. *)
From Coq Require Import String List.
From Verif.Model Require Import Ord Outcome Tokens Tree DotText.
From Verif.Spec Require Import EarleySpec AmbigSpec.
Import ListNotations.
Local Open Scope string_scope.

(** A tree as it is drawn: boxes with their labels. *)
Inductive drawing := Drawn (label : string) (parts : list drawing).

Section Draw.
  Context {T AK V : Type}.
  Variables (debug_t : T -> string) (debug_ak : AK -> string) (debug_v : V -> string).

  (** A branch is drawn with its action as label, a leaf with its kind and, in parentheses, its value. *)
  Fixpoint draw (t : ptree T AK V) : drawing :=
    match t with
    | PLeaf k v => Drawn (debug_t k ++ "(" ++ debug_v v ++ ")") []
    | PBranch x cs => Drawn (debug_ak x) (map draw cs)
    end.

  (** Labels tell contents apart. *)
  Definition labels_tell : Prop :=
    (forall x y, debug_ak x = debug_ak y -> x = y) /\
    (forall k v k' v', debug_t k ++ "(" ++ debug_v v ++ ")" = debug_t k' ++ "(" ++ debug_v v' ++ ")" -> k = k' /\ v = v') /\
    (forall x k v, debug_ak x <> debug_t k ++ "(" ++ debug_v v ++ ")").
End Draw.

Section Shows.
  Variable stmts : list dot_stmt.

  (** Where the arrows from [x] lead, in the order of the statements. *)
  Definition arrows (x : string) : list string :=
    flat_map (fun s => match s with EdgeStmt a b => if string_dec a x then [b] else [] | NodeStmt _ _ _ => [] end) stmts.

  Inductive box_shows : string -> drawing -> Prop :=
  | box_shows_parts b l ds : In (NodeStmt b l "box") stmts -> points_show (arrows b) ds -> box_shows b (Drawn l ds)
  with point_shows : string -> drawing -> Prop :=
  | point_shows_choice p l b d : In (NodeStmt p l "point") stmts -> In b (arrows p) -> box_shows b d -> point_shows p d
  with points_show : list string -> list drawing -> Prop :=
  | points_show_nil : points_show [] []
  | points_show_cons p ps d ds : point_shows p d -> points_show ps ds -> points_show (p :: ps) (d :: ds).
End Shows.
