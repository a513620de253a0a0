(** Names as plain values: every name owns its own string. *)
From Coq Require Import String List.
From Verif.Model Require Import Ord Name.
Import ListNotations.

Definition v_step (vs : list (option string)) (op : nop) : list nobs * list (option string) :=
  let var i := match nth_error vs i with Some (Some s) => Some s | _ => None end in
  match op with
  | NNew s => ([], vs ++ [Some s])
  | NClone i => match var i with Some s => ([], vs ++ [Some s]) | None => ([], vs) end
  | NWrite i f => match var i with Some s => ([], set_nth vs i (Some (f s))) | None => ([], vs) end
  | NDrop i => match var i with Some _ => ([], set_nth vs i None) | None => ([], vs) end
  | NStr i => match var i with Some s => ([OStr s], vs) | None => ([], vs) end
  | NCmp i j => match var i, var j with Some s, Some t => ([OCmp (cmp s t)], vs) | _, _ => ([], vs) end
  end.

Fixpoint v_exec (vs : list (option string)) (ops : list nop) : list nobs * list (option string) :=
  match ops with
  | [] => ([], vs)
  | op :: r => let '(o, vs1) := v_step vs op in let '(o', vs2) := v_exec vs1 r in (o ++ o', vs2)
  end.

(** What [str] of a variable returns in a state of the implementation. *)
Definition see (st : nstate) (v : option addr) : option string :=
  match v with Some a => option_map content (n_heap st a) | None => None end.
