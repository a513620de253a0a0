(** src/utils.rs:73-92: [Name], a reference counted string ([Rc<String>]). *)
From Coq Require Import String List Arith.
From Verif.Model Require Import Ord Outcome.
Import ListNotations.

Definition addr := nat.
(** An [Rc] allocation: strong count and content.  [Name] never creates a [Weak]. *)
Record rcell := { strong : nat; content : string }.
Definition heap := addr -> option rcell.
Definition h_upd (h : heap) (a : addr) (c : option rcell) : heap :=
  fun b => if Nat.eqb b a then c else h b.

(** The owned [Name]s of a program, by creation number ([None] once dropped or moved away), and the
    heap they point into. *)
Record nstate := { n_heap : heap; n_vars : list (option addr) }.

(** What a program can do with names.  [NWrite i f]: take [make_mut] of name [i] and change the string by
    any [f].  [NStr], [NCmp] observe ([str]; derived [Ord] of [Rc<String>] compares contents). *)
Inductive nop :=
| NNew (s : string)
| NClone (i : nat)
| NWrite (i : nat) (f : string -> string)
| NDrop (i : nat)
| NStr (i : nat)
| NCmp (i j : nat).

Inductive nobs := OStr (s : string) | OCmp (c : comparison).

Fixpoint set_nth {A} (l : list A) (i : nat) (x : A) : list A :=
  match l, i with
  | [], _ => []
  | _ :: r, 0 => x :: r
  | y :: r, S i' => y :: set_nth r i' x
  end.

Section Rc.
  (** The allocator: some free address (addresses may be reused). *)
  Variable alloc : heap -> addr.

  Definition deref (h : heap) (a : addr) : outcome rcell := expect (h a) "use after free"%string.

  (** [Rc::new] *)
  Definition rc_new (h : heap) (s : string) : addr * heap :=
    let a := alloc h in (a, h_upd h a (Some {| strong := 1; content := s |})).
  (** [Rc::clone] *)
  Definition rc_clone (h : heap) (a : addr) : outcome heap :=
    c <- deref h a ;; Ret (h_upd h a (Some {| strong := S (strong c); content := content c |})).
  (** [Rc::drop]: frees the allocation when the last strong reference goes. *)
  Definition rc_drop (h : heap) (a : addr) : outcome heap :=
    c <- deref h a ;;
    Ret (h_upd h a (if Nat.eqb (strong c) 1 then None
                    else Some {| strong := strong c - 1; content := content c |})).
  (** [Rc::make_mut]: unique references are used in place, shared ones are replaced by a fresh copy. *)
  Definition rc_make_mut (h : heap) (a : addr) : outcome (addr * heap) :=
    c <- deref h a ;;
    if Nat.eqb (strong c) 1 then Ret (a, h)
    else
      let '(a', h1) := rc_new h (content c) in
      h2 <- rc_drop h1 a ;; Ret (a', h2).

  (** One step.  Programs using a dropped name do not compile; here such an operation does nothing. *)
  Definition n_step (st : nstate) (op : nop) : outcome (list nobs * nstate) :=
    let var i := match nth_error (n_vars st) i with Some (Some a) => Some a | _ => None end in
    match op with
    | NNew s => (* utils.rs:78-80 *)
        let '(a, h) := rc_new (n_heap st) s in
        Ret ([], {| n_heap := h; n_vars := n_vars st ++ [Some a] |})
    | NClone i => (* utils.rs:73, derived *)
        match var i with
        | None => Ret ([], st)
        | Some a => h <- rc_clone (n_heap st) a ;; Ret ([], {| n_heap := h; n_vars := n_vars st ++ [Some a] |})
        end
    | NWrite i f => (* utils.rs:89-91 *)
        match var i with
        | None => Ret ([], st)
        | Some a =>
            '(a', h) <- rc_make_mut (n_heap st) a ;;
            c <- deref h a' ;;
            Ret ([], {| n_heap := h_upd h a' (Some {| strong := strong c; content := f (content c) |});
                        n_vars := set_nth (n_vars st) i (Some a') |})
        end
    | NDrop i =>
        match var i with
        | None => Ret ([], st)
        | Some a => h <- rc_drop (n_heap st) a ;; Ret ([], {| n_heap := h; n_vars := set_nth (n_vars st) i None |})
        end
    | NStr i => (* utils.rs:83-85 *)
        match var i with
        | None => Ret ([], st)
        | Some a => c <- deref (n_heap st) a ;; Ret ([OStr (content c)], st)
        end
    | NCmp i j => (* utils.rs:73, derived *)
        match var i, var j with
        | Some a, Some b =>
            c <- deref (n_heap st) a ;; d <- deref (n_heap st) b ;;
            Ret ([OCmp (cmp (content c) (content d))], st)
        | _, _ => Ret ([], st)
        end
    end.

  Fixpoint n_exec (st : nstate) (ops : list nop) : outcome (list nobs * nstate) :=
    match ops with
    | [] => Ret ([], st)
    | op :: r => '(o, st1) <- n_step st op ;; '(o', st2) <- n_exec st1 r ;; Ret (o ++ o', st2)
    end.
End Rc.

Definition n_init : nstate := {| n_heap := fun _ => None; n_vars := [] |}.
