(** src/grammar/passes/mod.rs: the pass context, which runs grammar analyses on demand and keeps their
    results. *)
From Coq Require Import String List.
From Verif.Model Require Import Ord BTree Outcome Utils Grammar Nullable Firsts.
Import ListNotations.
Local Open Scope string_scope.

(** mod.rs:53-59 [Pass::run_pass], as the requests it makes on the context and what it does with the
    answers.  Everything between two requests is pure computation on the grammar (bodies with other side
    effects are not modelled); it can succeed, fail, panic or loop.  A body sees the values of the passes
    it requests, not their addresses. *)
Inductive body (P Val E : Type) : Type :=
| BRet (v : Val)
| BErr (e : E)
| BPanic (msg : string)
| BHang
| BGet (q : P) (k : result Val E -> body P Val E).
Arguments BRet {P Val E} v.
Arguments BErr {P Val E} e.
Arguments BPanic {P Val E} msg.
Arguments BHang {P Val E}.
Arguments BGet {P Val E} q k.

(** The entries of [PassContext::passes] (mod.rs:50, 62-65): an [Rc] to [NoCurrentValue] or to the
    pass's value; [cell] is the identity of the [Rc] allocation.  The [TypeId] key and the [downcast]s
    are represented by the key [P]: a value stored under a key is of that pass's type. *)
Inductive entry (Val : Type) : Type :=
| NoCurrentValue
| Computed (cell : nat) (v : Val).
Arguments NoCurrentValue {Val}.
Arguments Computed {Val} cell v.

(** Observations (not in the code): a body was started; a [get_pass] call returned. *)
Inductive event (P Val E : Type) : Type :=
| EvStart (p : P)
| EvReturn (p : P) (r : result (nat * Val) E).
Arguments EvStart {P Val E} p.
Arguments EvReturn {P Val E} p r.

(** mod.rs:61-65 [PassContext] (without the grammar reference), the allocation counter, and the
    observations so far, latest first. *)
Record PassContext (P Val E : Type) := {
  passes : btmap P (entry Val);
  next_cell : nat;
  trace : list (event P Val E)
}.
Arguments passes {P Val E} _.
Arguments next_cell {P Val E} _.
Arguments trace {P Val E} _.
Arguments Build_PassContext {P Val E} _ _ _.

(** Values of passes, without the address. *)
Definition forget {Val E} (r : result (nat * Val) E) : result Val E :=
  match r with Ok (_, v) => Ok v | Err e => Err e end.

Section Passes.
  Context {P Val E : Type} `{Ord P}.

  (** mod.rs:69-74 [PassContext::new]. *)
  Definition pc_new : PassContext P Val E := Build_PassContext [] 0 [].

  (** Running a body, [get] being the context's [get_pass]. *)
  Fixpoint run_body (get : P -> PassContext P Val E -> outcome (result (nat * Val) E) * PassContext P Val E)
    (b : body P Val E) (st : PassContext P Val E) : outcome (result Val E) * PassContext P Val E :=
    match b with
    | BRet v => (Ret (Ok v), st)
    | BErr e => (Ret (Err e), st)
    | BPanic m => (Panic m, st)
    | BHang => (NoFuel, st)
    | BGet q k =>
        match get q st with
        | (Ret r, st') => run_body get (k (forget r)) st'
        | (Panic m, st') => (Panic m, st')
        | (NoFuel, st') => (NoFuel, st')
        end
    end.

  (** mod.rs:119-126: the final lookup, clone and [downcast]. *)
  Definition pc_lookup (p : P) (st : PassContext P Val E)
    : outcome (result (nat * Val) E) * PassContext P Val E :=
    match bt_get p (passes st) with
    | None => (Panic "existence already checked", st)
    | Some NoCurrentValue => (Panic "type already verified", st)
    | Some (Computed c v) =>
        (Ret (Ok (c, v)),
         Build_PassContext (passes st) (next_cell st) (EvReturn p (Ok (c, v)) :: trace st))
    end.

  (** mod.rs:83-126 [get_pass].  [fuel] bounds the nesting of passes. *)
  Fixpoint get_pass (run_pass : P -> body P Val E) (fuel : nat) (p : P) (st : PassContext P Val E)
    : outcome (result (nat * Val) E) * PassContext P Val E :=
    match fuel with
    | 0 => (NoFuel, st)
    | S fuel' =>
        match bt_get p (passes st) with
        | Some NoCurrentValue => (Panic "Detected recursive loop in pass dependencies.", st)
        | Some _ => pc_lookup p st
        | None =>
            let st1 := Build_PassContext (bt_insert p NoCurrentValue (passes st)) (next_cell st)
                         (EvStart p :: trace st) in
            match run_body (get_pass run_pass fuel') (run_pass p) st1 with
            | (Ret (Ok value), st2) =>
                pc_lookup p
                  (Build_PassContext (bt_insert p (Computed (next_cell st2) value) (passes st2))
                     (S (next_cell st2)) (trace st2))
            | (Ret (Err e), st2) =>
                (Ret (Err e),
                 Build_PassContext (passes st2) (next_cell st2) (EvReturn p (Err e) :: trace st2))
            | (Panic m, st2) => (Panic m, st2)
            | (NoFuel, st2) => (NoFuel, st2)
            end
        end
    end.

  (** A user of the context: any program that requests passes and looks at the answers; here it is
      given a fresh context. *)
  Definition use_context (run_pass : P -> body P Val E) (client : body P Val E) (fuel : nat)
    : outcome (result Val E) * PassContext P Val E :=
    run_body (get_pass run_pass fuel) client pc_new.
End Passes.

(** ** The passes of the library *)
Inductive StdPass := PNullable | PFirsts | PFollows.

(** [TypeId]'s order is unspecified; any order does. *)
#[export] Instance Ord_StdPass : Ord StdPass := fun a b =>
  let n p := match p with PNullable => 0 | PFirsts => 1 | PFollows => 2 end in
  Nat.compare (n a) (n b).

Section Std.
  Context {T NT AK AV : Type} `{Ord T} `{Ord NT}.

  Inductive StdVal :=
  | VNullable (i : GrammarNullableInfo NT AK)
  | VFirsts (m : btmap NT (btset T))
  | VFollows (m : btmap NT (btset T)).
  Inductive StdErr := ENullable (e : NullableError) | EFirsts (e : FirstsError) | EFollows (e : FollowsError).

  Definition body_of {A} (o : outcome A) (k : A -> body StdPass StdVal StdErr) : body StdPass StdVal StdErr :=
    match o with Ret a => k a | Panic m => BPanic m | NoFuel => BHang end.

  (** nullable.rs:45-49, firsts.rs:34-72, follows.rs:24-66: the three [run_pass] bodies; [fuel] bounds
      their loops. *)
  Definition std_run_pass (lay : layout NT) (g : Grammar T NT AK AV) (fuel : nat) (p : StdPass)
    : body StdPass StdVal StdErr :=
    match p with
    | PNullable =>
        body_of (calculate_nullables lay g fuel) (fun r =>
          match r with Ok i => BRet (VNullable i) | Err e => BErr (ENullable e) end)
    | PFirsts =>
        BGet PNullable (fun r =>
          match r with
          | Ok (VNullable i) =>
              body_of (change_loop (change_iter (firsts_step (AV := AV) i) (prods g)) fuel cm_new) (fun m =>
                BRet (VFirsts (cm_into_inner m)))
          | Err (ENullable e) => BErr (EFirsts (FNullableError e))
          | _ => BPanic "unreachable: another pass's type"
          end)
    | PFollows =>
        BGet PFirsts (fun r =>
          match r with
          | Ok (VFirsts m) =>
              body_of (change_loop (change_iter (follows_step (AV := AV) (AK := AK) m) (prods g)) fuel cm_new) (fun f =>
                BRet (VFollows (cm_into_inner f)))
          | Err (EFirsts e) => BErr (EFollows (FoFirst e))
          | _ => BPanic "unreachable: another pass's type"
          end)
    end.
End Std.
Arguments StdVal T NT AK : clear implicits.
