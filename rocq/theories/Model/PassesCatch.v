(** src/grammar/passes/mod.rs with programs that catch panics ([std::panic::catch_unwind]): a pass body or a
    user of the context may request a pass, see that the request panicked, and go on.  A panic that unwinds
    through [get_pass] (mod.rs:83-126) leaves the entries of the context as they are: the [RefCell] guards are
    released, the placeholder of the pass stays. *)
From Coq Require Import String List.
From Verif.Model Require Import Ord BTree Outcome Utils Passes.
Import ListNotations.
Local Open Scope string_scope.

(** What a program that catches panics sees of a request. *)
Inductive answer (Val E : Type) : Type :=
| AOk (v : Val)
| AErr (e : E)
| APanicked (msg : string).
Arguments AOk {Val E} v.
Arguments AErr {Val E} e.
Arguments APanicked {Val E} msg.

(** mod.rs:53-59 [Pass::run_pass], as [body] of Model/Passes.v, but it sees panics. *)
Inductive cbody (P Val E : Type) : Type :=
| CRet (v : Val)
| CErr (e : E)
| CPanic (msg : string)
| CHang
| CGet (q : P) (k : answer Val E -> cbody P Val E).
Arguments CRet {P Val E} v.
Arguments CErr {P Val E} e.
Arguments CPanic {P Val E} msg.
Arguments CHang {P Val E}.
Arguments CGet {P Val E} q k.

Section Catch.
  Context {P Val E : Type} `{Ord P}.
  Local Notation ctx := (PassContext P Val E).

  (** A body that lets panics through. *)
  Fixpoint embed (b : body P Val E) : cbody P Val E :=
    match b with
    | BRet v => CRet v
    | BErr e => CErr e
    | BPanic m => CPanic m
    | BHang => CHang
    | BGet q k => CGet q (fun a => match a with
                                   | AOk v => embed (k (Ok v))
                                   | AErr e => embed (k (Err e))
                                   | APanicked m => CPanic m
                                   end)
    end.

  (** Running a body, [get] being the context's [get_pass]. *)
  Fixpoint run_cbody (get : P -> ctx -> outcome (result (nat * Val) E) * ctx)
    (b : cbody P Val E) (st : ctx) : outcome (result Val E) * ctx :=
    match b with
    | CRet v => (Ret (Ok v), st)
    | CErr e => (Ret (Err e), st)
    | CPanic m => (Panic m, st)
    | CHang => (NoFuel, st)
    | CGet q k =>
        match get q st with
        | (Ret (Ok (_, v)), st') => run_cbody get (k (AOk v)) st'
        | (Ret (Err e), st') => run_cbody get (k (AErr e)) st'
        | (Panic m, st') => run_cbody get (k (APanicked m)) st'
        | (NoFuel, st') => (NoFuel, st')
        end
    end.

  (** mod.rs:83-126 [get_pass], as in Model/Passes.v but for bodies that may catch. *)
  Fixpoint get_pass_c (run_pass : P -> cbody P Val E) (fuel : nat) (p : P) (st : ctx)
    : outcome (result (nat * Val) E) * ctx :=
    match fuel with
    | 0 => (NoFuel, st)
    | S fuel' =>
        match bt_get p (passes st) with
        | Some NoCurrentValue => (Panic "Detected recursive loop in pass dependencies.", st)
        | Some _ => pc_lookup p st
        | None =>
            let st1 := Build_PassContext (bt_insert p NoCurrentValue (passes st)) (next_cell st)
                         (EvStart p :: trace st) in
            match run_cbody (get_pass_c run_pass fuel') (run_pass p) st1 with
            | (Ret (Ok value), st2) =>
                pc_lookup p
                  (Build_PassContext (bt_insert p (Computed (next_cell st2) value) (passes st2))
                     (S (next_cell st2)) (trace st2))
            | (Ret (Err e), st2) =>
                (Ret (Err e),
                 Build_PassContext (passes st2) (next_cell st2) (EvReturn p (Err e) :: trace st2))
            | (Panic m, st2) => (Panic m, st2)
            | (NoFuel, st2) => (NoFuel, st2)
            end
        end
    end.
End Catch.
