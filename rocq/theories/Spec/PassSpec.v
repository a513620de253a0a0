(** What passes mean without a context: every request is answered by evaluating the requested pass
    again. *)
From Coq Require Import String List.
From Verif.Model Require Import Ord BTree Outcome Utils Grammar Nullable Firsts Passes.
Import ListNotations.

(** The message of the panic on recursive dependencies. *)
Definition rec_msg : string := "Detected recursive loop in pass dependencies."%string.

(** The passes whose body was started, according to the observations. *)
Definition started {P Val E} (st : PassContext P Val E) : list P :=
  flat_map (fun e => match e with EvStart p => [p] | EvReturn _ _ => [] end) (trace st).

Section PassSpec.
  Context {P Val E : Type}.
  Variable run_pass : P -> body P Val E.

  (** Plain evaluation of a body; it has no result when it panics, loops, or requests itself forever. *)
  Inductive eval : body P Val E -> result Val E -> Prop :=
  | ev_ret v : eval (BRet v) (Ok v)
  | ev_err e : eval (BErr e) (Err e)
  | ev_get q k rq r : eval (run_pass q) rq -> eval (k rq) r -> eval (BGet q k) r.

  (** The same, with every requested pass succeeding. *)
  Inductive eval_ok : body P Val E -> result Val E -> Prop :=
  | eo_ret v : eval_ok (BRet v) (Ok v)
  | eo_err e : eval_ok (BErr e) (Err e)
  | eo_get q k v r : eval_ok (run_pass q) (Ok v) -> eval_ok (k (Ok v)) r -> eval_ok (BGet q k) r.

  (** No body panics or loops by itself. *)
  Inductive quiet : body P Val E -> Prop :=
  | qu_ret v : quiet (BRet v)
  | qu_err e : quiet (BErr e)
  | qu_get q k : (forall r, quiet (k r)) -> quiet (BGet q k).

  (** No body loops by itself. *)
  Inductive no_hang : body P Val E -> Prop :=
  | nh_ret v : no_hang (BRet v)
  | nh_err e : no_hang (BErr e)
  | nh_panic m : no_hang (BPanic m)
  | nh_get q k : (forall r, no_hang (k r)) -> no_hang (BGet q k).

  (** The body of [p] starts by requesting [q]. *)
  Definition requests_first (p q : P) : Prop := exists k, run_pass p = BGet q k.
End PassSpec.

(** The library's analyses computed directly, without a context. *)
Definition std_direct {T NT AK AV : Type} `{Ord T} `{Ord NT}
  (lay : layout NT) (g : Grammar T NT AK AV) (n : nat) (p : StdPass) : outcome (result (StdVal T NT AK) StdErr) :=
  match p with
  | PNullable => r <- calculate_nullables lay g n ;;
      Ret (match r with Ok i => Ok (VNullable i) | Err e => Err (ENullable e) end)
  | PFirsts => r <- calculate_firsts lay g n ;;
      Ret (match r with Ok m => Ok (VFirsts m) | Err e => Err (EFirsts e) end)
  | PFollows => r <- calculate_follows lay g n ;;
      Ret (match r with Ok m => Ok (VFollows m) | Err e => Err (EFollows e) end)
  end.
