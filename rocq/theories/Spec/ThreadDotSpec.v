(** What it means that the calls a thread has made on a tree are those of a dot export. *)
From Coq Require Import String List Arith Bool.
From Verif.Model Require Import Ord BTree Outcome Utils Tree DotText DotReads RwLock.
From Verif.Spec Require Import TreeSpec ThreadParseSpec.
Import ListNotations.

Section Log.
  Context {T AK V : Type}.
  Local Notation log := (list (tr_op T AK V * outcome (tr_val T AK V))).

  (** Reads that are taken from a log of calls and results, the earliest first: the next call of the log must be this
      read, on the tree [h], and its result (or panic) is the logged one.  Otherwise the log is not that of an export
      ([NoFuel]: no result). *)
  Definition logged_reads (h : TreeHandle) : TreeReads T AK V log :=
    {| rd_node := fun i s =>
         match s with
         | (TAlts n, Ret (RAlts l)) :: s' =>
             if node_is h i n && forallb (fun a => Nat.eqb (al_inner a) h) l then Ret (map al_index l, s') else NoFuel
         | (TAlts n, Panic e) :: s' => if node_is h i n then Panic e else NoFuel
         | _ => NoFuel
         end;
       rd_alt := fun i s =>
         match s with
         | (TContent a, r) :: s' =>
             if Nat.eqb (al_inner a) h && Nat.eqb (al_index a) i then
               match r with
               | Ret (RContent (NLeaf k v)) => Ret (CLeaf k v, s')
               | Ret (RContent (NBranch x ns)) =>
                   if forallb (fun n => Nat.eqb (nd_inner n) h) ns then Ret (CBranch x (map nd_index ns), s') else NoFuel
               | Panic e => Panic e
               | _ => NoFuel
               end
             else NoFuel
         | _ => NoFuel
         end |}.

  Variables (debug_t : T -> string) (debug_ak : AK -> string) (debug_v : V -> string).
  (** The calls are, from first to last, those of a [to_dot] of the node, which wrote these statements; they are those
      of a [to_dot] that panicked (and possibly calls made after that). *)
  Definition export_log (n : Node) (log : log) (out : list dot_stmt) : Prop :=
    exists fuel, gto_dot (logged_reads (nd_inner n)) debug_t debug_ak debug_v (nd_index n) fuel log = Ret (out, []).
  Definition export_panic_log (n : Node) (log : log) (e : string) : Prop :=
    exists fuel, gto_dot (logged_reads (nd_inner n)) debug_t debug_ak debug_v (nd_index n) fuel log = Panic e.
End Log.
