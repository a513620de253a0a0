(** What it means that the calls a thread has made on a tree are those of a parse. *)
From Coq Require Import String List Arith Bool.
From Verif.Model Require Import Ord BTree Outcome Utils Grammar StartGrammar Tokens Tree State Earley EarleyShared RwLock.
From Verif.Spec Require Import TreeSpec.
Import ListNotations.

Section Log.
  Context {T AK V : Type} `{Ord T} `{Ord AK} `{Ord V}.
  Local Notation log := (list (tr_op T AK V * outcome (tr_val T AK V))).

  Fixpoint nats_eqb (l l' : list nat) : bool :=
    match l, l' with
    | [], [] => true
    | a :: r, b :: r' => Nat.eqb a b && nats_eqb r r'
    | _, _ => false
    end.
  Definition node_is (h : TreeHandle) (i : nat) (n : Node) : bool := Nat.eqb (nd_inner n) h && Nat.eqb (nd_index n) i.
  Definition nodes_are (h : TreeHandle) (is : list nat) (ns : list Node) : bool :=
    forallb (fun n => Nat.eqb (nd_inner n) h) ns && nats_eqb is (map nd_index ns).

  (** Tree operations that are read off a log of calls and results, the earliest first: the next call of the log must be
      this one, on the tree [h] and with these arguments, and its result is the logged one.  Otherwise the log is not
      that of a parse ([NoFuel]: no result). *)
  Definition logged (h : TreeHandle) : TreeOps T AK V log :=
    {| op_leaf := fun k v s =>
         match s with
         | (TMakeLeafNode h' k' v', Ret (RNode n)) :: s' =>
             if Nat.eqb h' h && eqb k' k && eqb v' v && Nat.eqb (nd_inner n) h then Ret (nd_index n, s') else NoFuel
         | _ => NoFuel
         end;
       op_branch := fun x is s =>
         match s with
         | (TMakeBranchNode h' x' ns, Ret (RNode n)) :: s' =>
             if Nat.eqb h' h && eqb x' x && nodes_are h is ns && Nat.eqb (nd_inner n) h then Ret (nd_index n, s') else NoFuel
         | _ => NoFuel
         end;
       op_add_all := fun i j s =>
         match s with
         | (TAddAll n m, Ret (RChanged c)) :: s' => if node_is h i n && node_is h j m then Ret (c, s') else NoFuel
         | _ => NoFuel
         end |}.

  (** The calls of thread [i] that have returned, the earliest first. *)
  Definition calls_of (i : nat) (tr : list (call_event T AK V)) : log :=
    rev (flat_map (fun e => match e with ERet j o r => if Nat.eqb j i then [(o, r)] else [] | ECall _ _ => [] end) tr).

  (** [n] is a node thread [i] was given by one of its calls. *)
  Definition node_of (i : nat) (tr : list (call_event T AK V)) (n : Node) : Prop := exists o, In (ERet i o (Ret (RNode n))) tr.
  (** Thread [j] calls [add_alt] or [add_all] on the node. *)
  Definition adds_to (j : nat) (tr : list (call_event T AK V)) (n : Node) : Prop :=
    (exists a, In (ECall j (TAddAlt n a)) tr) \/ (exists m, In (ECall j (TAddAll n m)) tr).
End Log.

Section Parses.
  Context {T NT AK AV V : Type} `{Ord T} `{Ord NT} `{Ord AK} `{Ord V}.
  (** The calls are, from first to last, those of [parse] on the tree [h], which returned [o]; they are those of a
      [parse] that panicked (and possibly calls made after that). *)
  Definition parse_log (lay : layout (StartNonTerminal NT)) (sg : StartGrammar T NT AK AV) (w : list (Token T V)) (h : TreeHandle)
    (log : list (tr_op T AK V * outcome (tr_val T AK V))) (o : option nat) : Prop :=
    exists fuel, gparse (logged h) lay sg w log fuel = Ret (o, []).
  Definition panic_log (lay : layout (StartNonTerminal NT)) (sg : StartGrammar T NT AK AV) (w : list (Token T V)) (h : TreeHandle)
    (log : list (tr_op T AK V * outcome (tr_val T AK V))) (e : string) : Prop :=
    exists fuel, gparse (logged h) lay sg w log fuel = Panic e.
End Parses.
