(** src/parsers/earley.rs on a tree that other threads are using: [parse] gets a [TreeHandle], which any number
    of threads can hold at once.

    Every call on the tree is a sequence of critical sections of the tree's lock (tree.rs:253-267); between two of
    them other threads can get the lock.  The parser is written once more, over abstract tree operations (first
    section); with the operations of Model/Tree.v it is Model/Earley.v (Proofs/EarleyShare.v, [gparse_alone]), with
    the operations of the second section any calls of other threads come between any two critical sections.
    Read-locked ownership checks ([is_same]) change nothing and are left out, and so is the possibility that
    a nested read lock blocks (C54, Model/RwLock.v). *)
From Coq Require Import String List Arith Bool.
From Verif.Model Require Import Ord BTree Outcome Utils Grammar StartGrammar Tokens Tree State Earley.
Import ListNotations.

(** The three calls on the tree the parser makes: [make_leaf_node], [make_branch_node] and [add_all]
    (earley/state.rs:130-133, 196-201, 303). *)
Record TreeOps (T AK V S : Type) := {
  op_leaf : T -> V -> S -> outcome (nat * S);
  op_branch : AK -> list nat -> S -> outcome (nat * S);
  op_add_all : nat -> nat -> S -> outcome (WasChanged * S)
}.
Arguments op_leaf {T AK V S} _.
Arguments op_branch {T AK V S} _.
Arguments op_add_all {T AK V S} _.

Section Generic.
  Context {T NT AK AV V S : Type} `{Ord T} `{Ord NT} `{Ord AK} `{Ord V}.
  Variable ops : TreeOps T AK V S.
  Variable lay : layout (StartNonTerminal NT).
  Variable grammar : StartGrammar T NT AK AV.
  Local Notation EarleyState := (EarleyState T NT AK AV).
  Local Notation EarleyStateSet := (EarleyStateSet T NT AK AV).
  #[local] Instance Ord_GKey : Ord (EarleyStateKey T NT AK AV) := Ord_Key lay.

  (** earley/state.rs:119-139 [scan]. *)
  Definition gscan (st : EarleyState) (next_token : Token T V) (t : S) : outcome (option EarleyState * S) :=
    match next_elem_state (ek_prod_state (es_key st)) with
    | Some (e, ps) =>
        match as_term (pe_elem e) with
        | Some tm =>
            if has_kind tm (tk_kind next_token) then
              '(node, t') <- op_leaf ops (tk_kind next_token) (tk_value next_token) t ;;
              Ret (Some {| es_key := {| ek_prod_state := ps; ek_origin := ek_origin (es_key st) |};
                           es_value := create_next_value st node |}, t')
            else Ret (None, t)
        | None => Ret (None, t)
        end
    | None => Ret (None, t)
    end.

  (** earley/state.rs:185-206: the iterator chain of [complete]. *)
  Fixpoint gcomplete_from (self : EarleyState) (sts : list EarleyState) (t : S) : outcome (list EarleyState * S) :=
    match sts with
    | [] => Ret ([], t)
    | st :: r =>
        match next_elem_state (ek_prod_state (es_key st)) with
        | Some (e, ps) =>
            match as_nonterm (pe_elem e) with
            | Some nt =>
                if eqb nt (p_head (ps_prod (ek_prod_state (es_key self)))) then
                  action <- expect (as_base (ps_action_key (ek_prod_state (es_key self)))) "called `Option::unwrap()` on a `None` value" ;;
                  '(node, t1) <- op_branch ops action (es_value self) t ;;
                  '(rest, t2) <- gcomplete_from self r t1 ;;
                  Ret ({| es_key := {| ek_prod_state := ps; ek_origin := ek_origin (es_key st) |};
                          es_value := create_next_value st node |} :: rest, t2)
                else gcomplete_from self r t
            | None => gcomplete_from self r t
            end
        | None => gcomplete_from self r t
        end
    end.
  (** earley/state.rs:171-210 [complete]. *)
  Definition gcomplete (self : EarleyState) (prev_states : list EarleyStateSet) (curr_state : EarleyStateSet) (t : S)
    : outcome (list EarleyState * S) :=
    if is_complete (ek_prod_state (es_key self)) then
      origin_state <-
        (if Nat.eqb (ek_origin (es_key self)) (length prev_states) then Ret curr_state
         else expect (nth_error prev_states (ek_origin (es_key self))) "index out of bounds") ;;
      gcomplete_from self (states origin_state) t
    else Ret ([], t).

  (** earley/state.rs:301-304. *)
  Definition gmerge_values (existing_nodes new_nodes : list nat) (t : S) : outcome (WasChanged * S) :=
    change_iter (fun '(existing_node, new_node) t => op_add_all ops existing_node new_node t)
      (combine existing_nodes new_nodes) t.
  (** earley/state.rs:288-307 [insert]. *)
  Definition ginsert (state : EarleyState) (s : EarleyStateSet * S) : outcome (WasChanged * (EarleyStateSet * S)) :=
    let '(set, t) := s in
    match bt_get (es_key state) set with
    | None => Ret (Changed, (bt_insert (es_key state) (es_value state) set, t))
    | Some existing_nodes =>
        _ <- assert_ (Nat.eqb (length existing_nodes) (length (es_value state))) "assertion failed: `(left == right)`" ;;
        '(c, t') <- gmerge_values existing_nodes (es_value state) t ;;
        Ret (c, (set, t'))
    end.

  (** earley/state.rs:277-286 [from_states], 309-320 [shift], 267-275 [new_start]. *)
  Fixpoint gfrom_scans (sts : list EarleyState) (token : Token T V) (s : EarleyStateSet * S) : outcome (EarleyStateSet * S) :=
    match sts with
    | [] => Ret s
    | st :: r =>
        let '(set, t) := s in
        '(o, t1) <- gscan st token t ;;
        match o with
        | None => gfrom_scans r token (set, t1)
        | Some st' => '(_, s') <- ginsert st' (set, t1) ;; gfrom_scans r token s'
        end
    end.
  Definition gshift (self : EarleyStateSet) (token : Token T V) (t : S) : outcome (EarleyStateSet * S) :=
    gfrom_scans (states self) token ([], t).
  Fixpoint gfrom_states (sts : list EarleyState) (s : EarleyStateSet * S) : outcome (EarleyStateSet * S) :=
    match sts with
    | [] => Ret s
    | st :: r => '(_, s') <- ginsert st s ;; gfrom_states r s'
    end.
  Definition gnew_start (t : S) : outcome (EarleyStateSet * S) :=
    start_rule <- get_rule grammar (start_nt grammar) ;;
    gfrom_states (map (fun p => from_prod_start p 0) (rule_prods start_rule)) ([], t).

  (** earley.rs:34-58 [close_state]. *)
  Fixpoint gclosure_of (sts : list EarleyState) (prev_states : list EarleyStateSet) (new_state : EarleyStateSet) (t : S)
    : outcome (list EarleyState * S) :=
    match sts with
    | [] => Ret ([], t)
    | st :: r =>
        '(completed, t1) <- gcomplete st prev_states new_state t ;;
        '(rest, t2) <- gclosure_of r prev_states new_state t1 ;;
        Ret ((predict grammar st (length prev_states) ++ completed) ++ rest, t2)
    end.
  Definition gclose_round (prev_states : list EarleyStateSet) (s : EarleyStateSet * S)
    : outcome (WasChanged * (EarleyStateSet * S)) :=
    let '(new_state, t) := s in
    '(closure, t1) <- gclosure_of (states new_state) prev_states new_state t ;;
    change_iter ginsert closure (new_state, t1).
  Definition gclose_state (prev_states : list EarleyStateSet) (s : EarleyStateSet * S) (fuel : nat)
    : outcome (EarleyStateSet * S) :=
    _ <- assert_ (match fst s with [] => false | _ => true end) "assertion failed: !new_state.is_empty()" ;;
    change_loop (gclose_round prev_states) fuel s.

  (** earley.rs:78-84, and 60-88 [parse]. *)
  Fixpoint gparse_tokens (tokens : list (Token T V)) (sets : list EarleyStateSet) (t : S) (fuel : nat)
    : outcome (list EarleyStateSet * S) :=
    match tokens with
    | [] => Ret (sets, t)
    | token :: r =>
        last <- expect (last (map Some sets) None) "called `Option::unwrap()` on a `None` value" ;;
        s <- gshift last token t ;;
        '(new_state, t') <- gclose_state sets s fuel ;;
        gparse_tokens r (sets ++ [new_state]) t' fuel
    end.
  Definition gparse (tokens : list (Token T V)) (t : S) (fuel : nat) : outcome (option nat * S) :=
    s <- gnew_start t ;;
    '(init_state, t1) <- gclose_state [] s fuel ;;
    '(sets, t2) <- gparse_tokens tokens [init_state] t1 fuel ;;
    last <- expect (last (map Some sets) None) "called `Option::unwrap()` on a `None` value" ;;
    r <- get_final last ;;
    Ret (r, t2).
End Generic.

Section Shared.
  Context {T AK V : Type} `{Ord T} `{Ord AK} `{Ord V}.
  Local Notation tree := (Inner T AK V).

  (** With nobody else there: Model/Tree.v. *)
  Definition alone : TreeOps T AK V tree :=
    {| op_leaf := in_make_leaf_node; op_branch := in_make_branch_node; op_add_all := in_add_all |}.

  (** A critical section of another thread that changes the tree: [make_node] (tree.rs:276-284), [make_alt] (304-316),
      [add_alt] (379-385), [add_all] (402-411). *)
  Inductive other_op :=
  | OMakeNode
  | OMakeAlt (content : ContentInner T AK V)
  | OAddAlt (node alt : nat)
  | OAddAll (node other : nat).

  (** The tree, the nodes the parser has made so far, and what the other threads will do: one list for every
      time the parser asks for the lock. *)
  Record shared := { sh_tree : tree; sh_mine : list nat; sh_others : list (list other_op) }.

  (** What another thread does to the tree.  It has no handle of a node the parser has made, and no handle with an
      invalid number: such operations do not occur (here: they do nothing).  It may name alternatives and read nodes
      of the parser, which is more than it can do. *)
  Definition node_valid (t : tree) (n : nat) : bool := Nat.ltb n (length (in_nodes t)).
  Definition alt_valid (t : tree) (a : nat) : bool := Nat.ltb a (length (id_to_value (in_alts t))).
  Definition theirs (mine : list nat) (t : tree) (n : nat) : bool := node_valid t n && negb (existsb (Nat.eqb n) mine).
  Definition other_step (mine : list nat) (o : other_op) (t : tree) : tree :=
    match o with
    | OMakeNode => snd (in_make_node t)
    | OMakeAlt c =>
        if forallb (node_valid t) (match c with CLeaf _ _ => [] | CBranch _ ns => ns end) then snd (in_make_alt t c) else t
    | OAddAlt n a =>
        if theirs mine t n && alt_valid t a then match in_add_node_alt n a t with Ret (_, t') => t' | _ => t end else t
    | OAddAll n m =>
        if theirs mine t n && node_valid t m then match in_add_all n m t with Ret (_, t') => t' | _ => t end else t
    end.
  (** The parser waits for the lock; meanwhile the others do what they do. *)
  Definition wait (s : shared) : shared :=
    match sh_others s with
    | [] => s
    | os :: r => {| sh_tree := fold_left (fun t o => other_step (sh_mine s) o t) os (sh_tree s); sh_mine := sh_mine s; sh_others := r |}
    end.

  (** tree.rs:286-302 [make_leaf_node], [make_branch_node]: three critical sections. *)
  Definition sh_make_node_with (content : ContentInner T AK V) (s : shared) : outcome (nat * shared) :=
    let s := wait s in
    let '(node, t1) := in_make_node (sh_tree s) in
    let s := wait {| sh_tree := t1; sh_mine := node :: sh_mine s; sh_others := sh_others s |} in
    let '(alt, t2) := in_make_alt (sh_tree s) content in
    let s := wait {| sh_tree := t2; sh_mine := sh_mine s; sh_others := sh_others s |} in
    '(_, t3) <- in_add_node_alt node alt (sh_tree s) ;;
    Ret (node, {| sh_tree := t3; sh_mine := sh_mine s; sh_others := sh_others s |}).
  (** tree.rs:402-411 [add_all]: one critical section. *)
  Definition sh_add_all (node other : nat) (s : shared) : outcome (WasChanged * shared) :=
    let s := wait s in
    '(c, t') <- in_add_all node other (sh_tree s) ;;
    Ret (c, {| sh_tree := t'; sh_mine := sh_mine s; sh_others := sh_others s |}).
  Definition among_others : TreeOps T AK V shared :=
    {| op_leaf := fun k v => sh_make_node_with (CLeaf k v);
       op_branch := fun x ns => sh_make_node_with (CBranch x ns);
       op_add_all := sh_add_all |}.
End Shared.
Arguments other_op T AK V : clear implicits.
Arguments shared T AK V : clear implicits.

(** [parse] on a shared tree [t], where the others do [others]. *)
Definition shared_parse {T NT AK AV V} `{Ord T} `{Ord NT} `{Ord AK} `{Ord V} (lay : layout (StartNonTerminal NT))
  (grammar : StartGrammar T NT AK AV) (tokens : list (Token T V)) (others : list (list (other_op T AK V)))
  (t : Inner T AK V) (fuel : nat) : outcome (option nat * Inner T AK V) :=
  '(r, s) <- gparse among_others lay grammar tokens {| sh_tree := t; sh_mine := []; sh_others := others |} fuel ;;
  Ret (r, sh_tree s).
