(** src/parsers/earley.rs and src/parsers/earley/state.rs: the Earley parser.

    All nodes handled by the parser belong to the tree of [tree_handle] (it only receives nodes that tree
    operations on that handle returned), so they are written as indexes into that one tree and the ownership
    assertions are left out; Proofs/TreeLink.v proves that the handle operations then coincide with the ones
    used here.  [log::trace!] calls are not modelled. *)
From Coq Require Import String List Arith.
From Verif.Model Require Import Ord BTree Outcome Utils Grammar StartGrammar Tokens Tree State.
Import ListNotations.

Section Earley.
  Context {T NT AK AV V : Type} `{Ord T} `{Ord NT} `{Ord AK} `{Ord V}.
  Variable lay : layout (StartNonTerminal NT).
  Variable grammar : StartGrammar T NT AK AV.

  Local Notation PS := (ProdState (StreamTerminal T) (StartNonTerminal NT) (StartActionKey AK) (StartActionValue AV)).
  Local Notation SProd := (Prod (StreamTerminal T) (StartNonTerminal NT) (StartActionKey AK) (StartActionValue AV)).
  Local Notation tree := (Inner T AK V).

  (** earley/state.rs:24-42 [EarleyStateKey], derived order: production state, then origin. *)
  Record EarleyStateKey := { ek_prod_state : PS; ek_origin : nat }.
  #[local] Instance Ord_Key : Ord EarleyStateKey := fun a b =>
    then_cmp (@cmp _ (Ord_ProdState lay) (ek_prod_state a) (ek_prod_state b)) (cmp (ek_origin a) (ek_origin b)).

  (** earley/state.rs:48-54 [is_final_key]. *)
  Definition is_final_key (k : EarleyStateKey) : bool :=
    match next_elem (ek_prod_state k) with
    | Some elem => match as_term elem with Some t => is_eos t | None => false end
    | None => false
    end.

  (** earley/state.rs:65-69 [EarleyState]; 227-230 [EarleyStateSet]. *)
  Record EarleyState := { es_key : EarleyStateKey; es_value : list nat }.
  Definition EarleyStateSet := btmap EarleyStateKey (list nat).

  (** earley/state.rs:71-88 [from_prod_start]. *)
  Definition from_prod_start (p : SProd) (index : nat) : EarleyState :=
    {| es_key := {| ek_prod_state := from_start p; ek_origin := index |}; es_value := [] |}.
  (** earley/state.rs:102-109 [create_next_value]. *)
  Definition create_next_value (st : EarleyState) (node : nat) : list nat := es_value st ++ [node].

  (** earley/state.rs:119-139 [scan]. *)
  Definition scan (st : EarleyState) (next_token : Token T V) (t : tree) : outcome (option EarleyState * tree) :=
    match next_elem_state (ek_prod_state (es_key st)) with
    | Some (e, ps) =>
        match as_term (pe_elem e) with
        | Some tm =>
            if has_kind tm (tk_kind next_token) then
              '(node, t') <- in_make_leaf_node (tk_kind next_token) (tk_value next_token) t ;;
              Ret (Some {| es_key := {| ek_prod_state := ps; ek_origin := ek_origin (es_key st) |};
                           es_value := create_next_value st node |}, t')
            else Ret (None, t)
        | None => Ret (None, t)
        end
    | None => Ret (None, t)
    end.

  (** earley/state.rs:149-169 [predict]; only the length of [prev_states] is used. *)
  Definition predict (st : EarleyState) (prev_len : nat) : list EarleyState :=
    match next_elem (ek_prod_state (es_key st)) with
    | Some elem =>
        match as_nonterm elem with
        | Some nt =>
            match try_get_rule grammar nt with
            | Some r => map (fun p => {| es_key := {| ek_prod_state := from_start p; ek_origin := prev_len |}; es_value := [] |})
                          (rule_prods r)
            | None => []
            end
        | None => []
        end
    | None => []
    end.

  (** earley/state.rs:250-257 [states]. *)
  Definition states (s : EarleyStateSet) : list EarleyState :=
    map (fun kv => {| es_key := fst kv; es_value := snd kv |}) s.

  (** earley/state.rs:185-206: the iterator chain of [complete] over the states of the origin set. *)
  Fixpoint complete_from (self : EarleyState) (sts : list EarleyState) (t : tree) : outcome (list EarleyState * tree) :=
    match sts with
    | [] => Ret ([], t)
    | st :: r =>
        match next_elem_state (ek_prod_state (es_key st)) with
        | Some (e, ps) =>
            match as_nonterm (pe_elem e) with
            | Some nt =>
                if eqb nt (p_head (ps_prod (ek_prod_state (es_key self)))) then
                  action <- expect (as_base (ps_action_key (ek_prod_state (es_key self)))) "called `Option::unwrap()` on a `None` value" ;;
                  '(node, t1) <- in_make_branch_node action (es_value self) t ;;
                  '(rest, t2) <- complete_from self r t1 ;;
                  Ret ({| es_key := {| ek_prod_state := ps; ek_origin := ek_origin (es_key st) |};
                          es_value := create_next_value st node |} :: rest, t2)
                else complete_from self r t
            | None => complete_from self r t
            end
        | None => complete_from self r t
        end
    end.
  (** earley/state.rs:171-210 [complete]. *)
  Definition complete (self : EarleyState) (prev_states : list EarleyStateSet) (curr_state : EarleyStateSet) (t : tree)
    : outcome (list EarleyState * tree) :=
    if is_complete (ek_prod_state (es_key self)) then
      origin_state <-
        (if Nat.eqb (ek_origin (es_key self)) (length prev_states) then Ret curr_state
         else expect (nth_error prev_states (ek_origin (es_key self))) "index out of bounds") ;;
      complete_from self (states origin_state) t
    else Ret ([], t).

  (** earley/state.rs:301-304: [add_all] on corresponding nodes. *)
  Definition merge_values (existing_nodes new_nodes : list nat) (t : tree) : outcome (WasChanged * tree) :=
    change_iter (fun '(existing_node, new_node) t => in_add_all existing_node new_node t)
      (combine existing_nodes new_nodes) t.
  (** earley/state.rs:288-307 [insert].  An occupied entry keeps its key and its nodes. *)
  Definition insert (state : EarleyState) (s : EarleyStateSet * tree) : outcome (WasChanged * (EarleyStateSet * tree)) :=
    let '(set, t) := s in
    match bt_get (es_key state) set with
    | None => Ret (Changed, (bt_insert (es_key state) (es_value state) set, t))
    | Some existing_nodes =>
        _ <- assert_ (Nat.eqb (length existing_nodes) (length (es_value state))) "assertion failed: `(left == right)`" ;;
        '(c, t') <- merge_values existing_nodes (es_value state) t ;;
        Ret (c, (set, t'))
    end.

  (** earley/state.rs:277-286 [from_states]: the iterator is read, and each state inserted, in turn.
      [shift] (309-320) passes a lazy iterator that scans; [new_start] (267-275) one without effects. *)
  Fixpoint from_scans (sts : list EarleyState) (token : Token T V) (s : EarleyStateSet * tree) : outcome (EarleyStateSet * tree) :=
    match sts with
    | [] => Ret s
    | st :: r =>
        let '(set, t) := s in
        '(o, t1) <- scan st token t ;;
        match o with
        | None => from_scans r token (set, t1)
        | Some st' => '(_, s') <- insert st' (set, t1) ;; from_scans r token s'
        end
    end.
  Definition shift (self : EarleyStateSet) (token : Token T V) (t : tree) : outcome (EarleyStateSet * tree) :=
    from_scans (states self) token ([], t).
  Fixpoint from_states (sts : list EarleyState) (s : EarleyStateSet * tree) : outcome (EarleyStateSet * tree) :=
    match sts with
    | [] => Ret s
    | st :: r => '(_, s') <- insert st s ;; from_states r s'
    end.
  Definition new_start (t : tree) : outcome (EarleyStateSet * tree) :=
    start_rule <- get_rule grammar (start_nt grammar) ;;
    from_states (map (fun p => from_prod_start p 0) (rule_prods start_rule)) ([], t).

  (** earley/state.rs:322-331 [get_final]. *)
  Fixpoint get_final (s : EarleyStateSet) : outcome (option nat) :=
    match s with
    | [] => Ret None
    | (k, v) :: r =>
        if is_final_key k then
          _ <- assert_ (Nat.eqb (length v) 1) "assertion failed: `(left == right)`" ;;
          n <- expect (nth_error v 0) "called `Option::unwrap()` on a `None` value" ;;
          Ret (Some n)
        else get_final r
    end.

  (** earley.rs:47-54: the closure of one round, before anything is inserted. *)
  Fixpoint closure_of (sts : list EarleyState) (prev_states : list EarleyStateSet) (new_state : EarleyStateSet) (t : tree)
    : outcome (list EarleyState * tree) :=
    match sts with
    | [] => Ret ([], t)
    | st :: r =>
        '(completed, t1) <- complete st prev_states new_state t ;;
        '(rest, t2) <- closure_of r prev_states new_state t1 ;;
        Ret ((predict st (length prev_states) ++ completed) ++ rest, t2)
    end.
  (** earley.rs:46-57: the body of the loop. *)
  Definition close_round (prev_states : list EarleyStateSet) (s : EarleyStateSet * tree)
    : outcome (WasChanged * (EarleyStateSet * tree)) :=
    let '(new_state, t) := s in
    '(closure, t1) <- closure_of (states new_state) prev_states new_state t ;;
    change_iter insert closure (new_state, t1).
  (** earley.rs:34-58 [close_state]. *)
  Definition close_state (prev_states : list EarleyStateSet) (s : EarleyStateSet * tree) (fuel : nat)
    : outcome (EarleyStateSet * tree) :=
    _ <- assert_ (match fst s with [] => false | _ => true end) "assertion failed: !new_state.is_empty()" ;;
    change_loop (close_round prev_states) fuel s.

  (** earley.rs:78-84: the loop over the tokens. [sets] is [states], [last] its last element. *)
  Fixpoint parse_tokens (tokens : list (Token T V)) (sets : list EarleyStateSet) (t : tree) (fuel : nat)
    : outcome (list EarleyStateSet * tree) :=
    match tokens with
    | [] => Ret (sets, t)
    | token :: r =>
        last <- expect (last (map Some sets) None) "called `Option::unwrap()` on a `None` value" ;;
        s <- shift last token t ;;
        '(new_state, t') <- close_state sets s fuel ;;
        parse_tokens r (sets ++ [new_state]) t' fuel
    end.
  (** earley.rs:60-88 [parse]. *)
  Definition parse (tokens : list (Token T V)) (t : tree) (fuel : nat) : outcome (option nat * tree) :=
    s <- new_start t ;;
    '(init_state, t1) <- close_state [] s fuel ;;
    '(sets, t2) <- parse_tokens tokens [init_state] t1 fuel ;;
    last <- expect (last (map Some sets) None) "called `Option::unwrap()` on a `None` value" ;;
    r <- get_final last ;;
    Ret (r, t2).
End Earley.
Arguments EarleyStateKey T NT AK AV : clear implicits.
Arguments EarleyState T NT AK AV : clear implicits.
Arguments EarleyStateSet T NT AK AV : clear implicits.
