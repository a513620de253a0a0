(** src/parsers/lalr.rs: item sets with lookaheads. *)
From Coq Require Import String List Arith NArith.
From Verif.Model Require Import Ord BTree Outcome Utils Grammar Nullable Firsts State.
Import ListNotations.
Local Open Scope string_scope.

(** lalr.rs:12-32 [shuffle_iter]: the pairs of a [BTreeMap] built entry by entry, in key order. *)
Definition shuffle_iter {K V} `{Ord K} `{Ord V} (iter : list (K * V)) : list (K * btset V) :=
  fold_left (fun result kv =>
    let '(k, v) := kv in
    match bt_get k result with
    | None => bt_insert k (bs_of_list [v]) result
    | Some set => bt_insert k (bs_add v set) result
    end) iter [].

Section Lalr.
  Context {T NT AK AV : Type} `{Ord T} `{Ord NT}.
  Variable lay : layout NT.
  Variable g : Grammar T NT AK AV.
  Local Notation PS := (ProdState T NT AK AV).
  #[local] Hint Extern 0 (Ord (ProdState _ _ _ _)) => exact (Ord_ProdState lay) : typeclass_instances.

  (** lalr.rs:34-37 [ParseState]: states (compared by production only) with their lookaheads. *)
  Definition ParseState : Type := btmap PS (btset T).

  (** lalr.rs:87 [items.into_iter().collect()] into a [BTreeMap].  Among items with [Equal] states the
      last lookahead set survives; the surviving key is that of the first item (older std: insertion
      one by one) or of the last ([keep_last]; newer std: stable sort and deduplication). *)
  Definition collect_items (keep_last : bool) (items : list (PS * btset T)) : btmap PS (btset T) :=
    if keep_last then
      fold_left (fun m kv => if bt_mem (fst kv) m then m else bt_insert (fst kv) (snd kv) m) (rev items) []
    else bt_of_list items.

  (** lalr.rs:93-97 [new_la]. *)
  Definition new_lookahead (firsts : btmap NT (btset T)) (prod : PS) (la : btset T) : outcome (btset T) :=
    match offset_elem prod 1 with
    | Some (NonTerm nt) => expect (firsts_get firsts nt) "called `Option::unwrap()` on a `None` value"
    | Some (Term t) => Ret (bs_of_list [t])
    | None => Ret la
    end.

  (** lalr.rs:90-101: [new_expansions]. *)
  Fixpoint new_expansions (firsts : btmap NT (btset T)) (prods : list (PS * btset T))
    : outcome (list (NT * btset T)) :=
    match prods with
    | [] => Ret []
    | (prod, la) :: prods' =>
        match next_elem prod with
        | Some (NonTerm nt) =>
            la' <- new_lookahead firsts prod la ;;
            rest <- new_expansions firsts prods' ;;
            Ret ((nt, la') :: rest)
        | _ => new_expansions firsts prods'
        end
    end.

  (** lalr.rs:103-112: the closure of the outer [change_iter]. *)
  Definition expand_one (e : NT * btset T) (prods : CollectMap PS T) : outcome (WasChanged * CollectMap PS T) :=
    let '(nt, new_la) := e in
    r <- get_rule g nt ;;
    change_iter (fun ps prods => Ret (cm_insert_iter prods ps new_la)) (map from_start (rule_prods r)) prods.

  (** lalr.rs:89-113: the closure of [change_loop]. *)
  Definition expand (firsts : btmap NT (btset T)) (prods : CollectMap PS T)
    : outcome (WasChanged * CollectMap PS T) :=
    exps <- new_expansions firsts prods ;;
    change_iter expand_one exps prods.

  (** lalr.rs:82-118 [from_prod_lookahead].  The Firsts pass is run directly (see [Model/Firsts.v]). *)
  Definition from_prod_lookahead (keep_last : bool) (items : list (PS * btset T)) (fuel : nat)
    : outcome (result ParseState FirstsError) :=
    r <- calculate_firsts lay g fuel ;;
    match r with
    | Err e => Ret (Err e)
    | Ok firsts =>
        prods <- change_loop (expand firsts) fuel (cm_from_seed (collect_items keep_last items)) ;;
        Ret (Ok (cm_into_inner prods))
    end.

  (** lalr.rs:124-130: the pairs (terminal, advanced item). *)
  Definition shift_items (self : ParseState) : list (T * (PS * btset T)) :=
    filter_map (fun pl =>
      match next_elem_state (fst pl) with
      | Some (e, ps) =>
          match as_term (pe_elem e) with
          | Some t => Some (t, (ps, snd pl))
          | None => None
          end
      | None => None
      end) self.

  (** lalr.rs:131-136: [map(..).collect::<Result<BTreeMap<_, _>, _>>()] stops at the first error. *)
  Fixpoint shift_collect (keep_last : bool) (fuel : nat) (l : list (T * btset (PS * btset T)))
    (acc : btmap T ParseState) : outcome (result (btmap T ParseState) FirstsError) :=
    match l with
    | [] => Ret (Ok acc)
    | (t, next_elems) :: l' =>
        r <- from_prod_lookahead keep_last next_elems fuel ;;
        match r with
        | Err e => Ret (Err e)
        | Ok ps => shift_collect keep_last fuel l' (bt_insert t ps acc)
        end
    end.

  (** lalr.rs:120-137 [shift_actions]. *)
  Definition shift_actions (keep_last : bool) (self : ParseState) (fuel : nat)
    : outcome (result (btmap T ParseState) FirstsError) :=
    shift_collect keep_last fuel (shuffle_iter (shift_items self)) [].

  (** lalr.rs:139-147 [reducable_actions]. *)
  Definition reducable_actions (self : ParseState) : list AK :=
    filter_map (fun prod => if is_complete prod then Some (ps_action_key prod) else None) (bt_keys self).
End Lalr.
Arguments ParseState T NT AK AV : clear implicits.
