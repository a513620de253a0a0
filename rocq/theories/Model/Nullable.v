(** src/grammar/passes/nullable.rs and nullable/nullables.rs: the Nullable pass. *)
From Coq Require Import String List NArith.
From Verif.Model Require Import Ord BTree Outcome Utils Grammar.
Import ListNotations.
Local Open Scope string_scope.

(** src/utils.rs:121-131 [TreeValue], [TreeNode]; 148-149 [Void] (no values). *)
Inductive TreeNode (L V : Type) : Type :=
| TNode (action_name : L) (params : list (name * TreeValue L V))
with TreeValue (L V : Type) : Type :=
| TVNode (n : TreeNode L V)
| TVLeaf (v : V).
Arguments TNode {L V} action_name params.
Arguments TVNode {L V} n.
Arguments TVLeaf {L V} v.
Inductive Void : Type := .

(** nullables.rs:146-150 [NullableError]. *)
Inductive NullableError := Ambiguity.

(** Productions as set elements: compared by address (base.rs:638-665). *)
Definition Ord_Prod {T NT AK AV} (lay : layout NT) : Ord (Prod T NT AK AV) := prod_cmp lay.

(** nullables.rs:102-105, 135-138 [GrammarNullableInfo], [NonTermNullableInfo]: the map from a nullable
    nonterminal to its action tree. *)
Definition GrammarNullableInfo (NT AK : Type) := btmap NT (TreeNode (ProdKey NT AK) Void).

Section Nullable.
  Context {T NT AK AV : Type} `{Ord NT}.
  Variable lay : layout NT.
  Let OP : Ord (Prod T NT AK AV) := Ord_Prod lay.

  (** nullables.rs:225-244 [is_prod_nullable] (its loop over the elements). *)
  Fixpoint elems_nullable {V} (nullables : btmap NT V) (es : list (Elem T NT)) : bool :=
    match es with
    | [] => true
    | Term _ :: _ => false
    | NonTerm nt :: es' => if bt_mem nt nullables then elems_nullable nullables es' else false
    end.
  Definition is_prod_nullable {V} (nullables : btmap NT V) (prod : Prod T NT AK AV) : bool :=
    elems_nullable nullables (elements prod).

  (** nullables.rs:21-24 [InternalNullableInfo]. *)
  Definition InternalNullableInfo := btset (Prod T NT AK AV).

  (** nullables.rs:85-94: the body of the [for prod in &prods] loop. *)
  Definition nullable_step (prod : Prod T NT AK AV) (nts : btmap NT InternalNullableInfo)
    : outcome (WasChanged * btmap NT InternalNullableInfo) :=
    if is_prod_nullable nts prod then
      let info := match bt_get (p_head prod) nts with Some i => i | None => [] end in
      let '(b, info') := @bs_insert _ OP prod info in
      Ret (from_changed b, bt_insert (p_head prod) info' nts)
    else Ret (Unchanged, nts).

  (** nullables.rs:70-100 [inner_calculate_nullables].  [loop { changed = false; for ..; if !changed
      { return } }] is the loop shape of [change_loop (change_iter ..)] (utils.rs:234-252). *)
  Definition inner_calculate_nullables (g : Grammar T NT AK AV) (fuel : nat)
    : outcome (btmap NT InternalNullableInfo) :=
    change_loop (change_iter nullable_step (prods g)) fuel [].

  (** nullables.rs:163-170: the sanity check; [Some e] = early [return Err(e)]. *)
  Fixpoint check_infos (infos : list InternalNullableInfo) : outcome (option NullableError) :=
    match infos with
    | [] => Ret None
    | info :: infos' =>
        match info with
        | [] => Panic "Unexpectedly empty nullable action!"
        | [_] => check_infos infos'
        | _ => Ret (Some Ambiguity)
        end
    end.

  (** nullables.rs:247-255 [get_only]. *)
  Definition get_only {A} (l : list A) : outcome A :=
    match l with
    | [] => Panic "get_only argument must not be empty."
    | v :: rest =>
        _ <- assert_ (match rest with [] => true | _ => false end)
               "get_only argument must not have more than one value." ;;
        Ret v
    end.

  (** nullables.rs:174-177: [for (nt, info) in &inner_info]. *)
  Fixpoint make_action_map (infos : list (NT * InternalNullableInfo)) (m : btmap NT (Prod T NT AK AV))
    : outcome (btmap NT (Prod T NT AK AV)) :=
    match infos with
    | [] => Ret m
    | (nt, info) :: infos' =>
        p <- get_only info ;;
        make_action_map infos' (bt_insert nt p m)
    end.

  (** nullables.rs:187-202: [None] = [continue 'outer]. *)
  Fixpoint null_fields (infos : GrammarNullableInfo NT AK) (es : list (ProdElement T NT))
    (fields : btmap name (TreeValue (ProdKey NT AK) Void))
    : option (btmap name (TreeValue (ProdKey NT AK) Void)) :=
    match es with
    | [] => Some fields
    | e :: es' =>
        match pe_id e, pe_elem e with
        | Some id, NonTerm nt =>
            match bt_get nt infos with
            | None => None
            | Some s => null_fields infos es' (bt_insert id (TVNode s) fields)
            end
        | _, _ => null_fields infos es' fields
        end
    end.

  (** nullables.rs:184-210: [for null_nt in &remaining_nullables]. *)
  Fixpoint complete_pass (action_map : btmap NT (Prod T NT AK AV)) (remaining : list NT)
    (infos : GrammarNullableInfo NT AK) : outcome (GrammarNullableInfo NT AK) :=
    match remaining with
    | [] => Ret infos
    | null_nt :: remaining' =>
        prod <- expect (bt_get null_nt action_map) "called `Option::unwrap()` on a `None` value" ;;
        match null_fields infos (prod_elements prod) [] with
        | None => complete_pass action_map remaining' infos
        | Some fields =>
            complete_pass action_map remaining'
              (bt_insert null_nt (TNode (prod_key prod) fields) infos)
        end
    end.

  (** nullables.rs:183-219: the outer [loop]. *)
  Fixpoint complete_loop (action_map : btmap NT (Prod T NT AK AV)) (fuel : nat) (remaining : btset NT)
    (infos : GrammarNullableInfo NT AK) : outcome (GrammarNullableInfo NT AK) :=
    match fuel with
    | 0 => NoFuel
    | S fuel' =>
        infos' <- complete_pass action_map remaining infos ;;
        let remaining' := fold_left (fun r nt => bs_remove nt r) (bt_keys infos') remaining in
        match remaining' with
        | [] => Ret infos'
        | _ => complete_loop action_map fuel' remaining' infos'
        end
    end.

  (** nullables.rs:152-224 [calculate_nullables]. *)
  Definition calculate_nullables (g : Grammar T NT AK AV) (fuel : nat)
    : outcome (result (GrammarNullableInfo NT AK) NullableError) :=
    inner_info <- inner_calculate_nullables g fuel ;;
    e <- check_infos (bt_values inner_info) ;;
    match e with
    | Some err => Ret (Err err)
    | None =>
        action_map <- make_action_map inner_info [] ;;
        infos <- complete_loop action_map fuel (bs_of_list (bt_keys inner_info)) [] ;;
        Ret (Ok infos)
    end.
End Nullable.

(** nullables.rs:115-117 [is_nullable]; 123-128 [get_nullable_action]; 130-132 [get_nullable_set];
    nullable.rs:13-28 delegates to them. *)
Definition is_nullable {NT AK} `{Ord NT} (info : GrammarNullableInfo NT AK) (nt : NT) : bool := bt_mem nt info.
Definition get_nullable_action {NT AK} `{Ord NT} (info : GrammarNullableInfo NT AK) (nt : NT)
  : option (TreeNode (ProdKey NT AK) Void) := bt_get nt info.
Definition get_nullable_set {NT AK} `{Ord NT} (info : GrammarNullableInfo NT AK) : btset NT :=
  bs_of_list (bt_keys info).
