(** src/grammar/passes/firsts.rs and follows.rs: the Firsts and Follows passes.

    [PassContext::get_pass] (memoisation, modelled in [Model/Passes.v]) is replaced by a direct run of
    the pass it requests; the passes are pure functions of the grammar. *)
From Coq Require Import String List NArith.
From Verif.Model Require Import Ord BTree Outcome Utils Grammar Nullable.
Import ListNotations.
Local Open Scope string_scope.

(** firsts.rs:9-13 [FirstsError]. *)
Inductive FirstsError := FNullableError (e : NullableError).

(** follows.rs:9-13 [FollowsError]. *)
Inductive FollowsError := FoFirst (e : FirstsError).

Section Firsts.
  Context {T NT AK AV : Type} `{Ord T} `{Ord NT}.

  (** firsts.rs:46-59: [for elem in prod.elements()], with its two [break]s. *)
  Fixpoint firsts_elems (nullables : GrammarNullableInfo NT AK) (head : NT) (es : list (Elem T NT))
    (changed : WasChanged) (firsts : CollectMap NT T) : WasChanged * CollectMap NT T :=
    match es with
    | [] => (changed, firsts)
    | Term t :: _ =>
        let '(c, firsts') := cm_insert firsts head t in
        (wc_merge changed c, firsts')
    | NonTerm nt :: es' =>
        let '(c, firsts') := cm_insert_from_key_set firsts head nt in
        let changed' := wc_merge changed c in
        if negb (is_nullable nullables nt) then (changed', firsts')
        else firsts_elems nullables head es' changed' firsts'
    end.

  (** firsts.rs:44-62: the closure passed to [change_iter]. *)
  Definition firsts_step (nullables : GrammarNullableInfo NT AK) (prod : Prod T NT AK AV)
    (firsts : CollectMap NT T) : outcome (WasChanged * CollectMap NT T) :=
    Ret (firsts_elems nullables (p_head prod) (elements prod) Unchanged firsts).

  (** firsts.rs:34-72 [run_pass]. *)
  Definition calculate_firsts (lay : layout NT) (g : Grammar T NT AK AV) (fuel : nat)
    : outcome (result (btmap NT (btset T)) FirstsError) :=
    r <- calculate_nullables lay g fuel ;;
    match r with
    | Err e => Ret (Err (FNullableError e))
    | Ok nullables =>
        firsts <- change_loop (change_iter (firsts_step nullables) (prods g)) fuel cm_new ;;
        Ret (Ok (cm_into_inner firsts))
    end.

  (** firsts.rs:17-24 [Firsts::get]. *)
  Definition firsts_get (firsts : btmap NT (btset T)) (nt : NT) : option (btset T) := bt_get nt firsts.

  (** follows.rs:38-49: [for elem_pair in elems.windows(2)]. *)
  Fixpoint follows_pairs (firsts : btmap NT (btset T)) (elems : list (Elem T NT))
    (changed : WasChanged) (follows : CollectMap NT T) : outcome (WasChanged * CollectMap NT T) :=
    match elems with
    | [] => Ret (changed, follows)
    | [_] => Ret (changed, follows)
    | e0 :: (e1 :: _) as rest =>
        match e0 with
        | NonTerm first_nt =>
            match e1 with
            | Term t =>
                let '(c, follows') := cm_insert follows first_nt t in
                follows_pairs firsts rest (wc_merge changed c) follows'
            | NonTerm second_nt =>
                set <- expect (firsts_get firsts second_nt)
                         "called `Option::unwrap()` on a `None` value" ;;
                let '(c, follows') := cm_insert_iter follows first_nt set in
                follows_pairs firsts rest (wc_merge changed c) follows'
            end
        | Term _ => follows_pairs firsts rest changed follows
        end
    end.

  (** [elems.last()]. *)
  Fixpoint last_opt {A} (l : list A) : option A :=
    match l with
    | [] => None
    | [a] => Some a
    | _ :: l' => last_opt l'
    end.

  (** follows.rs:34-56: the closure passed to [change_iter]. *)
  Definition follows_step (firsts : btmap NT (btset T)) (prod : Prod T NT AK AV)
    (follows : CollectMap NT T) : outcome (WasChanged * CollectMap NT T) :=
    '(changed, follows1) <- follows_pairs firsts (elements prod) Unchanged follows ;;
    match last_opt (elements prod) with
    | Some (NonTerm last_nt) =>
        let '(c, follows2) := cm_insert_from_key_set follows1 last_nt (p_head prod) in
        Ret (wc_merge changed c, follows2)
    | _ => Ret (changed, follows1)
    end.

  (** follows.rs:24-66 [run_pass].  The pass has no accessor; its content is the map. *)
  Definition calculate_follows (lay : layout NT) (g : Grammar T NT AK AV) (fuel : nat)
    : outcome (result (btmap NT (btset T)) FollowsError) :=
    r <- calculate_firsts lay g fuel ;;
    match r with
    | Err e => Ret (Err (FoFirst e))
    | Ok firsts =>
        follows <- change_loop (change_iter (follows_step firsts) (prods g)) fuel cm_new ;;
        Ret (Ok (cm_into_inner follows))
    end.
End Firsts.
