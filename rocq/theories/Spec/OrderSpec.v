(** Call sequences that add the same rules. *)
From Coq Require Import List.
From Verif.Model Require Import Ord Grammar.
From Verif.Spec Require Import BuildSpec.
Import ListNotations.

Section OrderSpec.
  Context {T NT AK AV : Type}.
  Definition call_head (c : gb_call T NT AK AV) : NT := match c with AddRule A _ => A end.

  (** The last [add_rule] for a head adds the same productions in the same order. *)
  Definition same_rules (calls calls' : list (gb_call T NT AK AV)) : Prop :=
    forall A ps, (exists rcs, last_rule calls A rcs /\ map spec_prod rcs = ps) <->
                 (exists rcs, last_rule calls' A rcs /\ map spec_prod rcs = ps).

  (** ... the same productions, in some order and any number of times. *)
  Definition covers (calls calls' : list (gb_call T NT AK AV)) : Prop :=
    forall A rcs, last_rule calls A rcs -> exists rcs', last_rule calls' A rcs' /\
      forall p, In p (map spec_prod rcs) <-> In p (map spec_prod rcs').

  (** The calls that add the rules of a grammar again. *)
  Definition rebuild_calls (g : Grammar T NT AK AV) : list (gb_call T NT AK AV) :=
    map (fun r => AddRule (r_head r)
      (map (fun p => AddProdWithElems (pi_action_key p) (pi_action_value p) (pi_elements p)) (r_prods r))) (rules g).
End OrderSpec.
