(** C119, item sets and LALR states: symbols and actions of which equal ones need not be identical (src/state.rs,
    src/parsers/lalr.rs). *)
From Coq Require Import String List Arith NArith Lia.
From Verif.Model Require Import Ord BTree Outcome Utils Grammar Nullable Firsts State Lalr.
From Verif.Spec Require Import Cfg BuildSpec RenameSpec CoarseSpec SymbolSpec SymbolLalrSpec Examples.
From Verif.Proofs Require Import OrdFacts LoopFacts GrammarFacts CoarseFacts SymbolFacts SymbolLalrFacts.
From Verif.Properties Require Import SymbolProps.
Import ListNotations.

Section Runs.
  Context {T NT AK AV T' NT' AK' AV' : Type} `{Ord T} `{Ord NT} `{Ord T'} `{Ord NT'}.
  Variables (fT : T -> T') (fN : NT -> NT') (fK : AK -> AK') (fV : AV -> AV').
  Hypothesis FT : compares_by fT.
  Hypothesis FN : compares_by fN.
  (** Where the rules lie in memory, by the keys of their heads. *)
  Variable lay : layout NT'.
  Local Notation keys := (key_grammar fT fN fK fV).
  Local Notation item := (keys_item fT fN fK fV).
  Local Notation items := (map (keys_item fT fN fK fV)).

  (** C119.  Sets of items: collecting, adding, the complete ones, comparing, and the sets after each next element. *)
  Theorem C119_item_sets (l s s2 : list (ProdState T NT AK AV)) (x : ProdState T NT AK AV) (e : Elem T NT) keep_last :
    advance_if (item x) (ren_elem fT fN e) = option_map item (advance_if x e) /\
    pss_from_iter lay keep_last (items l) = items (pss_from_iter (fun A => lay (fN A)) keep_last l) /\
    pss_add lay (items s) (item x) = items (pss_add (fun A => lay (fN A)) s x) /\
    pss_complete (items s) = items (pss_complete s) /\
    pss_cmp lay (items s) (items s2) = pss_cmp (fun A => lay (fN A)) s s2 /\
    pss_eqb lay (items s) (items s2) = pss_eqb (fun A => lay (fN A)) s s2 /\
    pss_nexts lay (items s) = keys_nexts fT fN fK fV (pss_nexts (fun A => lay (fN A)) s).
  Proof.
    split; [exact (item_advance fT fN fK fV FT FN x e)|]. split; [exact (from_iter_keys fT fN fK fV lay keep_last l)|].
    split; [exact (add_keys fT fN fK fV lay s x)|]. split; [exact (complete_keys_set fT fN fK fV s)|].
    split; [exact (cmp_keys fT fN fK fV lay s s2)|]. split; [exact (eqb_keys fT fN fK fV lay s s2)|].
    exact (nexts_keys fT fN fK fV FT FN lay s).
  Qed.
  (** C119.  Closing a set under a function that respects the keys. *)
  Theorem C119_item_closure {St St'} (fS : St -> St')
    (close : ProdState T NT AK AV -> St -> list (ProdState T NT AK AV) * St)
    (close' : ProdState T' NT' AK' AV' -> St' -> list (ProdState T' NT' AK' AV') * St') s st :
    (forall x st, close' (item x) (fS st) = (items (fst (close x st)), fS (snd (close x st)))) ->
    same_run (fun r => (items (fst r), fS (snd r))) (take_closure (fun A => lay (fN A)) close s st) (take_closure lay close' (items s) (fS st)).
  Proof. intros C fuel. exact (tc_loop_keys fT fN fK fV lay fS close close' C fuel s s st). Qed.

  (** C119.  LALR states: closing items with lookaheads, the states after each terminal, and the actions to reduce by. *)
  Theorem C119_lalr_state (g : Grammar T NT AK AV) keep_last (xs : list (ProdState T NT AK AV * btset T)) :
    same_run (map_result (keys_state fT fN fK fV) (fun e => e)) (from_prod_lookahead (fun A => lay (fN A)) g keep_last xs)
      (from_prod_lookahead lay (keys g) keep_last (map (keys_la fT fN fK fV) xs)).
  Proof. exact (from_prod_keys fT fN fK fV FT FN lay g keep_last xs). Qed.
  Theorem C119_lalr_actions (g : Grammar T NT AK AV) keep_last (s : ParseState T NT AK AV) :
    same_run (map_result (keys_shift fT fN fK fV) (fun e => e)) (shift_actions (fun A => lay (fN A)) g keep_last s)
      (shift_actions lay (keys g) keep_last (keys_state fT fN fK fV s)) /\
    reducable_actions (keys_state fT fN fK fV s) = map fK (reducable_actions s).
  Proof.
    split; [exact (shift_actions_keys fT fN fK fV FT FN lay g keep_last s)|exact (reducable_keys fT fN fK fV s)].
  Qed.
End Runs.

Print Assumptions C119_item_sets.
Print Assumptions C119_item_closure.
Print Assumptions C119_lalr_state.
Print Assumptions C119_lalr_actions.

(** *** A case: the state of the first rule of [ex_tag_g], whose symbols are never identical, has more than its own item,
    and shifts. *)
#[local] Existing Instance Ord_tagged.
Definition ex_tag_item : list (ProdState tagged tagged tagged nat * btset tagged) :=
  match try_get_rule ex_tag_g {| tg_key := 1; tg_note := 99 |} with
  | Some r => map (fun p => (from_start p, [{| tg_key := 3; tg_note := 1 |}])) (rule_prods r)
  | None => []
  end.
Definition ex_tag_lay : layout tagged := fun A => ex_lay (tg_key A).
Example C119_lalr_case : match from_prod_lookahead ex_tag_lay ex_tag_g false ex_tag_item 40 with
  | Ret (Ok s) => List.length s = 2 /\ match shift_actions ex_tag_lay ex_tag_g false s 40 with Ret (Ok m) => List.length m = 2 | _ => False end
  | _ => False
  end.
Proof. vm_compute. auto. Qed.
