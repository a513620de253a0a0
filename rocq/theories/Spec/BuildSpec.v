(** What a sequence of builder calls means, independent of the builder code. *)
From Coq Require Import List.
From Verif.Model Require Import Ord Outcome Grammar.
From Verif.Spec Require Import Reach.
Import ListNotations.

Section BuildSpec.
  Context {T NT AK AV : Type}.

  (** The element a production-builder call describes. *)
  Definition spec_elem (c : pb_call T NT) : ProdElement T NT :=
    match c with
    | AddTerm t => Build_ProdElement None (Term t)
    | AddNamedTerm n t => Build_ProdElement (Some n) (Term t)
    | AddNonterm nt => Build_ProdElement None (NonTerm nt)
    | AddNamedNonterm n nt => Build_ProdElement (Some n) (NonTerm nt)
    end.

  (** The production a rule-builder call describes. *)
  Definition spec_prod (c : rb_call T NT AK AV) : ProdInner T NT AK AV :=
    match c with
    | AddProd ak av cs => Build_ProdInner ak av (map spec_elem cs)
    | AddProdWithElems ak av es => Build_ProdInner ak av es
    end.

  (** [rcs] are the production calls of the last [add_rule] for [A]. *)
  Definition last_rule (calls : list (gb_call T NT AK AV)) (A : NT) (rcs : list (rb_call T NT AK AV)) : Prop :=
    exists pre post, calls = pre ++ AddRule A rcs :: post /\ forall rcs', ~ In (AddRule A rcs') post.

  (** [A] has a rule. *)
  Definition defined (calls : list (gb_call T NT AK AV)) (A : NT) : Prop := exists rcs, last_rule calls A rcs.

  (** [B] occurs in a production body of [A]'s rule. *)
  Definition mentions (calls : list (gb_call T NT AK AV)) (A B : NT) : Prop :=
    exists rcs c, last_rule calls A rcs /\ In c rcs /\
      In (NonTerm B) (map pe_elem (pi_elements (spec_prod c))).

  (** The three kinds of error. *)
  Definition is_mentioned calls (B : NT) : Prop := exists A, mentions calls A B.
  Definition err_unreachable calls start (B : NT) : Prop :=
    is_mentioned calls B /\ ~ plus (mentions calls) start B.
  Definition err_undefined calls (B : NT) : Prop := is_mentioned calls B /\ ~ defined calls B.
  Definition err_no_prods calls (A : NT) : Prop := last_rule calls A [].
End BuildSpec.

(** [g] was accepted by [build]. *)
Definition built {T NT AK AV} `{Ord NT} (g : Grammar T NT AK AV) : Prop :=
  exists start calls, runs_to (build start calls) (Ret (Ok g)).
