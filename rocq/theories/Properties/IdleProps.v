(** C95: the nonnull transformation on grammars that are already null-free. *)
From Coq Require Import List.
From Verif.Model Require Import Ord BTree Outcome Grammar Nullable NonNull.
From Verif.Spec Require Import Reach Cfg BuildSpec NullSpec NonNullSpec Examples.
From Verif.Proofs Require Import LoopFacts GrammarFacts BuildMore NullableFacts NonNullMore IdleFacts.
Import ListNotations.

Section S.
  Context {T NT AK AV : Type} `{OrdEq NT}.

  (** C95. If no nonterminal derives the empty word the transformation succeeds and changes nothing but the
      actions: same start symbol, same heads in the same order, and the productions of each rule one for one,
      with the same elements. *)
  Theorem C95_idle (lay : layout NT) (g : Grammar T NT AK AV) :
    lay_inj g lay -> built g -> (forall A, ~ derives_empty g A) ->
    exists g', runs_to (transform_to_nonnull lay g) (Ret (Ok g')) /\
      start_symbol g' = start_symbol g /\
      Forall2 (fun e e' => fst e' = fst e /\ r_head (snd e') = r_head (snd e) /\
                           Forall2 (@relabelled T NT AK AV) (r_prods (snd e)) (r_prods (snd e'))) (rule_set g) (rule_set g').
  Proof. exact (idle_transform lay g). Qed.

  (** C95. So a second transformation never fails, and its result has the bodies of the first. *)
  Theorem C95_twice (lay lay' : layout NT) (g : Grammar T NT AK AV) g' :
    lay_inj g lay -> built g -> runs_to (transform_to_nonnull lay g) (Ret (Ok g')) -> lay_inj g' lay' ->
    exists g'', runs_to (transform_to_nonnull lay' g') (Ret (Ok g'')) /\
      start_symbol g'' = start_symbol g /\
      map (fun e => (fst e, map (@pi_elements _ _ _ _) (r_prods (snd e)))) (rule_set g'') =
      map (fun e => (fst e, map (@pi_elements _ _ _ _) (r_prods (snd e)))) (rule_set g').
  Proof.
    intros I B R I'. destruct (transform_nonempty lay g I B g' R) as (B' & _ & N).
    destruct (idle_transform lay' g' I' B' N) as (g'' & R' & E & F). exists g''. split; [exact R'|].
    split; [rewrite E; exact (proj1 (transform_shape lay g I B g' R))|].
    clear -F. induction F as [|[A r] [A' r'] l l' (E1 & E2 & F1) F IH]; [reflexivity|]. cbn [map fst snd] in *. f_equal; [|exact IH].
    f_equal; [exact E1|]. clear -F1. induction F1 as [|p q ps qs (E & _) F IH]; [reflexivity|]. cbn [map]. f_equal; [exact E|exact IH].
  Qed.
End S.

Print Assumptions C95_idle.
Print Assumptions C95_twice.

(** 0 -> 1 t7 | t8 0;  1 -> t9 1 1 | t9: no nonterminal derives the empty word. *)
Definition idle_ex : list (gb_call nat nat nat nat) :=
  [AddRule 0 [AddProd 10 0 [AddNonterm 1; AddTerm 7]; AddProd 11 0 [AddTerm 8; AddNonterm 0]];
   AddRule 1 [AddProd 12 0 [AddTerm 9; AddNonterm 1; AddNonterm 1]; AddProd 13 0 [AddTerm 9]]].
Example C95_example : exists g, runs_to (build 0 idle_ex) (Ret (Ok g)) /\ lay_inj g ex_lay /\ built g /\
  (forall A, ~ derives_empty g A).
Proof.
  eexists. assert (R : runs_to (build 0 idle_ex) (Ret (Ok _))) by (apply (build_vm _ _ 10); [vm_compute; reflexivity|discriminate]).
  split; [exact R|]. split; [apply ex_lay_inj; vm_compute; reflexivity|]. split; [exists 0, idle_ex; exact R|].
  intros A D. unfold derives_empty in D. apply lang_iff in D. destruct D as (rhs & (p & (r & Ir & Ip) & Er) & G). subst rhs. rewrite gen_empty in G.
  assert (X : exists t, In (Term t) (map pe_elem (pi_elements p))).
  { cbn in Ir. destruct Ir as [Ir|[Ir|[]]]; injection Ir as <- <-; cbn in Ip;
      (destruct Ip as [<-|[<-|[]]]; cbn; eauto 6). }
  destruct X as (t & X). destruct (G _ X) as (? & Y & _). discriminate Y.
Qed.

(** 0 -> 1 t7;  1 -> (empty) | t9: the first transformation drops, the second changes no body. *)
Definition idle_ex2 : list (gb_call nat nat nat nat) :=
  [AddRule 0 [AddProd 10 0 [AddNonterm 1; AddTerm 7]]; AddRule 1 [AddProd 12 0 []; AddProd 13 0 [AddTerm 9]]].
Example C95_example2 : exists g g' g'', runs_to (build 0 idle_ex2) (Ret (Ok g)) /\ lay_inj g ex_lay /\
  runs_to (transform_to_nonnull ex_lay g) (Ret (Ok g')) /\ lay_inj g' ex_lay /\
  runs_to (transform_to_nonnull ex_lay g') (Ret (Ok g'')) /\
  map (fun e => map (fun p => map pe_elem (pi_elements p)) (r_prods (snd e))) (rule_set g'') =
    [[[NonTerm 1; Term 7]; [Term 7]]; [[Term 9]]].
Proof.
  eexists. eexists. eexists. split; [apply (build_vm _ _ 10); [vm_compute; reflexivity|discriminate]|]. split; [apply ex_lay_inj; vm_compute; reflexivity|].
  split; [apply (transform_vm _ _ 10); [vm_compute; reflexivity|discriminate]|]. split; [apply ex_lay_inj; vm_compute; reflexivity|].
  split; [apply (transform_vm _ _ 10); [vm_compute; reflexivity|discriminate]|]. reflexivity.
Qed.
