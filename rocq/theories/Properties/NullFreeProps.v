(** Properties of the passes on null-free grammars (C94). *)
From Coq Require Import String List.
From Verif.Model Require Import Ord BTree Outcome Grammar Nullable Firsts NonNull.
From Verif.Spec Require Import Reach Cfg BuildSpec NullSpec NonNullSpec Examples.
From Verif.Proofs Require Import OrdFacts BTreeFacts LoopFacts GrammarFacts BuildMore NullableFacts NullableMore CfgFacts FirstsMore NonNullFacts NonNullMore NullFreeFacts.
Import ListNotations.

Section S.
  Context {T NT AK AV : Type} `{OrdEq T} `{OrdEq NT}.

  (** C94. FIRST and FOLLOW of the null-free grammar are among those of the original. *)
  Theorem C94_sound (lay : layout NT) (g : Grammar T NT AK AV) g' :
    lay_inj g lay -> built g -> runs_to (transform_to_nonnull lay g) (Ret (Ok g')) ->
    (forall A t, first_of (rhs_of g') A t -> first_of (rhs_of g) A t) /\
    (forall B A t, follow_from (rhs_of g') B A t -> follow_from (rhs_of g) B A t).
  Proof.
    intros I B R. split.
    - intros A t (rest & D). exists rest. exact (tr_form lay g I B g' R _ _ D).
    - intros X A t (pre & post & D). exists pre, post. exact (tr_form lay g I B g' R _ _ D).
  Qed.

  (** C94. They are the same if only empty bodies derive the empty word. *)
  Theorem C94_first_follow (lay : layout NT) (g : Grammar T NT AK AV) g' :
    lay_inj g lay -> built g -> runs_to (transform_to_nonnull lay g) (Ret (Ok g')) -> null_bodies_empty g ->
    (forall A t, first_of (rhs_of g') A t <-> first_of (rhs_of g) A t) /\
    (forall A t, (exists B, follow_from (rhs_of g') B A t) <-> (exists B, follow_from (rhs_of g) B A t)).
  Proof. intros I B R NE. split; intros A t; [exact (tr_first lay g I B g' R NE A t)|exact (tr_follow lay g I B g' R NE A t)]. Qed.

  (** C94. On the null-free grammar the Nullable pass finds nothing and the Firsts pass finds exactly FIRST of
      the original; when the Follows pass returns it has exactly FOLLOW of the original (on the original it
      can miss terminals, see C17), and it returns if every nonterminal derives a word. *)
  Theorem C94_passes (lay lay' : layout NT) (g : Grammar T NT AK AV) g' :
    lay_inj g lay -> built g -> runs_to (transform_to_nonnull lay g) (Ret (Ok g')) -> lay_inj g' lay' -> null_bodies_empty g ->
    runs_to (calculate_nullables lay' g') (Ret (Ok [])) /\
    (exists m, runs_to (calculate_firsts lay' g') (Ret (Ok m)) /\
       forall A t, (exists s, firsts_get m A = Some s /\ In t s) <-> first_of (rhs_of g) A t) /\
    (forall m, runs_to (calculate_follows lay' g') (Ret (Ok m)) ->
       forall A t, (exists s, bt_get A m = Some s /\ In t s) <-> exists B, follow_from (rhs_of g) B A t) /\
    (productive g -> exists m, runs_to (calculate_follows lay' g') (Ret (Ok m))).
  Proof.
    intros I B R I' NE. split; [exact (tr_nullables lay g I B g' R lay' I')|].
    split; [exact (tr_firsts lay g I B g' R lay' I' NE)|]. split; [exact (tr_follows lay g I B g' R lay' I' NE)|].
    exact (tr_follows_total lay g I B g' R lay' I' NE).
  Qed.

  (** C94. The condition holds when the transformation keeps the language (C11) of a grammar without useless
      nonterminals. *)
  Theorem C94_condition (lay : layout NT) (g : Grammar T NT AK AV) g' :
    lay_inj g lay -> built g -> runs_to (transform_to_nonnull lay g) (Ret (Ok g')) ->
    productive g -> null_prods_pure g -> null_bodies_empty g.
  Proof. exact (fun I B R => pure_condition lay g I B g' R). Qed.
End S.

Print Assumptions C94_sound.
Print Assumptions C94_first_follow.
Print Assumptions C94_passes.
Print Assumptions C94_condition.

(** 0 -> 1 2 t7;  1 -> t9;  2 -> (empty) | t8: the Follows pass misses 7 after 1 on the original and finds it on
    the null-free grammar. *)
Definition nf_ex : list (gb_call nat nat nat nat) :=
  [AddRule 0 [AddProd 10 0 [AddNonterm 1; AddNonterm 2; AddTerm 7]]; AddRule 1 [AddProd 11 0 [AddTerm 9]];
   AddRule 2 [AddProd 12 0 []; AddProd 13 0 [AddTerm 8]]].
Example C94_example : exists g g', runs_to (build 0 nf_ex) (Ret (Ok g)) /\ lay_inj g ex_lay /\
  runs_to (transform_to_nonnull ex_lay g) (Ret (Ok g')) /\ lay_inj g' ex_lay /\ null_bodies_empty g /\ productive g /\
  runs_to (calculate_follows ex_lay g) (Ret (Ok [(1, [8]); (2, [7])])) /\
  runs_to (calculate_follows ex_lay g') (Ret (Ok [(1, [7; 8]); (2, [7])])).
Proof.
  eexists. eexists. split; [apply (build_vm _ _ 10); [vm_compute; reflexivity|discriminate]|]. split; [apply ex_lay_inj; vm_compute; reflexivity|].
  split; [apply (transform_vm _ _ 10); [vm_compute; reflexivity|discriminate]|]. split; [apply ex_lay_inj; vm_compute; reflexivity|].
  assert (G2 : forall g : Grammar nat nat nat nat, forall A rhs w, rhs_of g A rhs -> gen (rhs_of g) rhs w -> lang (rhs_of g) A w)
    by (intros; apply lang_iff; eauto).
  split; [|split; [|split]].
  - intros A p (r & Ir & Ip) E. cbn in Ir. destruct Ir as [Ir|[Ir|[Ir|[]]]]; injection Ir as <- <-; cbn in Ip.
    + destruct Ip as [<-|[]]. exfalso. unfold body_derives_empty in E. rewrite gen_empty in E.
      destruct (E (Term 7)) as (? & X & _); [cbn; auto|discriminate X].
    + destruct Ip as [<-|[]]. exfalso. unfold body_derives_empty in E. rewrite gen_empty in E.
      destruct (E (Term 9)) as (? & X & _); [cbn; auto|discriminate X].
    + destruct Ip as [<-|[<-|[]]]; [reflexivity|]. exfalso. unfold body_derives_empty in E. rewrite gen_empty in E.
      destruct (E (Term 8)) as (? & X & _); [cbn; auto|discriminate X].
  - match goal with |- productive ?x => set (g := x) end.
    assert (P1 : rhs_of g 1 [Term 9]). { eexists. split; [eexists; split; [right; left; reflexivity|left; reflexivity]|reflexivity]. }
    assert (P2 : rhs_of g 2 []). { eexists. split; [eexists; split; [right; right; left; reflexivity|left; reflexivity]|reflexivity]. }
    assert (P0 : rhs_of g 0 [NonTerm 1; NonTerm 2; Term 7]). { eexists. split; [eexists; split; [left; reflexivity|left; reflexivity]|reflexivity]. }
    intros A rhs (p & (r & Ir & _) & _). cbn in Ir. destruct Ir as [Ir|[Ir|[Ir|[]]]]; injection Ir as <- _.
    + exists [9; 7]. apply (G2 g 0 _ _ P0).
      refine (gen_nonterm _ 1 [Term 9] _ [9] [7] P1 _ _); [repeat constructor|].
      refine (gen_nonterm _ 2 [] _ [] [7] P2 _ _); repeat constructor.
    + exists [9]. apply (G2 g 1 _ _ P1). repeat constructor.
    + exists []. apply (G2 g 2 _ _ P2). constructor.
  - apply (runs_to_mono _ 10); [apply calculate_follows_mono|vm_compute; reflexivity|discriminate].
  - apply (runs_to_mono _ 10); [apply calculate_follows_mono|vm_compute; reflexivity|discriminate].
Qed.
