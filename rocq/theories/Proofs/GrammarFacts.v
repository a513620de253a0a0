(** Facts about [Model/Grammar.v]. *)
From Coq Require Import String List Arith Lia Bool.
From Verif.Model Require Import Ord BTree Outcome Utils Grammar.
From Verif.Spec Require Import Reach Cfg BuildSpec.
From Verif.Proofs Require Import OrdFacts BTreeFacts LoopFacts UtilsFacts.
Import ListNotations.

#[export] Instance TotalPre_Elem {T NT} `{TotalPre T} `{TotalPre NT} : TotalPre (Elem T NT).
Proof.
  constructor; unfold cmp, Ord_Elem.
  - intros [x|x]; apply cmp_refl.
  - intros [x|x] [y|y]; try reflexivity; apply cmp_sym.
  - intros [x|x] [y|y] [z|z]; try congruence; apply cmp_lt_trans.
  - intros [x|x] [y|y] [z|z] E; try discriminate; try reflexivity; apply cmp_eq_compat; exact E.
Qed.
#[export] Instance OrdEq_Elem {T NT} `{OrdEq T} `{OrdEq NT} : OrdEq (Elem T NT).
Proof.
  constructor; [exact _|]. intros [x|x] [y|y] E; unfold cmp, Ord_Elem in E; try discriminate;
    apply cmp_eq in E; subst; reflexivity.
Qed.

Lemma filter_map_In {A B} (f : A -> option B) l b :
  In b (filter_map f l) <-> exists a, In a l /\ f a = Some b.
Proof.
  unfold filter_map. rewrite in_flat_map. split; intros (a & I & E); exists a; (split; [exact I|]).
  - destruct (f a); destruct E; [congruence|contradiction].
  - rewrite E. left. reflexivity.
Qed.

Lemma as_nonterm_Some {T NT} (e : Elem T NT) nt : as_nonterm e = Some nt <-> e = NonTerm nt.
Proof. destruct e; simpl; split; congruence. Qed.
Lemma as_term_Some {T NT} (e : Elem T NT) t : as_term e = Some t <-> e = Term t.
Proof. destruct e; simpl; split; congruence. Qed.

Section Prods.
  Context {T NT AK AV : Type}.

  Lemma number_prods_inner (h : NT) i (ps : list (ProdInner T NT AK AV)) :
    map p_inner (number_prods h i ps) = ps.
  Proof. revert i. induction ps as [|p ps IH]; intro i; simpl; [reflexivity|]. rewrite IH. reflexivity. Qed.
  Lemma number_prods_head (h : NT) i (ps : list (ProdInner T NT AK AV)) p :
    In p (number_prods h i ps) -> p_head p = h.
  Proof. revert i. induction ps as [|q ps IH]; intro i; simpl; [tauto|]. intros [<-|X]; [reflexivity|eauto]. Qed.
  Lemma number_prods_In (h : NT) i (ps : list (ProdInner T NT AK AV)) p :
    In p (number_prods h i ps) <->
    p_head p = h /\ i <= p_ix p /\ nth_error ps (p_ix p - i) = Some (p_inner p).
  Proof.
    revert i. induction ps as [|q ps IH]; intro i; simpl.
    - split; [tauto|]. intros (_ & _ & E). destruct (p_ix p - i); discriminate.
    - rewrite IH. split.
      + intros [<-|(E & L & N)]; simpl.
        * rewrite Nat.sub_diag. auto.
        * split; [exact E|]. split; [lia|]. replace (p_ix p - i) with (S (p_ix p - S i)) by lia. exact N.
      + intros (E & L & N). destruct (Nat.eq_dec (p_ix p) i) as [Q|Q].
        * left. rewrite Q, Nat.sub_diag in N. simpl in N. injection N as ->.
          destruct p as [ph pi pin]; simpl in *; subst. reflexivity.
        * right. split; [exact E|]. split; [lia|].
          replace (p_ix p - i) with (S (p_ix p - S i)) in N by lia. exact N.
  Qed.
  Lemma number_prods_length (h : NT) i (ps : list (ProdInner T NT AK AV)) :
    length (number_prods h i ps) = length ps.
  Proof. revert i. induction ps as [|q ps IH]; intro i; simpl; [reflexivity|]. rewrite IH. reflexivity. Qed.

  Lemma rule_prods_In (r : RuleInner T NT AK AV) p :
    In p (rule_prods r) <-> p_head p = r_head r /\ nth_error (r_prods r) (p_ix p) = Some (p_inner p).
  Proof.
    unfold rule_prods. rewrite number_prods_In, Nat.sub_0_r. intuition lia.
  Qed.

  Lemma rule_prods_nil (r : RuleInner T NT AK AV) : rule_prods r = [] <-> r_prods r = [].
  Proof. unfold rule_prods. destruct (r_prods r); simpl; split; congruence. Qed.

  Lemma flat_map_elements_number (h : NT) i (ps : list (ProdInner T NT AK AV)) :
    flat_map elements (number_prods h i ps) = flat_map elements_iter ps.
  Proof. revert i. induction ps as [|p ps IH]; intro i; simpl; [reflexivity|]. rewrite IH. reflexivity. Qed.

  Variable g : Grammar T NT AK AV.

  Lemma get_elements_In e :
    In e (get_elements g) <-> exists r p, In r (rules g) /\ In p (r_prods r) /\ In e (elements_iter p).
  Proof.
    unfold get_elements, rules. rewrite in_flat_map. split.
    - intros (p & I & E). rewrite in_flat_map in I. destruct I as (r & I1 & I2). exists r, p. auto.
    - intros (r & p & I1 & I2 & I3). exists p. split; [|exact I3]. apply in_flat_map. exists r. auto.
  Qed.
  Lemma get_nonterminals_In B :
    In B (get_nonterminals g) <->
    exists r p, In r (rules g) /\ In p (r_prods r) /\ In (NonTerm B) (elements_iter p).
  Proof.
    unfold get_nonterminals. rewrite filter_map_In. split.
    - intros (e & I & E). apply as_nonterm_Some in E. subst. apply get_elements_In. exact I.
    - intro X. exists (NonTerm B). split; [apply get_elements_In; exact X | reflexivity].
  Qed.
  Lemma get_terminals_In t :
    In t (get_terminals g) <->
    exists r p, In r (rules g) /\ In p (r_prods r) /\ In (Term t) (elements_iter p).
  Proof.
    unfold get_terminals. rewrite filter_map_In. split.
    - intros (e & I & E). apply as_term_Some in E. subst. apply get_elements_In. exact I.
    - intro X. exists (Term t). split; [apply get_elements_In; exact X | reflexivity].
  Qed.
End Prods.

Section Check.
  Context {T NT AK AV : Type} `{OrdEq NT}.
  Variable g : Grammar T NT AK AV.

  (** Rule sets as made by [Grammar::new]. *)
  Definition rs_wf : Prop :=
    msorted (rule_set g) /\ forall A r, In (A, r) (rule_set g) -> r_head r = A.

  Definition gmentions (A B : NT) : Prop :=
    exists r p, In (A, r) (rule_set g) /\ In p (r_prods r) /\ In (NonTerm B) (elements_iter p).
  Definition gdefined (A : NT) : Prop := In A (bt_keys (rule_set g)).

  Lemma gmentions_defined A B : gmentions A B -> gdefined A.
  Proof. intros (r & p & I & _). apply (in_map fst) in I. exact I. Qed.

  Lemma rules_In r : rs_wf -> (In r (rules g) <-> In (r_head r, r) (rule_set g)).
  Proof.
    intros [_ W]. unfold rules, bt_values. rewrite in_map_iff. split.
    - intros ([A r'] & E & I). simpl in E. subst. rewrite (W A r I). exact I.
    - intro I. exists (r_head r, r). auto.
  Qed.

  Lemma get_nonterminals_mention B : rs_wf -> (In B (get_nonterminals g) <-> exists A, gmentions A B).
  Proof.
    intro W. rewrite get_nonterminals_In. split.
    - intros (r & p & I1 & I2 & I3). exists (r_head r). apply (rules_In r W) in I1. exists r, p. auto.
    - intros (A & r & p & I1 & I2 & I3). exists r, p. split; [|auto]. apply (rules_In r W).
      rewrite (proj2 W A r I1). exact I1.
  Qed.

  Lemma successors_spec A :
    rs_wf ->
    match successors g A with
    | Ret l => gdefined A /\ sorted l /\ forall B, In B l <-> gmentions A B
    | Panic _ => ~ gdefined A
    | NoFuel => False
    end.
  Proof.
    intros W. unfold successors, get_rule, try_get_rule.
    destruct (bt_get A (rule_set g)) as [r|] eqn:G; simpl.
    - split; [apply bt_keys_In; exists r; exact G|]. split; [apply bs_of_list_sorted|].
      intro B. rewrite bs_of_list_In, filter_map_In. unfold rule_prods.
      rewrite flat_map_elements_number. split.
      + intros (e & I & E). apply as_nonterm_Some in E. subst. apply in_flat_map in I.
        destruct I as (p & I1 & I2). exists r, p. split; [apply bt_get_In; exact G | auto].
      + intros (r' & p & I1 & I2 & I3). apply (bt_get_iff A r' (rule_set g) (proj1 W)) in I1.
        rewrite G in I1. injection I1 as <-. exists (NonTerm B). split; [|reflexivity].
        apply in_flat_map. exists p. auto.
    - intro D. apply bt_keys_In in D. destruct D as (r & E). congruence.
  Qed.

  Lemma successors_NoFuel A : successors g A <> NoFuel.
  Proof. unfold successors, get_rule. destruct (try_get_rule g A); discriminate. Qed.

  Lemma edge_mentions A B : rs_wf -> (edge (successors g) A B <-> gmentions A B).
  Proof.
    intro W. pose proof (successors_spec A W) as S. unfold edge.
    destruct (successors g A) as [l|m|] eqn:E.
    - destruct S as (_ & _ & S). split.
      + intros (l' & E' & I). injection E' as <-. apply S. exact I.
      + intro M. exists l. split; [reflexivity|]. apply S. exact M.
    - split; [intros (l' & E' & _); discriminate|]. intro M. destruct S. exact (gmentions_defined _ _ M).
    - destruct S.
  Qed.

  Lemma star_edge A B : rs_wf -> (star (edge (successors g)) A B <-> star gmentions A B).
  Proof.
    intro W. split; intro S; (induction S as [|y z _ IH E]; [apply star_refl|]);
      (apply (star_step _ _ y); [exact IH|]); apply (edge_mentions _ _ W); exact E.
  Qed.
  Lemma plus_edge A B : rs_wf -> (plus (edge (successors g)) A B <-> plus gmentions A B).
  Proof.
    intro W. split; intros (y & S & E); exists y; (split; [apply (star_edge _ _ W); exact S|]);
      apply (edge_mentions _ _ W); exact E.
  Qed.

  Lemma find_reachable_spec :
    rs_wf ->
    exists r, runs_to (find_reachable_nonterms g) r /\
      match r with
      | Ret s => sorted s /\ (forall B, In B s <-> plus gmentions (start_symbol g) B) /\
                 (forall A, star gmentions (start_symbol g) A -> gdefined A)
      | Panic _ => exists A, star gmentions (start_symbol g) A /\ ~ gdefined A
      | NoFuel => False
      end.
  Proof.
    intro W.
    destruct (bfs_total (successors g) [start_symbol g] (get_nonterminals g)) as (r & R & P).
    - apply successors_NoFuel.
    - intros y (x & _ & z & _ & E). apply (edge_mentions _ _ W) in E.
      apply get_nonterminals_mention; [exact W|]. exists z. exact E.
    - exists r. split; [exact R|]. destruct r as [s|m|]; simpl in P.
      + destruct P as (P1 & P2 & P3). split; [exact P1|]. split.
        * intro B. rewrite P2. unfold reachp. split.
          -- intros (x & [<-|[]] & Q). apply (plus_edge _ _ W). exact Q.
          -- intro Q. exists (start_symbol g). split; [left; reflexivity|]. apply (plus_edge _ _ W). exact Q.
        * intros A Q. destruct (P3 A) as (l & F).
          { exists (start_symbol g). split; [left; reflexivity|]. apply (star_edge _ _ W). exact Q. }
          pose proof (successors_spec A W) as S. rewrite F in S. apply S.
      + destruct P as (x & (i & [<-|[]] & Q) & F). exists x. split.
        * apply (star_edge _ _ W). exact Q.
        * pose proof (successors_spec x W) as S. rewrite F in S. exact S.
      + exact P.
  Qed.

  Lemma find_nonterminals_without_rules_spec :
    rs_wf ->
    sorted (find_nonterminals_without_rules g) /\
    forall B, In B (find_nonterminals_without_rules g) <-> (exists A, gmentions A B) /\ ~ gdefined B.
  Proof.
    intro W. split; [apply bs_of_list_sorted|]. intro B. unfold find_nonterminals_without_rules.
    rewrite bs_of_list_In, filter_In, get_nonterminals_mention by exact W.
    unfold gdefined. rewrite <- bt_mem_iff. destruct (bt_mem B (rule_set g)); simpl; intuition congruence.
  Qed.

  Lemma find_rules_without_prods_spec :
    rs_wf ->
    sorted (find_rules_without_prods g) /\
    forall A, In A (find_rules_without_prods g) <-> exists r, In (A, r) (rule_set g) /\ r_prods r = [].
  Proof.
    intro W. split; [apply bs_of_list_sorted|]. intro A. unfold find_rules_without_prods.
    rewrite bs_of_list_In, in_map_iff. split.
    - intros (r & E & I). apply filter_In in I. destruct I as [I E']. exists r.
      apply (rules_In r W) in I. rewrite E in I. split; [exact I|]. apply rule_prods_nil.
      destruct (rule_prods r); [reflexivity|discriminate].
    - intros (r & I & E). exists r. split; [exact (proj2 W A r I)|]. apply filter_In. split.
      + apply (rules_In r W). rewrite (proj2 W A r I). exact I.
      + apply rule_prods_nil in E. rewrite E. reflexivity.
  Qed.

  Lemma is_nil_true {A} (l : list A) : is_nil l = true <-> l = [].
  Proof. destruct l; simpl; split; congruence. Qed.
  Lemma nil_iff_none {A} (l : list A) : l = [] <-> forall x, ~ In x l.
  Proof.
    destruct l as [|a l]; [split; [intros _ x []|reflexivity]|].
    split; [discriminate|]. intro N. destruct (N a). left. reflexivity.
  Qed.

  Lemma check_grammar_spec :
    rs_wf ->
    exists r, runs_to (check_grammar g) r /\
      match r with
      | Ret res =>
          (forall A, star gmentions (start_symbol g) A -> gdefined A) /\
          exists e,
            (sorted (unreachable_nonterms e) /\
             forall B, In B (unreachable_nonterms e) <->
               (exists A, gmentions A B) /\ ~ plus gmentions (start_symbol g) B) /\
            (sorted (nonterms_without_rules e) /\
             forall B, In B (nonterms_without_rules e) <-> (exists A, gmentions A B) /\ ~ gdefined B) /\
            (sorted (rules_without_prods e) /\
             forall A, In A (rules_without_prods e) <-> exists r, In (A, r) (rule_set g) /\ r_prods r = []) /\
            ((res = Ok tt /\ unreachable_nonterms e = [] /\ nonterms_without_rules e = [] /\
              rules_without_prods e = []) \/
             (res = Err e /\ ~ (unreachable_nonterms e = [] /\ nonterms_without_rules e = [] /\
              rules_without_prods e = [])))
      | Panic _ => exists A, star gmentions (start_symbol g) A /\ ~ gdefined A
      | NoFuel => False
      end.
  Proof.
    intro W. destruct (find_reachable_spec W) as (r & R & P).
    destruct r as [s|m|]; [| |destruct P].
    - destruct P as (P1 & P2 & P3).
      set (u := bs_of_list (filter (fun nt => negb (bs_mem nt s)) (get_nonterminals g))).
      set (e := Build_GrammarErrors u (find_nonterminals_without_rules g) (find_rules_without_prods g)).
      exists (Ret (into_result e)). split.
      + unfold check_grammar, find_unreachable_nonterms. destruct R as [_ [n R]].
        split; [discriminate|]. exists n. intros fuel L. rewrite (R fuel L). reflexivity.
      + split; [exact P3|]. exists e. split; [|split; [|split]].
        * split; [apply bs_of_list_sorted|]. intro B. unfold e, u. simpl.
          rewrite bs_of_list_In, filter_In, get_nonterminals_mention by exact W.
          rewrite <- P2, <- bs_mem_In_iff. destruct (bs_mem B s); simpl; intuition congruence.
        * exact (find_nonterminals_without_rules_spec W).
        * exact (find_rules_without_prods_spec W).
        * unfold into_result. destruct (is_nil (unreachable_nonterms e)) eqn:E1;
            destruct (is_nil (nonterms_without_rules e)) eqn:E2;
            destruct (is_nil (rules_without_prods e)) eqn:E3; cbn [andb];
            [left; rewrite !is_nil_true in *; auto | right ..];
            (split; [reflexivity|]; rewrite <- !is_nil_true; intuition congruence).
    - exists (Panic m). split; [|exact P]. unfold check_grammar, find_unreachable_nonterms.
      destruct R as [_ [n R]]. split; [discriminate|]. exists n. intros fuel L. rewrite (R fuel L). reflexivity.
  Qed.

  Lemma check_grammar_mono : fuel_mono (check_grammar g).
  Proof.
    unfold check_grammar, find_unreachable_nonterms, find_reachable_nonterms.
    apply fuel_mono_bind; [|intro a; apply fuel_mono_const].
    apply fuel_mono_bind; [|intro a; apply fuel_mono_const]. apply bfs_mono.
  Qed.
End Check.

Section Build.
  Context {T NT AK AV : Type} `{OrdEq NT}.

  Lemma grammar_new_mono (start : NT) (rl : list (RuleInner T NT AK AV)) :
    fuel_mono (grammar_new start rl).
  Proof. unfold grammar_new. apply fuel_mono_bind; [apply check_grammar_mono | intro a; apply fuel_mono_const]. Qed.
  Lemma build_mono (start : NT) (calls : list (gb_call T NT AK AV)) : fuel_mono (build start calls).
  Proof. apply grammar_new_mono. Qed.

  Lemma fold_pb (es : list (ProdElement T NT)) cs : fold_left pb_apply cs es = es ++ map spec_elem cs.
  Proof.
    revert es. induction cs as [|c cs IH]; intro es; simpl; [rewrite app_nil_r; reflexivity|].
    rewrite IH. destruct c; simpl; rewrite <- app_assoc; reflexivity.
  Qed.
  Lemma fold_rb (ps : list (ProdInner T NT AK AV)) cs : fold_left rb_apply cs ps = ps ++ map spec_prod cs.
  Proof.
    revert ps. induction cs as [|c cs IH]; intro ps; simpl; [rewrite app_nil_r; reflexivity|].
    rewrite IH. destruct c; simpl; rewrite ?fold_pb, <- app_assoc; reflexivity.
  Qed.
  Definition spec_rule (c : gb_call T NT AK AV) : RuleInner T NT AK AV :=
    match c with AddRule A rcs => Build_RuleInner A (map spec_prod rcs) end.
  Lemma fold_gb rs (cs : list (gb_call T NT AK AV)) : fold_left gb_apply cs rs = rs ++ map spec_rule cs.
  Proof.
    revert rs. induction cs as [|c cs IH]; intro rs; simpl; [rewrite app_nil_r; reflexivity|].
    rewrite IH. destruct c; simpl; rewrite fold_rb, <- app_assoc; reflexivity.
  Qed.

  (** The rule map made by [Grammar::new] from the builder's rules. *)
  Definition rule_map (rl : list (RuleInner T NT AK AV)) := bt_of_list (map (fun r => (r_head r, r)) rl).
  Definition calls_grammar (start : NT) (calls : list (gb_call T NT AK AV)) : Grammar T NT AK AV :=
    Build_Grammar start (rule_map (map spec_rule calls)).

  Lemma build_unfold start calls fuel :
    build start calls fuel =
    (r <- check_grammar (calls_grammar start calls) fuel ;;
     Ret (match r with Ok _ => Ok (calls_grammar start calls) | Err e => Err e end)).
  Proof. unfold build, grammar_new. rewrite fold_gb. reflexivity. Qed.

  Lemma rule_map_last (rl : list (RuleInner T NT AK AV)) A r :
    bt_get A (rule_map rl) = Some r <->
    r_head r = A /\ exists pre post, rl = pre ++ r :: post /\ forall r', In r' post -> r_head r' <> A.
  Proof.
    unfold rule_map. rewrite bt_of_list_get. revert r.
    induction rl as [|x rl IH] using rev_ind; intro r.
    - simpl. split; [discriminate|]. intros (_ & pre & post & E & _). destruct pre; discriminate.
    - rewrite map_app, fold_left_app. simpl. destruct (eqb_spec A (r_head x)) as [E|N].
      + split.
        * intro X. injection X as <-. split; [auto|]. exists rl, []. split; [reflexivity|]. intros r' [].
        * intros (_ & pre & post & E' & F). destruct post as [|y post] using rev_ind.
          -- apply app_inj_tail in E'. destruct E' as [_ ->]. reflexivity.
          -- clear IHpost. exfalso.
             rewrite app_comm_cons, app_assoc in E'. apply app_inj_tail in E'. destruct E' as [_ ->].
             apply (F y); [apply in_or_app; right; left; reflexivity | auto].
      + rewrite IH. split; intros (Hd & pre & post & E' & F); (split; [exact Hd|]).
        * exists pre, (post ++ [x]). split; [rewrite E', <- app_assoc; reflexivity|].
          intros r' I. apply in_app_or in I. destruct I as [I|[<-|[]]]; auto.
        * destruct post as [|y post] using rev_ind.
          -- apply app_inj_tail in E'. destruct E' as [_ ->]. congruence.
          -- clear IHpost. rewrite app_comm_cons, app_assoc in E'. apply app_inj_tail in E'.
             destruct E' as [-> ->]. exists pre, post. split; [reflexivity|].
             intros r' I. apply F. apply in_or_app. auto.
  Qed.

  Lemma calls_get start calls A r :
    bt_get A (rule_set (calls_grammar start calls)) = Some r <->
    exists rcs, last_rule calls A rcs /\ r = Build_RuleInner A (map spec_prod rcs).
  Proof.
    unfold calls_grammar. simpl. rewrite rule_map_last. split.
    - intros (Hd & pre & post & E & F). apply map_eq_app in E. destruct E as (p1 & p2 & -> & <- & E).
      destruct p2 as [|[A' rcs] p2]; [discriminate|]. simpl in E. injection E as <- <-. simpl in Hd. subst A'.
      exists rcs. split; [|reflexivity]. exists p1, p2. split; [reflexivity|].
      intros rcs' I. apply (F (spec_rule (AddRule A rcs'))); [|reflexivity].
      apply in_map. exact I.
    - intros (rcs & (pre & post & -> & F) & ->). split; [reflexivity|].
      exists (map spec_rule pre), (map spec_rule post). split; [rewrite map_app; reflexivity|].
      intros r' I. apply in_map_iff in I. destruct I as ([A' rcs'] & <- & I). simpl. intros ->.
      exact (F rcs' I).
  Qed.

  Lemma calls_rs_wf start calls : rs_wf (calls_grammar start calls).
  Proof.
    split; [apply bt_of_list_sorted|]. intros A r I.
    apply bt_get_iff in I; [|apply bt_of_list_sorted]. apply rule_map_last in I. apply I.
  Qed.

  Lemma calls_In start calls A r :
    In (A, r) (rule_set (calls_grammar start calls)) <->
    exists rcs, last_rule calls A rcs /\ r = Build_RuleInner A (map spec_prod rcs).
  Proof. rewrite <- (calls_get start). symmetry. apply bt_get_iff. apply calls_rs_wf. Qed.

  Lemma calls_defined start calls A : gdefined (calls_grammar start calls) A <-> defined calls A.
  Proof.
    unfold gdefined, defined. rewrite bt_keys_In. split.
    - intros (r & G). apply calls_get in G. destruct G as (rcs & L & _). exists rcs. exact L.
    - intros (rcs & L). exists (Build_RuleInner A (map spec_prod rcs)). apply calls_get. exists rcs. auto.
  Qed.
  Lemma calls_mentions start calls A B : gmentions (calls_grammar start calls) A B <-> mentions calls A B.
  Proof.
    unfold gmentions, mentions. split.
    - intros (r & p & I1 & I2 & I3). apply calls_In in I1. destruct I1 as (rcs & L & ->). simpl in I2.
      apply in_map_iff in I2. destruct I2 as (c & <- & I2). exists rcs, c. auto.
    - intros (rcs & c & L & I2 & I3). exists (Build_RuleInner A (map spec_prod rcs)), (spec_prod c).
      split; [apply calls_In; exists rcs; auto|]. split; [apply in_map; exact I2 | exact I3].
  Qed.
  Lemma star_ext {X} (R S : X -> X -> Prop) a b : (forall x y, R x y <-> S x y) -> star R a b <-> star S a b.
  Proof.
    intro E. split; intro Q; (induction Q as [|y z _ IH F]; [apply star_refl|]);
      (apply (star_step _ _ y); [exact IH|]); apply E; exact F.
  Qed.
  Lemma plus_ext {X} (R S : X -> X -> Prop) a b : (forall x y, R x y <-> S x y) -> plus R a b <-> plus S a b.
  Proof.
    intro E. split; intros (y & Q & F); exists y; (split; [apply (star_ext R S _ _ E); exact Q|]);
      apply E; exact F.
  Qed.

  Lemma build_spec (start : NT) (calls : list (gb_call T NT AK AV)) :
    exists r, runs_to (build start calls) r /\
      match r with
      | Ret res =>
          (forall A, star (mentions calls) start A -> defined calls A) /\
          exists e,
            (sorted (unreachable_nonterms e) /\
             forall B, In B (unreachable_nonterms e) <-> err_unreachable calls start B) /\
            (sorted (nonterms_without_rules e) /\
             forall B, In B (nonterms_without_rules e) <-> err_undefined calls B) /\
            (sorted (rules_without_prods e) /\
             forall A, In A (rules_without_prods e) <-> err_no_prods calls A) /\
            ((res = Ok (calls_grammar start calls) /\ unreachable_nonterms e = [] /\
              nonterms_without_rules e = [] /\ rules_without_prods e = []) \/
             (res = Err e /\ ~ (unreachable_nonterms e = [] /\ nonterms_without_rules e = [] /\
              rules_without_prods e = [])))
      | Panic _ => exists A, star (mentions calls) start A /\ ~ defined calls A
      | NoFuel => False
      end.
  Proof.
    pose (g := calls_grammar start calls).
    assert (Ms : forall A B, gmentions g A B <-> mentions calls A B) by (intros; apply calls_mentions).
    destruct (check_grammar_spec g (calls_rs_wf start calls)) as (r & R & P).
    destruct r as [res|m|]; [| |destruct P].
    - exists (Ret (match res with Ok _ => Ok g | Err e => Err e end)). split.
      + destruct R as [_ [n R]]. split; [discriminate|]. exists n. intros fuel L. rewrite build_unfold.
        fold g. rewrite (R fuel L). reflexivity.
      + destruct P as (P1 & e & (U1 & U2) & (D1 & D2) & (N1 & N2) & C). split.
        * intros A S. apply (calls_defined start). apply P1. apply (star_ext _ _ _ _ Ms). exact S.
        * exists e. split; [split; [exact U1|]|split; [split; [exact D1|]|split; [split; [exact N1|]|]]].
          -- intro B. rewrite U2. unfold err_unreachable, is_mentioned.
             change (start_symbol g) with start. rewrite (plus_ext _ _ start B Ms).
             split; intros [(A & M) X]; (split; [exists A; apply Ms; exact M | exact X]).
          -- intro B. rewrite D2. unfold err_undefined, is_mentioned. rewrite <- (calls_defined start calls B).
             split; intros [(A & M) X]; (split; [exists A; apply Ms; exact M | exact X]).
          -- intro A. rewrite N2. unfold err_no_prods. split.
             ++ intros (r & I & E). apply calls_In in I. destruct I as (rcs & L & ->). simpl in E.
                apply map_eq_nil in E. subst. exact L.
             ++ intro L. exists (Build_RuleInner A []). split; [|reflexivity]. apply calls_In. exists []. auto.
          -- destruct C as [[-> C]|[-> C]]; [left|right]; auto.
    - exists (Panic m). split.
      + destruct R as [_ [n R]]. split; [discriminate|]. exists n. intros fuel L. rewrite build_unfold.
        fold g. rewrite (R fuel L). reflexivity.
      + destruct P as (A & S & D). exists A. split; [apply (star_ext _ _ _ _ Ms) in S; exact S|].
        intro X. apply D. apply calls_defined. exact X.
  Qed.

  (** Everything later proofs need to know about an accepted grammar. *)
  Record accepted (g : Grammar T NT AK AV) : Prop := {
    acc_wf : rs_wf g;
    acc_start : gdefined g (start_symbol g);
    acc_mentioned : forall A B, gmentions g A B -> gdefined g B;
    acc_reach : forall A B, gmentions g A B -> plus (gmentions g) (start_symbol g) B;
    acc_prods : forall A r, In (A, r) (rule_set g) -> r_prods r <> []
  }.

  Lemma build_Ok_inv (start : NT) (calls : list (gb_call T NT AK AV)) g :
    runs_to (build start calls) (Ret (Ok g)) ->
    g = calls_grammar start calls /\ accepted g /\
    (forall A, star (mentions calls) start A -> defined calls A).
  Proof.
    intro R. destruct (build_spec start calls) as (r & R' & P).
    rewrite <- (runs_to_fun _ _ _ R R') in P.
    destruct P as (P1 & e & (U1 & U2) & (D1 & D2) & (N1 & N2) & C).
    destruct C as [(E & EU & ED & EN)|[E _]]; [|discriminate]. injection E as ->.
    split; [reflexivity|]. split; [|exact P1].
    set (g := calls_grammar start calls).
    assert (Ms : forall A B, gmentions g A B <-> mentions calls A B) by (intros; apply calls_mentions).
    assert (Md : forall A B, gmentions g A B -> gdefined g B).
    { intros A B M. unfold gdefined. destruct (in_dec OrdEq_dec B (bt_keys (rule_set g))) as [I|I]; [exact I|].
      exfalso. assert (X : In B (nonterms_without_rules e)); [|rewrite ED in X; destruct X].
      apply D2. split; [exists A; apply Ms; exact M|]. intro Y. apply (calls_defined start) in Y. exact (I Y). }
    constructor.
    - apply calls_rs_wf.
    - apply calls_defined. apply P1. apply star_refl.
    - exact Md.
    - intros A B M.
      assert (X : ~ ~ plus (mentions calls) start B).
      { intro NP. assert (X : In B (unreachable_nonterms e)); [|rewrite EU in X; destruct X].
        apply U2. split; [exists A; apply Ms; exact M | exact NP]. }
      (* reachability is decided by the search that was run *)
      destruct (find_reachable_spec g (calls_rs_wf start calls)) as (rr & _ & F).
      destruct rr as [s|m|]; [| |destruct F].
      + destruct F as (_ & F & _). destruct (in_dec OrdEq_dec B s) as [I|I]; [apply F; exact I|].
        exfalso. apply X. intro Y. apply I. apply F. apply (plus_ext _ _ start B Ms). exact Y.
      + destruct F as (A' & S & D). exfalso. apply D. apply calls_defined. apply P1.
        apply (star_ext _ _ start A' Ms). exact S.
    - intros A r0 I E. assert (X : In A (rules_without_prods e)); [|rewrite EN in X; destruct X].
      apply N2. apply calls_In in I. destruct I as (rcs & L & ->). simpl in E.
      apply map_eq_nil in E. subst. exact L.
  Qed.

  Lemma built_accepted (g : Grammar T NT AK AV) : built g -> accepted g.
  Proof. intros (start & calls & R). apply (build_Ok_inv start calls). exact R. Qed.

  Lemma built_rs_wf (g : Grammar T NT AK AV) : built g -> rs_wf g.
  Proof. intro B. apply acc_wf. apply built_accepted. exact B. Qed.

  (** Conversely, any grammar value satisfying the conditions is the result of [Grammar::new]. *)
  Lemma accepted_check (g : Grammar T NT AK AV) : accepted g -> runs_to (check_grammar g) (Ret (Ok tt)).
  Proof.
    intro A. destruct (check_grammar_spec g (acc_wf g A)) as (r & R & P).
    destruct r as [res|m|]; [| |destruct P].
    - destruct P as (_ & e & (_ & U) & (_ & D) & (_ & N) & C).
      destruct C as [(-> & _)|(_ & C)]; [exact R|]. exfalso. apply C.
      rewrite !nil_iff_none. split; [|split]; intros x I.
      + apply U in I. destruct I as [(B & M) X]. exact (X (acc_reach g A _ _ M)).
      + apply D in I. destruct I as [(B & M) X]. exact (X (acc_mentioned g A _ _ M)).
      + apply N in I. destruct I as (r & I & E). exact (acc_prods g A _ _ I E).
    - exfalso. destruct P as (B & S & D). apply D. destruct S as [|y z S M].
      + exact (acc_start g A).
      + exact (acc_mentioned g A _ _ M).
  Qed.
End Build.
