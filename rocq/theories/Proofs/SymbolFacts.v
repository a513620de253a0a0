(** Building, wrapping, the passes, the null-removing transformation and the parser commute with replacing symbols and
    actions by the keys they are compared by. *)
From Coq Require Import String List Arith NArith Lia.
From Verif.Model Require Import Ord BTree Outcome Utils Grammar StartGrammar Nullable NonNull Firsts Tokens Tree State Earley.
From Verif.Spec Require Import Cfg BuildSpec RenameSpec TreeSpec EarleySpec RenameForestSpec ValueSpec CoarseSpec SymbolSpec.
From Verif.Proofs Require Import OrdFacts CoarseFacts.
Import ListNotations.

(** ** Maps and sets *)
Section Maps.
  Context {K K' X Y : Type} `{Ord K} `{Ord K'}.
  Variables (f : K -> K') (h : X -> Y).
  Hypothesis F : compares_by f.
  Lemma kget k (m : btmap K X) : bt_get (f k) (key_map f h m) = option_map h (bt_get k m).
  Proof. unfold key_map. induction m as [|[d i] m IH]; cbn; [reflexivity|]. rewrite <- (F k d). destruct (cmp k d); auto. Qed.
  Lemma kinsert k v (m : btmap K X) : bt_insert (f k) (h v) (key_map f h m) = key_map f h (bt_insert k v m).
  Proof. unfold key_map. induction m as [|[d i] m IH]; cbn; [reflexivity|]. rewrite <- (F k d). destruct (cmp k d); cbn; try reflexivity. rewrite IH. reflexivity. Qed.
  Lemma kremove k (m : btmap K X) : bt_remove (f k) (key_map f h m) = key_map f h (bt_remove k m).
  Proof. unfold key_map. induction m as [|[d i] m IH]; cbn; [reflexivity|]. rewrite <- (F k d). destruct (cmp k d); cbn; try reflexivity; rewrite IH; reflexivity. Qed.
  Lemma kmem k (m : btmap K X) : bt_mem (f k) (key_map f h m) = bt_mem k m.
  Proof. unfold bt_mem. rewrite kget. destruct (bt_get k m); reflexivity. Qed.
  Lemma kkeys (m : btmap K X) : bt_keys (key_map f h m) = map f (bt_keys m).
  Proof. unfold bt_keys, key_map. rewrite !map_map. reflexivity. Qed.
  Lemma kvalues (m : btmap K X) : bt_values (key_map f h m) = map h (bt_values m).
  Proof. unfold bt_values, key_map. rewrite !map_map. reflexivity. Qed.
  Lemma kof_list l : bt_of_list (key_map f h l) = key_map f h (bt_of_list l).
  Proof.
    unfold bt_of_list. change (@nil (K' * Y)) with (key_map f h (@nil (K * X))) at 1. generalize (@nil (K * X)).
    induction l as [|[k v] l IH]; intro m; cbn [key_map map fold_left fst snd]; [reflexivity|]. rewrite kinsert. apply IH.
  Qed.
  Lemma smem k (s : btset K) : bs_mem (f k) (map f s) = bs_mem k s.
  Proof. induction s as [|d s IH]; cbn; [reflexivity|]. rewrite <- (F k d). destruct (cmp k d); auto. Qed.
  Lemma sadd k (s : btset K) : bs_add (f k) (map f s) = map f (bs_add k s).
  Proof. induction s as [|d s IH]; cbn; [reflexivity|]. rewrite <- (F k d). destruct (cmp k d); cbn; try reflexivity. rewrite IH. reflexivity. Qed.
  Lemma sremove k (s : btset K) : bs_remove (f k) (map f s) = map f (bs_remove k s).
  Proof. induction s as [|d s IH]; cbn; [reflexivity|]. rewrite <- (F k d). destruct (cmp k d); cbn; try reflexivity; rewrite IH; reflexivity. Qed.
  Lemma sextend l : forall s, bs_extend (map f s) (map f l) = map f (bs_extend s l).
  Proof. induction l as [|k l IH]; intro s; cbn; [reflexivity|]. rewrite sadd. apply IH. Qed.
  Lemma sof_list l : bs_of_list (map f l) = map f (bs_of_list l).
  Proof. exact (sextend l []). Qed.
  Lemma sinsert k (s : btset K) : bs_insert (f k) (map f s) = (fst (bs_insert k s), map f (snd (bs_insert k s))).
  Proof. unfold bs_insert. cbn. rewrite smem, sadd. reflexivity. Qed.
End Maps.
Lemma eqb_key {K K'} `{Ord K} `{Ord K'} (f : K -> K') : compares_by f -> forall a b, eqb (f a) (f b) = eqb a b.
Proof. intros F a b. unfold eqb. rewrite <- (F a b). reflexivity. Qed.
Lemma filter_map_map {A B C} (f : B -> option C) (g : A -> B) l : filter_map f (map g l) = filter_map (fun a => f (g a)) l.
Proof. unfold filter_map. induction l; cbn; [reflexivity|]. rewrite IHl. reflexivity. Qed.
Lemma map_filter_map {A B C} (f : A -> option B) (g : B -> C) l : map g (filter_map f l) = filter_map (fun a => option_map g (f a)) l.
Proof. unfold filter_map. induction l as [|a l IH]; cbn; [reflexivity|]. rewrite map_app, IH. destruct (f a); reflexivity. Qed.
Lemma filter_map_ext {A B} (f g : A -> option B) : (forall a, f a = g a) -> forall l, filter_map f l = filter_map g l.
Proof. intros E l. unfold filter_map. induction l; cbn; [reflexivity|]. rewrite E, IHl. reflexivity. Qed.
Lemma map_filter {A B} (f : A -> B) (p : A -> bool) (q : B -> bool) : (forall a, q (f a) = p a) -> forall l, filter q (map f l) = map f (filter p l).
Proof. intros E l. induction l; cbn; [reflexivity|]. rewrite E, IHl. destruct (p a); reflexivity. Qed.
Lemma flat_map_map {A B C D} (f : A -> B) (g : C -> D) (h : A -> list C) (k : B -> list D) :
  (forall a, k (f a) = map g (h a)) -> forall l, flat_map k (map f l) = map g (flat_map h l).
Proof. intros E l. induction l; cbn; [reflexivity|]. rewrite E, IHl, map_app. reflexivity. Qed.
Lemma fold_left_map {A B C D} (f : A -> C) (g : B -> D) (s : A -> B -> A) (s' : C -> D -> C) :
  (forall a b, s' (f a) (g b) = f (s a b)) -> forall l a, fold_left s' (map g l) (f a) = f (fold_left s l a).
Proof. intros E l. induction l; intro x; cbn; [reflexivity|]. rewrite E. apply IHl. Qed.
Lemma expect_map {A B} (f : A -> B) x m : expect (option_map f x) m = map_out f (expect x m).
Proof. destruct x; reflexivity. Qed.

(** ** Loops *)
Definition onc {S S'} (f : S -> S') (x : WasChanged * S) : WasChanged * S' := (fst x, f (snd x)).
Lemma change_loop_map {S S'} (f : S -> S') (func : S -> outcome (WasChanged * S)) func' :
  (forall s, func' (f s) = map_out (onc f) (func s)) ->
  forall fuel s, change_loop func' fuel (f s) = map_out f (change_loop func fuel s).
Proof.
  intros E. induction fuel as [|fuel IH]; intro s; cbn [change_loop]; [reflexivity|]. rewrite E. apply obind_map.
  intros [c s']. cbn. destruct c; [apply IH|reflexivity].
Qed.
Lemma change_iter_map {S S' I I'} (f : S -> S') (g : I -> I') (func : I -> S -> outcome (WasChanged * S)) func' :
  (forall i s, func' (g i) (f s) = map_out (onc f) (func i s)) ->
  forall l c s, change_iter_from func' c (map g l) (f s) = map_out (onc f) (change_iter_from func c l s).
Proof.
  intros E. induction l as [|i l IH]; intros c s; cbn [change_iter_from map]; [reflexivity|]. rewrite E. apply obind_map.
  intros [c' s']. cbn. apply IH.
Qed.

Section Bfs.
  Context {T T' : Type} `{Ord T} `{Ord T'}.
  Variable f : T -> T'.
  Hypothesis F : compares_by f.
  Definition two (x : btset T * btset T) : btset T' * btset T' := (map f (fst x), map f (snd x)).
  Lemma bfs_visit_map : forall l x, bfs_visit (map f l) (two x) = two (bfs_visit l x).
  Proof.
    apply fold_left_map. intros [a b] c. cbn. rewrite (smem f F). destruct (bs_mem c b); [reflexivity|]. unfold two; cbn.
    rewrite !(sadd f F). reflexivity.
  Qed.
  Lemma bfs_round_map step step' : (forall a, step' (f a) = map_out (map f) (step a)) ->
    forall l x, bfs_round step' (map f l) (two x) = map_out two (bfs_round step l x).
  Proof.
    intro E. induction l as [|a l IH]; intro x; cbn [bfs_round map]; [reflexivity|]. rewrite E. apply obind_map. intro s.
    rewrite bfs_visit_map. apply IH.
  Qed.
  Lemma bfs_loop_map step step' : (forall a, step' (f a) = map_out (map f) (step a)) ->
    forall fuel c s, bfs_loop step' fuel (map f c) (map f s) = map_out (map f) (bfs_loop step fuel c s).
  Proof.
    intro E. induction fuel as [|fuel IH]; intros c s; cbn [bfs_loop]; [reflexivity|]. destruct c as [|x c]; [reflexivity|].
    cbn [map]. change (f x :: map f c) with (map f (x :: c)). change (@nil T', map f s) with (two ([], s)).
    rewrite (bfs_round_map step step' E). apply obind_map. intros [n s']. cbn. apply IH.
  Qed.
  Lemma bfs_map step step' : (forall a, step' (f a) = map_out (map f) (step a)) ->
    forall i fuel, breadth_first_search (map f i) step' fuel = map_out (map f) (breadth_first_search i step fuel).
  Proof. intros E i fuel. unfold breadth_first_search. rewrite (sof_list f F). exact (bfs_loop_map step step' E fuel _ []). Qed.
End Bfs.

(** ** Building *)
Section Build.
  Context {T NT AK AV T' NT' AK' AV' : Type} `{Ord NT} `{Ord NT'}.
  Variables (fT : T -> T') (fN : NT -> NT') (fK : AK -> AK') (fV : AV -> AV').
  Hypothesis FN : compares_by fN.
  Local Notation re := (ren_elem fT fN).
  Local Notation rpe := (ren_pe fT fN).
  Local Notation rp := (ren_prod fT fN fK fV).
  Local Notation rr := (ren_rule fT fN fK fV).
  Local Notation kg := (key_grammar fT fN fK fV).
  Definition key_prod (p : Prod T NT AK AV) : Prod T' NT' AK' AV' := Build_Prod (fN (p_head p)) (p_ix p) (rp (p_inner p)).
  Implicit Types g : Grammar T NT AK AV.

  Lemma number_map A : forall ps i, number_prods (fN A) i (map rp ps) = map key_prod (number_prods A i ps).
  Proof. induction ps as [|p ps IH]; intro i; cbn; [reflexivity|]. rewrite IH. reflexivity. Qed.
  Lemma rule_prods_map r : rule_prods (rr r) = map key_prod (rule_prods r).
  Proof. apply number_map. Qed.
  Lemma elements_iter_map p : elements_iter (rp p) = map re (elements_iter p).
  Proof. unfold elements_iter. cbn. rewrite !map_map. reflexivity. Qed.
  Lemma elements_map p : elements (key_prod p) = map re (elements p).
  Proof. apply elements_iter_map. Qed.
  Lemma rules_map g : rules (kg g) = map rr (rules g).
  Proof. unfold rules. apply kvalues. Qed.
  Lemma prods_map g : prods (kg g) = map key_prod (prods g).
  Proof. unfold prods. rewrite rules_map. apply flat_map_map. apply rule_prods_map. Qed.
  Lemma as_nonterm_map e : as_nonterm (re e) = option_map fN (as_nonterm e).
  Proof. destruct e; reflexivity. Qed.
  Lemma nonterms_map l : filter_map as_nonterm (map re l) = map fN (filter_map as_nonterm l).
  Proof. rewrite filter_map_map, map_filter_map. apply filter_map_ext. apply as_nonterm_map. Qed.
  Lemma get_elements_map g : get_elements (kg g) = map re (get_elements g).
  Proof.
    unfold get_elements. cbn [rule_set key_grammar]. rewrite kvalues, (flat_map_map rr rp r_prods r_prods) by reflexivity.
    apply flat_map_map. apply elements_iter_map.
  Qed.
  Lemma get_nonterminals_map g : get_nonterminals (kg g) = map fN (get_nonterminals g).
  Proof. unfold get_nonterminals. rewrite get_elements_map. apply nonterms_map. Qed.
  Lemma try_get_rule_map g A : try_get_rule (kg g) (fN A) = option_map rr (try_get_rule g A).
  Proof. apply (kget fN rr FN). Qed.
  Lemma get_rule_map g A : get_rule (kg g) (fN A) = map_out rr (get_rule g A).
  Proof. unfold get_rule. rewrite try_get_rule_map. apply expect_map. Qed.
  Lemma without_rules_map g : find_nonterminals_without_rules (kg g) = map fN (find_nonterminals_without_rules g).
  Proof.
    unfold find_nonterminals_without_rules. rewrite get_nonterminals_map, (map_filter fN (fun A => negb (bt_mem A (rule_set g)))).
    - apply (sof_list fN FN).
    - intro A. cbn. rewrite (kmem fN rr FN). reflexivity.
  Qed.
  Lemma without_prods_map g : find_rules_without_prods (kg g) = map fN (find_rules_without_prods g).
  Proof.
    unfold find_rules_without_prods. rewrite rules_map, (map_filter rr (fun r => match rule_prods r with [] => true | _ => false end)).
    - rewrite <- (sof_list fN FN), !map_map. reflexivity.
    - intro r. rewrite rule_prods_map. destruct (rule_prods r); reflexivity.
  Qed.
  Lemma successors_map g A : successors (kg g) (fN A) = map_out (map fN) (successors g A).
  Proof.
    unfold successors. rewrite get_rule_map. apply obind_map. intro r. cbn [map_out]. f_equal.
    rewrite rule_prods_map, (flat_map_map key_prod re elements elements elements_map), nonterms_map. apply (sof_list fN FN).
  Qed.
  Lemma unreachable_map g fuel : find_unreachable_nonterms (kg g) fuel = map_out (map fN) (find_unreachable_nonterms g fuel).
  Proof.
    unfold find_unreachable_nonterms, find_reachable_nonterms. change [start_symbol (kg g)] with (map fN [start_symbol g]).
    rewrite (bfs_map fN FN _ _ (successors_map g)). apply obind_map. intro s. cbn [map_out]. f_equal.
    rewrite get_nonterminals_map, (map_filter fN (fun A => negb (bs_mem A s))); [apply (sof_list fN FN)|].
    intro A. rewrite (smem fN FN). reflexivity.
  Qed.
  Lemma check_map g fuel : check_grammar (kg g) fuel = map_out (map_result (fun u : unit => u) (key_errors fN)) (check_grammar g fuel).
  Proof.
    unfold check_grammar. rewrite unreachable_map. apply obind_map. intro s. cbn [map_out]. f_equal. rewrite without_rules_map, without_prods_map.
    unfold into_result. cbn [unreachable_nonterms nonterms_without_rules rules_without_prods]. destruct s; [|reflexivity]. destruct (find_nonterminals_without_rules g); [|reflexivity].
    destruct (find_rules_without_prods g); reflexivity.
  Qed.
  Local Notation kres := (map_result kg (key_errors fN)).
  Lemma grammar_new_map A rs fuel : grammar_new (fN A) (map rr rs) fuel = map_out kres (grammar_new A rs fuel).
  Proof.
    unfold grammar_new. rewrite map_map.
    replace (Build_Grammar (fN A) (bt_of_list (map (fun r => (r_head (rr r), rr r)) rs))) with (kg (Build_Grammar A (bt_of_list (map (fun r => (r_head r, r)) rs)))).
    - rewrite check_map. apply obind_map. intros [u|e]; reflexivity.
    - unfold key_grammar. cbn [start_symbol rule_set]. rewrite <- (kof_list fN rr FN). unfold key_map. rewrite map_map. reflexivity.
  Qed.
  Lemma pb_map : forall cs es, fold_left pb_apply (map (ren_pb fT fN) cs) (map rpe es) = map rpe (fold_left pb_apply cs es).
  Proof. apply fold_left_map. intros es c. destruct c; cbn; rewrite map_app; reflexivity. Qed.
  Lemma rb_map : forall cs ps, fold_left rb_apply (map (ren_rb fT fN fK fV) cs) (map rp ps) = map rp (fold_left rb_apply cs ps).
  Proof.
    apply fold_left_map. intros ps c. destruct c as [k v cs|k v es]; cbn [rb_apply ren_rb]; rewrite map_app; cbn [map]; [|reflexivity].
    do 2 f_equal. unfold ren_prod at 1. cbn [pi_action_key pi_action_value pi_elements]. rewrite <- pb_map. reflexivity.
  Qed.
  Lemma gb_map : forall cs rs, fold_left gb_apply (map (ren_gb fT fN fK fV) cs) (map rr rs) = map rr (fold_left gb_apply cs rs).
  Proof.
    apply fold_left_map. intros rs [A cs]. cbn [gb_apply ren_gb]. rewrite map_app. cbn [map]. do 2 f_equal. unfold ren_rule at 1. cbn [r_head r_prods]. rewrite <- rb_map. reflexivity.
  Qed.
  Lemma build_map A calls fuel : build (fN A) (map (ren_gb fT fN fK fV) calls) fuel = map_out kres (build A calls fuel).
  Proof. unfold build. rewrite <- grammar_new_map, <- gb_map. reflexivity. Qed.
End Build.

(** ** Wrapping *)
Section Wrap.
  Context {T NT AK AV T' NT' AK' AV' : Type} `{Ord NT} `{Ord NT'}.
  Variables (fT : T -> T') (fN : NT -> NT') (fK : AK -> AK') (fV : AV -> AV').
  Hypothesis FN : compares_by fN.
  Lemma start_n_keeps : compares_by (start_n fN).
  Proof. intros [|A] [|B]; try reflexivity. exact (FN A B). Qed.
  Local Notation kg := (key_grammar fT fN fK fV).
  Local Notation ks := (key_grammar (start_t fT) (start_n fN) (start_k fK) (start_v fV)).
  Lemma wrap_elem_map e : wrap_elem (ren_pe fT fN e) = ren_pe (start_t fT) (start_n fN) (wrap_elem e).
  Proof. destruct e as [i [t|A]]; reflexivity. Qed.
  Lemma wrap_rule_map (r : RuleInner T NT AK AV) :
    wrap_rule_call (ren_rule fT fN fK fV r) = ren_gb (start_t fT) (start_n fN) (start_k fK) (start_v fV) (wrap_rule_call r).
  Proof.
    unfold wrap_rule_call. cbn [ren_gb start_n]. f_equal. rewrite rule_prods_map, !map_map. apply map_ext. intro p.
    cbn [ren_rb start_k start_v]. f_equal. unfold prod_elements. cbn. rewrite !map_map. apply map_ext. intro e. apply wrap_elem_map.
  Qed.
  Lemma wrap_map (g : Grammar T NT AK AV) fuel :
    wrap_grammar_with_start (kg g) fuel = map_out (map_result ks (key_errors (start_n fN))) (wrap_grammar_with_start g fuel).
  Proof.
    unfold wrap_grammar_with_start. rewrite <- (build_map (start_t fT) (start_n fN) (start_k fK) (start_v fV) start_n_keeps).
    cbn [start_n map]. f_equal. f_equal. rewrite rules_map, !map_map. apply map_ext. apply wrap_rule_map.
  Qed.
End Wrap.

(** ** The passes *)
Section Passes.
  Context {T NT AK AV T' NT' AK' AV' : Type} `{Ord T} `{Ord NT} `{Ord T'} `{Ord NT'}.
  Variables (fT : T -> T') (fN : NT -> NT') (fK : AK -> AK') (fV : AV -> AV').
  Hypothesis FT : compares_by fT.
  Hypothesis FN : compares_by fN.
  (** A rule is found by comparing its head: equal heads have the same rule, at the same place. *)
  Variable lay' : layout NT'.
  Local Notation lay := (fun A => lay' (fN A)).
  Local Notation re := (ren_elem fT fN).
  Local Notation kg := (key_grammar fT fN fK fV).
  Local Notation kp := (key_prod fT fN fK fV).
  Implicit Types g : Grammar T NT AK AV.

  Lemma kp_keeps : @compares_by _ _ (Ord_Prod lay) (Ord_Prod lay') kp.
  Proof. intros p q. reflexivity. Qed.
  Lemma elems_nullable_map {V W} (h : V -> W) (m : btmap NT V) es : elems_nullable (key_map fN h m) (map re es) = elems_nullable m es.
  Proof. induction es as [|[t|A] es IH]; cbn [elems_nullable map ren_elem]; [reflexivity|reflexivity|]. rewrite (kmem fN h FN), IH. reflexivity. Qed.
  Lemma prod_nullable_map {V W} (h : V -> W) (m : btmap NT V) (p : Prod T NT AK AV) : is_prod_nullable (key_map fN h m) (kp p) = is_prod_nullable m p.
  Proof. unfold is_prod_nullable. rewrite elements_map. apply elems_nullable_map. Qed.
  Local Notation ki := (key_map fN (map kp)).
  Lemma nullable_step_map (p : Prod T NT AK AV) nts : nullable_step lay' (kp p) (ki nts) = map_out (onc ki) (nullable_step lay p nts).
  Proof.
    unfold nullable_step. rewrite prod_nullable_map. unfold InternalNullableInfo, btset in *. destruct (is_prod_nullable nts p); [|reflexivity].
    cbn [p_head key_prod].
    rewrite (kget fN (map kp) FN).
    replace (match option_map (map kp) (bt_get (p_head p) nts) with Some i => i | None => [] end)
      with (map kp (match bt_get (p_head p) nts with Some i => i | None => [] end)) by (destruct (bt_get _ nts); reflexivity).
    generalize (match bt_get (p_head p) nts with Some i => i | None => [] end). intro i0.
    pose proof (@sinsert _ _ (Ord_Prod lay) (Ord_Prod lay') kp kp_keeps p i0) as Q. unfold btset in Q.
    change (Build_Prod (fN (p_head p)) (p_ix p) (ren_prod fT fN fK fV (p_inner p))) with (kp p). rewrite Q.
    destruct (@bs_insert _ (Ord_Prod lay) p i0) as [b i]. cbn [fst snd].
    cbn [map_out]. unfold onc. cbn [fst snd]. rewrite (kinsert fN (map kp) FN). reflexivity.
  Qed.
  Lemma inner_map g fuel : inner_calculate_nullables lay' (kg g) fuel = map_out ki (inner_calculate_nullables lay g fuel).
  Proof.
    unfold inner_calculate_nullables. change (@nil (NT' * InternalNullableInfo)) with (ki (@nil (NT * @InternalNullableInfo T NT AK AV))).
    apply change_loop_map. intro s. unfold change_iter. rewrite prods_map. apply change_iter_map. apply nullable_step_map.
  Qed.
  Lemma check_infos_map (l : list (@InternalNullableInfo T NT AK AV)) : check_infos (map (map kp) l) = check_infos l.
  Proof. induction l as [|i l IH]; [reflexivity|]. destruct i as [|x [|y i]]; cbn [check_infos map]; [reflexivity|exact IH|reflexivity]. Qed.
  Lemma get_only_map {A B} (f : A -> B) l : get_only (map f l) = map_out f (get_only l).
  Proof. destruct l as [|x [|y l]]; reflexivity. Qed.
  Lemma action_map_map : forall (l : list (NT * @InternalNullableInfo T NT AK AV)) m,
    make_action_map (ki l) (key_map fN kp m) = map_out (key_map fN kp) (make_action_map l m).
  Proof.
    induction l as [|[A i] l IH]; intro m; [reflexivity|]. cbn [make_action_map key_map map fst snd]. rewrite get_only_map. apply obind_map.
    intro p. change (map _ m) with (key_map fN kp m). rewrite (kinsert fN kp FN). apply IH.
  Qed.
  Local Notation rtr := (ren_tree fN fK).
  Local Notation rva := (ren_value fN fK).
  Local Notation kf := (key_map (fun n : name => n) rva).
  Local Notation kt := (key_map fN rtr).
  Lemma id_keeps {A} `{Ord A} : compares_by (fun a : A => a).
  Proof. intros a b. reflexivity. Qed.
  Lemma null_fields_map infos : forall (es : list (ProdElement T NT)) fields,
    null_fields (kt infos) (map (ren_pe fT fN) es) (kf fields) = option_map kf (null_fields infos es fields).
  Proof.
    induction es as [|[i e] es IH]; intro fields; cbn [null_fields map ren_pe pe_id pe_elem]; [reflexivity|].
    destruct i as [i|]; [|apply IH]. destruct e as [t|A]; cbn [ren_elem]; [apply IH|]. rewrite (kget fN rtr FN).
    destruct (bt_get A infos) as [s|]; cbn [option_map]; [|reflexivity]. change (TVNode (rtr s)) with (rva (TVNode s)).
    rewrite (kinsert (fun n : name => n) rva id_keeps i (TVNode s) fields). apply IH.
  Qed.
  Lemma complete_pass_map am : forall r infos, complete_pass (key_map fN kp am) (map fN r) (kt infos) = map_out kt (complete_pass am r infos).
  Proof.
    induction r as [|A r IH]; intro infos; cbn [complete_pass map]; [reflexivity|]. rewrite (kget fN kp FN), expect_map. apply obind_map. intro p.
    pose proof (null_fields_map infos (prod_elements p) []) as Q. unfold prod_elements in *. cbn [key_prod p_inner ren_prod pi_elements].
    change (kf []) with (@nil (name * TreeValue (ProdKey NT' AK') Void)) in Q. rewrite Q.
    destruct (null_fields infos _ []) as [fs|]; cbn [option_map]; [|apply IH].
    change (TNode (prod_key (kp p)) (kf fs)) with (rtr (TNode (prod_key p) fs)). rewrite (kinsert fN rtr FN). apply IH.
  Qed.
  Lemma complete_loop_map am : forall fuel r infos, complete_loop (key_map fN kp am) fuel (map fN r) (kt infos) = map_out kt (complete_loop am fuel r infos).
  Proof.
    induction fuel as [|fuel IH]; intros r infos; cbn [complete_loop]; [reflexivity|]. rewrite complete_pass_map. apply obind_map. intro i.
    rewrite kkeys, (fold_left_map (map fN) fN (fun r nt => bs_remove nt r)); [|intros; apply (sremove fN FN)].
    unfold btset. destruct (fold_left _ (bt_keys i) r) as [|x l]; [reflexivity|]. exact (IH (x :: l) i).
  Qed.
  Lemma nullables_map g fuel : calculate_nullables lay' (kg g) fuel = map_out (map_result kt (fun e => e)) (calculate_nullables lay g fuel).
  Proof.
    unfold calculate_nullables. rewrite inner_map. apply obind_map. intro i. rewrite kvalues, check_infos_map.
    destruct (check_infos _) as [[e|]| |]; cbn [obind map_out]; try reflexivity.
    change (@nil (NT' * Prod T' NT' AK' AV')) with (key_map fN kp (@nil (NT * Prod T NT AK AV))). rewrite action_map_map. apply obind_map. intro am.
    rewrite kkeys, (sof_list fN FN). change (@nil (NT' * TreeNode (ProdKey NT' AK') Void)) with (kt []). rewrite complete_loop_map.
    apply obind_map. intro infos. reflexivity.
  Qed.

  (** *** Firsts and Follows *)
  Local Notation kc := (key_map fN (map fT)).
  Lemma cm_insert_map m A t : cm_insert (kc m) (fN A) (fT t) = onc kc (cm_insert m A t).
  Proof.
    unfold cm_insert, CollectMap, btset in *. rewrite (kget fN (map fT) FN). destruct (bt_get A m) as [s|]; cbn [option_map].
    - rewrite (sinsert fT FT). destruct (bs_insert t s) as [b s']. cbn [fst snd]. rewrite (kinsert fN (map fT) FN). reflexivity.
    - change (bs_add (fT t) []) with (map fT (bs_add t [])). rewrite (kinsert fN (map fT) FN). reflexivity.
  Qed.
  Lemma set_iter_map : forall l s c, set_insert_iter (map fT l) (map fT s) c = onc (map fT) (set_insert_iter l s c).
  Proof.
    induction l as [|t l IH]; intros s c; cbn [set_insert_iter map]; [reflexivity|]. rewrite (sinsert fT FT).
    destruct (bs_insert t s) as [b s']. cbn [fst snd]. apply IH.
  Qed.
  Lemma cm_insert_iter_map m A l : cm_insert_iter (kc m) (fN A) (map fT l) = onc kc (cm_insert_iter m A l).
  Proof.
    unfold cm_insert_iter, CollectMap, btset in *. rewrite (kget fN (map fT) FN). destruct (bt_get A m) as [s|]; cbn [option_map].
    - rewrite set_iter_map. destruct (set_insert_iter l s Unchanged) as [c s']. unfold onc at 1. cbn [fst snd]. rewrite (kinsert fN (map fT) FN). reflexivity.
    - destruct l as [|t l]; [reflexivity|]. cbn [map]. change (bs_add (fT t) []) with (map fT (bs_add t [])).
      rewrite (sextend fT FT), (kinsert fN (map fT) FN). reflexivity.
  Qed.
  Lemma cm_from_key_map m A B : cm_insert_from_key_set (kc m) (fN A) (fN B) = onc kc (cm_insert_from_key_set m A B).
  Proof.
    unfold cm_insert_from_key_set, CollectMap, btset in *. rewrite (eqb_key fN FN). destruct (eqb A B); [reflexivity|].
    rewrite (kremove fN (map fT) FN), !(kget fN (map fT) FN).
    replace (match option_map (map fT) (bt_get A m) with Some s => s | None => [] end) with (map fT (match bt_get A m with Some s => s | None => [] end))
      by (destruct (bt_get A m); reflexivity).
    destruct (bt_get B (bt_remove A m)) as [s|]; cbn [option_map].
    - rewrite set_iter_map. destruct (set_insert_iter s _ Unchanged) as [c s']. unfold onc at 1. cbn [fst snd]. rewrite (kinsert fN (map fT) FN). reflexivity.
    - rewrite (kinsert fN (map fT) FN). reflexivity.
  Qed.
  Lemma firsts_elems_map (info : GrammarNullableInfo NT AK) A : forall es c m,
    firsts_elems (kt info) (fN A) (map re es) c (kc m) = onc kc (firsts_elems info A es c m).
  Proof.
    induction es as [|[t|B] es IH]; intros c m; cbn [firsts_elems map ren_elem]; [reflexivity| |].
    - rewrite cm_insert_map. destruct (cm_insert m A t) as [c' m']. reflexivity.
    - rewrite cm_from_key_map. destruct (cm_insert_from_key_set m A B) as [c' m']. unfold onc at 1. cbn [fst snd]. unfold is_nullable.
      rewrite (kmem fN rtr FN). destruct (negb _); [reflexivity|]. apply IH.
  Qed.
  Lemma firsts_map g fuel : calculate_firsts lay' (kg g) fuel = map_out (map_result kc (fun e => e)) (calculate_firsts lay g fuel).
  Proof.
    unfold calculate_firsts. rewrite nullables_map. apply obind_map. intros [info|e]; [|reflexivity]. cbn [map_result].
    change (cm_new (K := NT') (V := T')) with (kc (cm_new (K := NT) (V := T))).
    rewrite (change_loop_map kc (change_iter (firsts_step info) (prods g))).
    - apply obind_map. reflexivity.
    - intro s. unfold change_iter. rewrite prods_map. apply change_iter_map. intros p m. unfold firsts_step. rewrite elements_map.
      cbn [p_head key_prod map_out]. f_equal. apply firsts_elems_map.
  Qed.
  Lemma follows_pairs_map firsts : forall (es : list (Elem T NT)) c m,
    follows_pairs (kc firsts) (map re es) c (kc m) = map_out (onc kc) (follows_pairs firsts es c m).
  Proof.
    induction es as [|e0 es IH]; intros c m; [reflexivity|]. destruct es as [|e1 es]; [reflexivity|].
    cbn [map]. cbn [follows_pairs]. change (re e1 :: map re es) with (map re (e1 :: es)). destruct e0 as [t|A]; cbn [ren_elem]; [apply IH|].
    destruct e1 as [t|B]; cbn [ren_elem].
    - rewrite cm_insert_map. destruct (cm_insert m A t) as [c' m']. unfold onc at 1. cbn [fst snd]. apply IH.
    - unfold firsts_get. rewrite (kget fN (map fT) FN), expect_map. apply obind_map. intro s.
      rewrite cm_insert_iter_map. destruct (cm_insert_iter m A s) as [c' m']. unfold onc at 1. cbn [fst snd]. apply IH.
  Qed.
  Lemma last_opt_map {A B} (f : A -> B) l : last_opt (map f l) = option_map f (last_opt l).
  Proof. induction l as [|a [|b l] IH]; [reflexivity|reflexivity|exact IH]. Qed.
  Lemma follows_map g fuel : calculate_follows lay' (kg g) fuel = map_out (map_result kc (fun e => e)) (calculate_follows lay g fuel).
  Proof.
    unfold calculate_follows. rewrite firsts_map. apply obind_map. intros [firsts|e]; [|reflexivity]. cbn [map_result].
    change (cm_new (K := NT') (V := T')) with (kc (cm_new (K := NT) (V := T))).
    rewrite (change_loop_map kc (change_iter (follows_step firsts) (prods g))).
    - apply obind_map. reflexivity.
    - intro s. unfold change_iter. rewrite prods_map. apply change_iter_map. intros p m. unfold follows_step. rewrite elements_map, follows_pairs_map.
      apply obind_map. intros [c m1]. unfold onc at 1. cbn [fst snd]. rewrite last_opt_map. destruct (last_opt (elements p)) as [[t|A]|]; cbn [option_map ren_elem]; try reflexivity.
      cbn [p_head key_prod]. rewrite cm_from_key_map. destruct (cm_insert_from_key_set m1 A (p_head p)) as [c' m2]. reflexivity.
  Qed.

  (** *** The null-removing transformation *)
  Local Notation ka := (key_map (fun n : name => n) rtr).
  Definition key_bs (s : ProdBuildState T NT AK) : ProdBuildState T' NT' AK' :=
    Build_ProdBuildState (map (ren_pe fT fN) (bs_elems s)) (bs_nullable_states s) (ka (bs_action_args s)).
  Lemma map_comm {A B C} (f : A -> B) (g : B -> C) (f' : A -> B) (g' : A -> C) l : (forall a, g (f a) = g' a) -> map g (map f l) = map g' l.
  Proof. intro E. rewrite map_map. apply map_ext. exact E. Qed.
  Lemma nn_step_map info : forall es sts, fold_left (nn_step (kt info)) (map (ren_pe fT fN) es) (map key_bs sts) = map key_bs (fold_left (nn_step info) es sts).
  Proof.
    apply fold_left_map. intros sts [i [t|A]]; unfold nn_step; cbn [ren_pe pe_elem ren_elem].
    - rewrite !map_map. apply map_ext. intro s. unfold nn_term, key_bs. cbn. rewrite map_app. reflexivity.
    - unfold get_nullable_action. rewrite (kget fN rtr FN).
      assert (K : map (nn_keep (ren_pe fT fN (Build_ProdElement i (NonTerm A)))) (map key_bs sts) = map key_bs (map (nn_keep (Build_ProdElement i (NonTerm A))) sts)).
      { rewrite !map_map. apply map_ext. intro s. unfold nn_keep, key_bs. cbn. rewrite map_app. reflexivity. }
      destruct (bt_get A info) as [x|]; cbn [option_map]; [|exact K]. rewrite map_app. f_equal; [exact K|].
      rewrite !map_map. apply map_ext. intro s. unfold nn_drop, key_bs. cbn [bs_elems bs_nullable_states bs_action_args pe_id ren_pe]. f_equal.
      destruct i as [i|]; [|reflexivity]. exact (kinsert (fun n : name => n) rtr id_keeps i x (bs_action_args s)).
  Qed.
  Local Notation rg := (ren_gb fT fN (ren_nk fK) (ren_nv fN fK fV)).
  Lemma nn_prods_map info (p : Prod T NT AK AV) :
    build_nonnull_prods (kt info) (kp p) = map (ren_rb fT fN (ren_nk fK) (ren_nv fN fK fV)) (build_nonnull_prods info p).
  Proof.
    unfold build_nonnull_prods. unfold prod_elements. cbn [key_prod p_inner ren_prod pi_elements].
    pose proof (nn_step_map info (pi_elements (p_inner p)) [Build_ProdBuildState [] [] []]) as Q.
    match type of Q with ?l = _ => match goal with |- map _ ?l2 = _ => change l2 with l end end. rewrite Q, !map_map. reflexivity.
  Qed.
  Lemma nn_rule_map info e : nn_rule_call (kt info) (fN (fst e), ren_rule fT fN fK fV (snd e)) = rg (nn_rule_call info e).
  Proof.
    unfold nn_rule_call. cbn [fst snd ren_gb]. f_equal. rewrite rule_prods_map. apply flat_map_map. intro p.
    rewrite prod_nullable_map. destruct (is_prod_nullable info p); [reflexivity|apply nn_prods_map].
  Qed.
  Local Notation kn := (key_grammar fT fN (ren_nk fK) (ren_nv fN fK fV)).
  Lemma nonnull_map g fuel : transform_to_nonnull lay' (kg g) fuel = map_out (map_result kn (fun e => e)) (transform_to_nonnull lay g fuel).
  Proof.
    unfold transform_to_nonnull. rewrite nullables_map. apply obind_map. intros [info|e]; [|reflexivity]. cbn [map_result].
    unfold start_nt. cbn [key_grammar start_symbol rule_set].
    replace (map (nn_rule_call (kt info)) (key_map fN (ren_rule fT fN fK fV) (rule_set g))) with (map rg (map (nn_rule_call info) (rule_set g))).
    - rewrite (build_map fT fN (ren_nk fK) (ren_nv fN fK fV) FN). apply obind_map. intros [g'|e]; reflexivity.
    - unfold key_map. rewrite !map_map. apply map_ext. intro e. rewrite <- nn_rule_map. reflexivity.
  Qed.
End Passes.

(** ** The parser *)
Section Parser.
  Context {T NT AK AV V T' NT' AK' AV' V' : Type} `{Ord T} `{Ord NT} `{Ord AK} `{Ord V} `{Ord T'} `{Ord NT'} `{Ord AK'} `{Ord V'}.
  Variables (fT : T -> T') (fN : NT -> NT') (fK : AK -> AK') (fV : AV -> AV') (fX : V -> V').
  Hypothesis FT : compares_by fT.
  Hypothesis FN : compares_by fN.
  Hypothesis FK : compares_by fK.
  Hypothesis FX : compares_by fX.
  Variable lay' : layout (StartNonTerminal NT').
  Local Notation lay := (fun A => lay' (start_n fN A)).
  Variable g : StartGrammar T NT AK AV.
  Local Notation g' := (key_grammar (start_t fT) (start_n fN) (start_k fK) (start_v fV) g).
  Local Notation mi := (map_in fT fK fX).
  Local Notation re := (ren_elem (start_t fT) (start_n fN)).
  Local Notation rpe := (ren_pe (start_t fT) (start_n fN)).
  Local Notation kp := (key_prod (start_t fT) (start_n fN) (start_k fK) (start_v fV)).
  Definition key_token (x : Token T V) : Token T' V' := Build_Token (fT (tk_kind x)) (fX (tk_value x)).
  Local Notation PS := (ProdState (StreamTerminal T) (StartNonTerminal NT) (StartActionKey AK) (StartActionValue AV)).
  Definition key_ps (s : PS) : ProdState (StreamTerminal T') (StartNonTerminal NT') (StartActionKey AK') (StartActionValue AV') :=
    Build_ProdState (kp (ps_prod s)) (ps_index s).
  Definition key_ek (k : EarleyStateKey T NT AK AV) : EarleyStateKey T' NT' AK' AV' :=
    {| ek_prod_state := key_ps (ek_prod_state k); ek_origin := ek_origin k |}.
  Definition key_es (s : EarleyState T NT AK AV) : EarleyState T' NT' AK' AV' := {| es_key := key_ek (es_key s); es_value := es_value s |}.
  Definition key_set (s : EarleyStateSet T NT AK AV) : EarleyStateSet T' NT' AK' AV' := key_map key_ek (fun v : list nat => v) s.
  Lemma start_t_keeps : compares_by (start_t fT).
  Proof. intros [|a] [|b]; try reflexivity. exact (FT a b). Qed.

  Lemma offset_map (s : PS) i : offset_prod_elem (key_ps s) i = option_map rpe (offset_prod_elem s i).
  Proof. unfold offset_prod_elem, prod_elements. cbn. apply nth_error_map. Qed.
  Lemma next_elem_map (s : PS) : next_elem (key_ps s) = option_map re (next_elem s).
  Proof. unfold next_elem, offset_elem. rewrite offset_map. destruct (offset_prod_elem s 0); reflexivity. Qed.
  Lemma next_elem_state_map (s : PS) : next_elem_state (key_ps s) = option_map (fun x => (rpe (fst x), key_ps (snd x))) (next_elem_state s).
  Proof. unfold next_elem_state, next_prod_elem. rewrite offset_map. destruct (offset_prod_elem s 0); reflexivity. Qed.
  Lemma is_complete_map (s : PS) : is_complete (key_ps s) = is_complete s.
  Proof. unfold is_complete, num_elements. cbn. rewrite map_length. reflexivity. Qed.
  Lemma as_base_map (s : PS) : as_base (ps_action_key (key_ps s)) = option_map fK (as_base (ps_action_key s)).
  Proof. unfold ps_action_key, action_key. cbn. destruct (pi_action_key _); reflexivity. Qed.
  Lemma as_term_map (e : Elem (StreamTerminal T) (StartNonTerminal NT)) : as_term (re e) = option_map (start_t fT) (as_term e).
  Proof. destruct e; reflexivity. Qed.
  Lemma has_kind_map (t : StreamTerminal T) k : has_kind (start_t fT t) (fT k) = has_kind t k.
  Proof. destruct t as [|t]; [reflexivity|]. exact (eqb_key fT FT t k). Qed.
  Lemma is_final_map k : is_final_key (key_ek k) = is_final_key k.
  Proof.
    unfold is_final_key. cbn [key_ek ek_prod_state]. rewrite next_elem_map. destruct (next_elem _) as [e|]; cbn [option_map]; [|reflexivity].
    rewrite as_term_map. destruct (as_term e) as [[|t]|]; reflexivity.
  Qed.
  Lemma states_map s : states (key_set s) = map key_es (states s).
  Proof. unfold states, key_set, key_map. rewrite !map_map. reflexivity. Qed.

  Local Notation n1 := (fun x => (option_map key_es (fst x), mi (snd x))).
  Local Notation n2 := (fun x => (map key_es (fst x), mi (snd x))).
  Local Notation n3 := (fun x => (key_set (fst x), mi (snd x))).
  Lemma scan_keys st tok t : scan (key_es st) (key_token tok) (mi t) = map_out n1 (scan st tok t).
  Proof.
    unfold scan. cbn [key_es es_key key_ek ek_prod_state]. rewrite next_elem_state_map.
    destruct (next_elem_state _) as [[e ps]|]; cbn [option_map fst snd]; [|reflexivity]. cbn [ren_pe pe_elem]. rewrite as_term_map.
    destruct (as_term _) as [tm|]; cbn [option_map]; [|reflexivity]. cbn [key_token tk_kind tk_value]. rewrite has_kind_map.
    destruct (has_kind _ _); [|reflexivity]. rewrite (leaf_node_map fT fK fX FT FK FX). apply obind_map. intros [n t']. reflexivity.
  Qed.
  Lemma predict_keys st n : predict g' (key_es st) n = map key_es (predict g st n).
  Proof.
    unfold predict. cbn [key_es es_key key_ek ek_prod_state]. rewrite next_elem_map.
    destruct (next_elem _) as [e|]; cbn [option_map]; [|reflexivity]. rewrite as_nonterm_map. destruct (as_nonterm e) as [A|]; cbn [option_map]; [|reflexivity].
    rewrite (try_get_rule_map _ _ _ _ (start_n_keeps fN FN)). destruct (try_get_rule g A) as [r|]; cbn [option_map]; [|reflexivity].
    rewrite rule_prods_map, !map_map. reflexivity.
  Qed.
  Lemma complete_from_keys self : forall sts t, complete_from (key_es self) (map key_es sts) (mi t) = map_out n2 (complete_from self sts t).
  Proof.
    induction sts as [|st sts IH]; intro t; cbn [complete_from map]; [reflexivity|]. cbn [key_es es_key key_ek ek_prod_state]. rewrite next_elem_state_map.
    destruct (next_elem_state _) as [[e ps]|]; cbn [option_map fst snd]; [|apply IH]. cbn [ren_pe pe_elem]. rewrite as_nonterm_map.
    destruct (as_nonterm _) as [A|]; cbn [option_map]; [|apply IH]. cbn [key_ps ps_prod key_prod p_head]. rewrite (eqb_key _ (start_n_keeps fN FN)).
    destruct (eqb _ _); [|apply IH]. change (Build_ProdState _ _) with (key_ps (ek_prod_state (es_key self))). rewrite as_base_map, expect_map. apply obind_map. intro x.
    cbn [es_value]. rewrite (branch_node_map fT fK fX FT FK FX). apply obind_map. intros [n t1]. cbn [fst snd m2]. change (mi (snd (n, t1))) with (mi t1).
    change {| es_key := key_ek (es_key self); es_value := es_value self |} with (key_es self). rewrite IH. apply obind_map. intros [rest t2]. reflexivity.
  Qed.
  Lemma complete_keys self prev cur t : complete (key_es self) (map key_set prev) (key_set cur) (mi t) = map_out n2 (complete self prev cur t).
  Proof.
    unfold complete. cbn [key_es es_key key_ek ek_prod_state ek_origin]. rewrite is_complete_map, map_length, nth_error_map, expect_map.
    destruct (is_complete _); [|reflexivity].
    replace (if Nat.eqb (ek_origin (es_key self)) (length prev) then Ret (key_set cur) else map_out key_set (expect (nth_error prev (ek_origin (es_key self))) "index out of bounds"%string))
      with (map_out key_set (if Nat.eqb (ek_origin (es_key self)) (length prev) then Ret cur else expect (nth_error prev (ek_origin (es_key self))) "index out of bounds"%string))
      by (destruct (Nat.eqb _ _); reflexivity).
    apply obind_map. intro s. rewrite states_map. apply complete_from_keys.
  Qed.
  Lemma ek_cmp a b : Ord_Key lay' (key_ek a) (key_ek b) = Ord_Key lay a b.
  Proof. reflexivity. Qed.
  Lemma merge_keys : forall (l : list (nat * nat)) c (t : Inner T AK V),
    change_iter_from (fun '(e, n) t => in_add_all e n t) c l (mi t) = map_out (onc mi) (change_iter_from (fun '(e, n) t => in_add_all e n t) c l t).
  Proof. apply (iter_map fT fK fX). intros [e n] t. apply add_all_map. Qed.
  Lemma insert_keys st s : insert lay' (key_es st) (n3 s) = map_out (onc n3) (insert lay st s).
  Proof.
    destruct s as [set t]. unfold insert. cbn [fst snd key_es es_key es_value].
    pose proof (@kget _ _ (list nat) (list nat) (Ord_Key lay) (Ord_Key lay') key_ek (fun v => v) (fun a b => eq_sym (ek_cmp a b)) (es_key st) set) as Q.
    change (key_map key_ek (fun v : list nat => v) set) with (key_set set) in Q. rewrite Q.
    destruct (bt_get _ set) as [ns|]; cbn [option_map].
    - destruct (assert_ _ _); cbn [obind map_out]; [|reflexivity|reflexivity]. unfold merge_values, change_iter. rewrite merge_keys.
      apply obind_map. intros [c t']. reflexivity.
    - cbn [map_out]. unfold onc. cbn [fst snd]. do 3 f_equal.
      exact (@kinsert _ _ (list nat) (list nat) (Ord_Key lay) (Ord_Key lay') key_ek (fun v => v) (fun a b => eq_sym (ek_cmp a b)) (es_key st) (es_value st) set).
  Qed.
  Lemma from_scans_keys tok : forall sts s, from_scans lay' (map key_es sts) (key_token tok) (n3 s) = map_out n3 (from_scans lay sts tok s).
  Proof.
    induction sts as [|st sts IH]; intros [set t]; cbn [from_scans map fst snd]; [reflexivity|]. rewrite scan_keys. apply obind_map. intros [o t1]. cbn [fst snd].
    destruct o as [st'|]; cbn [option_map]; [|exact (IH (set, t1))]. pose proof (insert_keys st' (set, t1)) as Q. cbn [fst snd] in Q. rewrite Q. apply obind_map. intros [c s']. apply IH.
  Qed.
  Lemma from_states_keys : forall sts s, from_states lay' (map key_es sts) (n3 s) = map_out n3 (from_states lay sts s).
  Proof. induction sts as [|st sts IH]; intros s; cbn [from_states map]; [reflexivity|]. rewrite insert_keys. apply obind_map. intros [c s']. apply IH. Qed.
  Lemma closure_keys prev cur : forall sts t, closure_of g' (map key_es sts) (map key_set prev) (key_set cur) (mi t) = map_out n2 (closure_of g sts prev cur t).
  Proof.
    induction sts as [|st sts IH]; intro t; cbn [closure_of map]; [reflexivity|]. rewrite complete_keys. apply obind_map. intros [l t1]. cbn [fst snd].
    rewrite IH. apply obind_map. intros [l' t2]. cbn [fst snd map_out]. rewrite predict_keys, map_length, !map_app. reflexivity.
  Qed.
  Lemma close_round_keys prev s : close_round lay' g' (map key_set prev) (n3 s) = map_out (onc n3) (close_round lay g prev s).
  Proof.
    destruct s as [set t]. unfold close_round. cbn [fst snd]. rewrite states_map, closure_keys. apply obind_map. intros [cl t1]. cbn [fst snd]. unfold change_iter.
    exact (change_iter_map n3 key_es (insert lay) (insert lay') insert_keys cl Unchanged (set, t1)).
  Qed.
  Lemma close_state_keys prev s fuel : close_state lay' g' (map key_set prev) (n3 s) fuel = map_out n3 (close_state lay g prev s fuel).
  Proof.
    unfold close_state. destruct s as [set t]. cbn [fst snd]. destruct set as [|x set]; [reflexivity|]. cbn [assert_ obind].
    exact (change_loop_map n3 (close_round lay g prev) (close_round lay' g' (map key_set prev)) (close_round_keys prev) fuel (x :: set, t)).
  Qed.
  Lemma new_start_keys t : new_start lay' g' (mi t) = map_out n3 (new_start lay g t).
  Proof.
    unfold new_start, start_nt. cbn [start_symbol key_grammar]. rewrite (get_rule_map _ _ _ _ (start_n_keeps fN FN)). apply obind_map. intro r.
    rewrite rule_prods_map, map_map. pose proof (from_states_keys (map (fun p => from_prod_start p 0) (rule_prods r)) ([], t)) as Q.
    rewrite map_map in Q. exact Q.
  Qed.
  Lemma last_keys sets : last (map Some (map key_set sets)) None = option_map key_set (last (map Some sets) None).
  Proof. induction sets as [|s [|s' sets] IH]; [reflexivity|reflexivity|exact IH]. Qed.
  Lemma shift_keys la tok t : shift lay' (key_set la) (key_token tok) (mi t) = map_out n3 (shift lay la tok t).
  Proof. unfold shift. rewrite states_map. exact (from_scans_keys tok (states la) ([], t)). Qed.
  Lemma parse_tokens_keys fuel : forall tokens sets t,
    parse_tokens lay' g' (map key_token tokens) (map key_set sets) (mi t) fuel = map_out (fun x => (map key_set (fst x), mi (snd x))) (parse_tokens lay g tokens sets t fuel).
  Proof.
    induction tokens as [|tok tokens IH]; intros sets t; cbn [parse_tokens map]; [reflexivity|]. rewrite last_keys, expect_map. apply obind_map. intro la.
    rewrite shift_keys. apply obind_map. intro s.
    rewrite close_state_keys. apply obind_map. intros [ns t']. cbn [fst snd]. change [key_set ns] with (map key_set [ns]). rewrite <- map_app. apply IH.
  Qed.
  Lemma get_final_keys s : get_final (key_set s) = get_final s.
  Proof.
    induction s as [|[k v] s IH]; [reflexivity|]. cbn [key_set key_map map get_final fst snd]. rewrite is_final_map. destruct (is_final_key k); [reflexivity|exact IH].
  Qed.
  Lemma parse_keys tokens t fuel :
    parse lay' g' (map key_token tokens) (mi t) fuel = map_out (fun x => (fst x, mi (snd x))) (parse lay g tokens t fuel).
  Proof.
    unfold parse. rewrite new_start_keys. apply obind_map. intro s. change (@nil (EarleyStateSet T' NT' AK' AV')) with (map key_set []).
    rewrite close_state_keys. apply obind_map. intros [i t1]. cbn [fst snd].
    change (key_set i :: map key_set []) with (map key_set [i]). rewrite parse_tokens_keys. apply obind_map. intros [sets t2]. cbn [fst snd].
    rewrite last_keys, expect_map. destruct (expect _ _) as [la| |]; cbn [obind map_out]; [|reflexivity|reflexivity]. rewrite get_final_keys.
    destruct (get_final la); reflexivity.
  Qed.
End Parser.

(** ** Reading forests *)
Section Reads.
  Context {T AK V T' AK' V' : Type}.
  Variables (fT : T -> T') (fK : AK -> AK') (fX : V -> V').
  Local Notation mi := (map_in fT fK fX).
  Lemma reads_keys (t : Inner T AK V) : forall n tr', reads (mi t) n tr' <-> exists tr, reads t n tr /\ ren_ptree fT fK fX tr = tr'.
  Proof.
    assert (G : forall a, get_alt (mi t) a = map_out (map_ci fT fK fX) (get_alt t a)) by apply get_alt_map.
    intros n tr'. split.
    - revert n tr'. fix IH 3. intros n tr' R. destruct R as [n s a k v N I A|n s a x ns cs N I A Rs].
      + rewrite G in A. destruct (get_alt t a) as [[k' v'|]| |] eqn:E; try discriminate. injection A as <- <-.
        exists (PLeaf k' v'). split; [exact (reads_leaf t n s a k' v' N I E)|reflexivity].
      + rewrite G in A. destruct (get_alt t a) as [[|x' ns']| |] eqn:E; try discriminate. injection A as <- <-.
        assert (X : exists cs0, reads_all t ns' cs0 /\ map (ren_ptree fT fK fX) cs0 = cs).
        { clear - IH Rs. induction Rs as [|m ms c cs R Rs IHs]; [exists []; split; constructor|]. destruct (IH _ _ R) as (c0 & R0 & E0).
          destruct IHs as (cs0 & Rs0 & Es0). exists (c0 :: cs0). split; [constructor; assumption|cbn; congruence]. }
        destruct X as (cs0 & Rs0 & <-). exists (PBranch x' cs0). split; [exact (reads_branch t n s a x' ns' cs0 N I E Rs0)|reflexivity].
    - intros (tr & R & <-). revert n tr R. fix IH 3. intros n tr R. destruct R as [n s a k v N I A|n s a x ns cs N I A Rs].
      + apply (reads_leaf (mi t) n s a (fT k) (fX v)); [exact N|exact I|]. rewrite G, A. reflexivity.
      + apply (reads_branch (mi t) n s a (fK x) ns (map (ren_ptree fT fK fX) cs)); [exact N|exact I|rewrite G, A; reflexivity|].
        clear - IH Rs. induction Rs; cbn; constructor; auto.
  Qed.
End Reads.

(** ** Words up to equality *)
Section Words.
  Context {T NT AK AV T' NT' AK' AV' : Type} `{Ord T} `{Ord NT} `{OrdEq T'} `{OrdEq NT'}.
  Variables (fT : T -> T') (fN : NT -> NT') (fK : AK -> AK') (fV : AV -> AV').
  Hypothesis FT : compares_by fT.
  Hypothesis FN : compares_by fN.
  Variable g : Grammar T NT AK AV.
  Local Notation g' := (key_grammar fT fN fK fV g).
  Local Notation re := (ren_elem fT fN).
  Lemma key_eq {A B} `{Ord A} `{OrdEq B} (f : A -> B) : compares_by f -> forall a b, cmp a b = Eq <-> f a = f b.
  Proof.
    intros F a b. rewrite (F a b). split; [apply cmp_eq|intros ->; apply cmp_refl].
  Qed.
  Lemma rhs_keys A' rhs' : rhs_of g' A' rhs' <-> exists A rhs, A' = fN A /\ rhs' = map re rhs /\ rhs_of g A rhs.
  Proof.
    split.
    - intros (p' & (r' & I & Ip) & ->). cbn in I. apply in_map_iff in I. destruct I as ([A r] & E & I). cbn in E. injection E as <- <-.
      apply in_map_iff in Ip. destruct Ip as (p & <- & Ip). exists A, (map pe_elem (pi_elements p)). split; [reflexivity|].
      split; [cbn; rewrite !map_map; reflexivity|]. exists p. split; [exists r; auto|reflexivity].
    - intros (A & rhs & -> & -> & p & (r & I & Ip) & ->). exists (ren_prod fT fN fK fV p). split.
      + exists (ren_rule fT fN fK fV r). split; [|apply in_map, Ip]. cbn. apply in_map_iff. exists (A, r). auto.
      + cbn. rewrite !map_map. reflexivity.
  Qed.
  Lemma gen_keys es' u' : gen (rhs_of g') es' u' -> forall es u, es' = map re es -> u' = map fT u -> gen_upto g es u.
  Proof.
    induction 1 as [|t es1 w G IH|A rhs es1 u1 w P G1 IH1 G2 IH2]; intros es u E Eu.
    - destruct es; [|discriminate]. destruct u; [constructor|discriminate].
    - destruct es as [|[t0|A0] es]; try discriminate. destruct u as [|t1 u]; [discriminate|]. injection E as E1 E. injection Eu as E2 Eu.
      constructor; [apply (key_eq fT FT); congruence|]. apply IH; assumption.
    - destruct es as [|[t0|A0] es]; try discriminate. injection E as E1 E. symmetry in Eu. apply map_eq_app in Eu. destruct Eu as (v1 & v2 & -> & <- & <-).
      apply rhs_keys in P. destruct P as (A1 & rhs1 & E2 & -> & P). apply (upto_nonterm g A0 A1 rhs1); [apply (key_eq fN FN); congruence|exact P| |].
      + apply IH1; reflexivity.
      + apply IH2; [assumption|reflexivity].
  Qed.
  Lemma gen_upto_keys es u : gen_upto g es u -> gen (rhs_of g') (map re es) (map fT u).
  Proof.
    induction 1 as [|t t' es w E G IH|A A' rhs es u w E P G1 IH1 G2 IH2]; cbn; [constructor| |].
    - apply (key_eq fT FT) in E. rewrite E. constructor. exact IH.
    - rewrite map_app. apply (key_eq fN FN) in E. apply (gen_nonterm _ (fN A) (map re rhs)); [|exact IH1|exact IH2]. rewrite E. apply rhs_keys. eauto.
  Qed.
  Lemma lang_keys A w : lang (rhs_of g') (fN A) (map fT w) <-> lang_upto g A w.
  Proof.
    split; intro G; [exact (gen_keys _ _ G [NonTerm A] w eq_refl eq_refl)|exact (gen_upto_keys _ _ G)].
  Qed.
End Words.
