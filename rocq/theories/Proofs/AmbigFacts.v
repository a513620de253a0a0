(** How many trees a forest holds. *)
From Coq Require Import String List Arith NArith Lia Bool Sorted.
From Verif.Model Require Import Ord BTree Outcome Utils Grammar StartGrammar Tokens Tree State Earley.
From Verif.Spec Require Import Reach Cfg BuildSpec NullSpec TreeSpec EarleySpec SizeSpec KeySpec AmbigSpec.
From Verif.Proofs Require Import UtilsFacts BuildMore OrdFacts BTreeFacts LoopFacts GrammarFacts StartFacts NullableFacts TreeFacts TreeHist EarleyItems EarleyRun EarleyParse EarleyMain EarleyMore EarleyMem EarleySize EarleyExact.
Import ListNotations.

Fixpoint psize {T AK V} (t : ptree T AK V) : nat :=
  match t with
  | PLeaf _ _ => 1
  | PBranch _ cs => S (list_sum (map psize cs))
  end.

(** ** Any forest *)
Section Forest.
  Context {T AK V : Type} (t : Inner T AK V).
  Local Notation pt := (ptree T AK V).

  (** Every alternative below [m] can be read. *)
  Definition live (m : nat) : Prop := forall n, forest_node t m n ->
    exists s, get_node t n = Ret s /\ s <> [] /\ forall a, In a s -> exists tr, reads_alt t a tr.

  Lemma reads_alt_reads n s a tr : get_node t n = Ret s -> In a s -> reads_alt t a tr -> reads t n tr.
  Proof. intros G I [k v E|x ns cs E R]; econstructor; eassumption. Qed.
  Lemma reads_reads_alt n tr : reads t n tr -> exists s a, get_node t n = Ret s /\ In a s /\ reads_alt t a tr.
  Proof. intros [n0 s a k v G I E|n0 s a x ns cs G I E R]; exists s, a; repeat (split; [assumption|]); econstructor; eassumption. Qed.
  Lemma reads_all_app_inv ns1 ns2 cs : reads_all t (ns1 ++ ns2) cs ->
    exists cs1 cs2, cs = cs1 ++ cs2 /\ reads_all t ns1 cs1 /\ reads_all t ns2 cs2.
  Proof.
    revert cs. induction ns1 as [|n ns1 IH]; intros cs R; simpl in R.
    - exists [], cs. repeat (split; [constructor|]). exact R.
    - inversion R as [|n0 ns0 c cs0 Rn Rs]; subst. destruct (IH _ Rs) as (c1 & c2 & -> & R1 & R2).
      exists (c :: c1), c2. split; [reflexivity|]. split; [constructor; assumption|exact R2].
  Qed.
  Lemma reads_all_app' ns1 ns2 cs1 cs2 : reads_all t ns1 cs1 -> reads_all t ns2 cs2 -> reads_all t (ns1 ++ ns2) (cs1 ++ cs2).
  Proof. induction 1; simpl; [auto|]. intro. constructor; auto. Qed.
  Lemma via_reads n0 a0 n tr : reads_via t n0 a0 n tr -> reads t n tr.
  Proof.
    induction 1 as [s tr G I R|n s a x ns1 n' ns2 cs1 c cs2 G I E R1 _ IH R2].
    - exact (reads_alt_reads _ _ _ _ G I R).
    - apply (reads_branch t n s a x _ _ G I E). apply reads_all_app'; [exact R1|]. constructor; assumption.
  Qed.

  Lemma forest_trans m n n' : forest_node t m n -> forest_node t n n' -> forest_node t m n'.
  Proof. apply star_trans. Qed.
  Lemma live_below m n : live m -> forest_node t m n -> live n.
  Proof. intros L F n' F'. apply L. exact (forest_trans _ _ _ F F'). Qed.

  (** A place in a tree. *)
  Record place (n m : nat) (f : pt -> pt) : Prop := {
    pl_reads : forall x, reads t n x -> reads t m (f x);
    pl_via : forall n0 a0 x, reads_via t n0 a0 n x -> reads_via t n0 a0 m (f x);
    pl_inj : forall x y, f x = f y -> x = y;
    pl_size : forall x, psize x <= psize (f x)
  }.
  Lemma place_child m n : live m -> child t m n -> exists f, place n m f /\ forall x, psize x < psize (f x).
  Proof.
    intros L (s & a & x & ns & G & I & E & In_).
    destruct (L m (star_refl _ _)) as (s' & G' & _ & A). rewrite G in G'. injection G' as <-.
    destruct (A a I) as (tr & Ra). destruct Ra as [k v E'|x' ns' cs E' R]; rewrite E in E'; [discriminate|]. injection E' as <- <-.
    destruct (in_split _ _ In_) as (ns1 & ns2 & ->). destruct (reads_all_app_inv _ _ _ R) as (cs1 & cs2' & -> & R1 & R2).
    inversion R2 as [|n0 ns0 c cs2 _ R3]; subst.
    assert (Sz : forall y, psize y < psize (PBranch x (cs1 ++ y :: cs2))) by (intro y; simpl; rewrite map_app, list_sum_app; simpl; lia).
    exists (fun y => PBranch x (cs1 ++ y :: cs2)). split; [|exact Sz]. constructor.
    - intros y Ry. apply (reads_branch t m s a x _ _ G I E). apply reads_all_app'; [exact R1|]. constructor; assumption.
    - intros n0 a0 y Vy. exact (via_below t n0 a0 m s a x ns1 n ns2 cs1 y cs2 G I E R1 Vy R3).
    - intros y z [= E2]. apply app_inv_head in E2. injection E2; auto.
    - intro y. specialize (Sz y). lia.
  Qed.
  Lemma place_comp n k m f f' : place n k f -> place k m f' -> place n m (fun x => f' (f x)).
  Proof.
    intros [A B C D] [A' B' C' D']. constructor; auto. intro x. specialize (D x). specialize (D' (f x)). lia.
  Qed.
  Lemma place_below m n : live m -> forest_node t m n -> exists f, place n m f.
  Proof.
    intros L F. induction F as [|y z F (f & Pf) Cz].
    - exists (fun x => x). constructor; auto.
    - destruct (place_child y z (live_below _ _ L F) Cz) as (f' & Pf' & _). exists (fun x => f (f' x)). exact (place_comp _ _ _ _ _ Pf' Pf).
  Qed.
  Lemma place_loop m n : live m -> plus (child t) m n -> exists f, place n m f /\ forall x, psize x < psize (f x).
  Proof.
    intros L (y & F & Cz). destruct (place_below m y L F) as (f & Pf).
    destruct (place_child y n (live_below _ _ L F) Cz) as (f' & Pf' & Sz). exists (fun x => f (f' x)). split; [exact (place_comp _ _ _ _ _ Pf' Pf)|].
    intro x. pose proof (pl_size _ _ _ Pf (f' x)). specialize (Sz x). lia.
  Qed.
  Lemma live_reads m : live m -> exists tr, reads t m tr.
  Proof.
    intro L. destruct (L m (star_refl _ _)) as (s & G & Ne & A). destruct s as [|a s]; [congruence|].
    destruct (A a (or_introl eq_refl)) as (tr & R). exists tr. exact (reads_alt_reads _ _ _ _ G (or_introl eq_refl) R).
  Qed.

  Lemma no_dead_ends m n s a : live m -> forest_node t m n -> get_node t n = Ret s -> In a s ->
    exists tr, reads_via t n a m tr.
  Proof.
    intros L F G I. destruct (L n F) as (s' & G' & _ & A). rewrite G in G'. injection G' as <-. destruct (A a I) as (tr & R).
    destruct (place_below m n L F) as (f & Pf). exists (f tr). apply (pl_via _ _ _ Pf). exact (via_here t n a s tr G I R).
  Qed.

  (** *** One tree *)
  Lemma one_tree : (forall n tr, reads t n tr -> forall tr', no_choice t n -> reads t n tr' -> tr = tr') /\
    (forall ns cs, reads_all t ns cs -> forall cs', (forall n, In n ns -> no_choice t n) -> reads_all t ns cs' -> cs = cs').
  Proof.
    assert (One : forall n s a s' a', no_choice t n -> get_node t n = Ret s -> In a s -> get_node t n = Ret s' -> In a' s' -> a = a').
    { intros n s a s' a' N G I G' I'. rewrite G in G'. injection G' as <-. specialize (N n s (star_refl _ _) G).
      destruct s as [|b [|]]; simpl in *; [destruct I|destruct I as [<-|[]]; destruct I' as [<-|[]]; reflexivity|lia]. }
    apply reads_reads_all_ind.
    - intros n s a k v G I E tr' N R. destruct (reads_reads_alt _ _ R) as (s' & a' & G' & I' & Ra).
      rewrite <- (One _ _ _ _ _ N G I G' I') in Ra. destruct Ra as [k' v' E'|x ns cs E' _]; rewrite E in E'; [|discriminate]. injection E' as <- <-. reflexivity.
    - intros n s a x ns cs G I E Rs IH tr' N R. destruct (reads_reads_alt _ _ R) as (s' & a' & G' & I' & Ra).
      rewrite <- (One _ _ _ _ _ N G I G' I') in Ra. destruct Ra as [k' v' E'|x' ns' cs' E' R']; rewrite E in E'; [discriminate|]. injection E' as <- <-.
      f_equal. apply IH; [|exact R']. intros n' In' k sk Fk. apply N. apply (forest_trans n n' k); [|exact Fk].
      apply (star_step _ _ n); [constructor|]. exists s, a, x, ns. auto.
    - intros cs' _ R. inversion R. reflexivity.
    - intros n ns c cs _ IH1 _ IH2 cs' N R. inversion R as [|n0 ns0 c0 cs0 Rn Rs]; subst.
      f_equal; [apply IH1|apply IH2]; auto; [apply N; left; reflexivity|intros; apply N; right; assumption].
  Qed.

  (** *** Cycles *)
  Lemma cycle_big m : live m -> cyclic t m -> forall N, exists tr, reads t m tr /\ N <= psize tr.
  Proof.
    intros L (n & F & Cy) N. destruct (place_below m n L F) as (f & Pf). pose proof (live_below _ _ L F) as Ln.
    destruct (place_loop n n Ln Cy) as (h & Ph & Sz).
    assert (X : exists tr, reads t n tr /\ N <= psize tr).
    { induction N as [|N (tr & R & S)].
      - destruct (live_reads n Ln) as (tr & R). exists tr. split; [exact R|lia].
      - exists (h tr). split; [exact (pl_reads _ _ _ Ph _ R)|]. specialize (Sz tr). lia. }
    destruct X as (tr & R & S). exists (f tr). split; [exact (pl_reads _ _ _ Pf _ R)|]. pose proof (pl_size _ _ _ Pf tr). lia.
  Qed.
  Lemma cycle_infinite m : live m -> cyclic t m -> ~ finitely_many (reads t m).
  Proof.
    intros L Cy (l & F). destruct (cycle_big m L Cy (S (list_sum (map psize l)))) as (tr & R & S). specialize (F tr R).
    assert (X : psize tr <= list_sum (map psize l)); [|lia]. clear - F. induction l as [|y l IH]; simpl; [destruct F|]. destruct F as [->|F]; [lia|]. specialize (IH F). lia.
  Qed.

  Fixpoint pheight (tr : pt) : nat :=
    match tr with
    | PLeaf _ _ => 1
    | PBranch _ cs => S (list_max (map pheight cs))
    end.
  Fixpoint lists {A} (l : list (list A)) : list (list A) :=
    match l with
    | [] => [[]]
    | xs :: l => flat_map (fun x => map (cons x) (lists l)) xs
    end.
  Fixpoint enum (h n : nat) : list pt :=
    match h with
    | 0 => []
    | S h => match get_node t n with
        | Ret s => flat_map (fun a => match get_alt t a with
            | Ret (CLeaf k v) => [PLeaf k v]
            | Ret (CBranch x ns) => map (PBranch x) (lists (map (enum h) ns))
            | _ => []
            end) s
        | _ => []
        end
    end.
  Lemma enum_all h : forall n tr, reads t n tr -> pheight tr <= h -> In tr (enum h n).
  Proof.
    induction h as [|h IH]; intros n tr R L; [destruct tr; simpl in L; lia|].
    destruct R as [n s a k v G I E|n s a x ns cs G I E Rs]; simpl; rewrite G; apply in_flat_map; exists a; (split; [exact I|]); rewrite E; [left; reflexivity|].
    apply in_map. simpl in L. assert (L' : list_max (map pheight cs) <= h) by lia. clear L G I E. revert ns Rs L'.
    induction cs as [|c cs IHc]; intros ns Rs L; inversion Rs as [|n0 ns0 c0 cs0 Rn Rs']; subst; simpl; [left; reflexivity|].
    simpl in L. apply in_flat_map. exists c. split; [apply IH; [exact Rn|lia]|]. apply in_map. apply IHc; [exact Rs'|lia].
  Qed.

  (** A branch of length [pheight]. *)
  Inductive path : nat -> list nat -> Prop :=
  | path_one n : path n [n]
  | path_more n n' l : child t n n' -> path n' l -> path n (n :: l).
  Lemma path_star n l : path n l -> forall x, In x l -> star (child t) n x.
  Proof.
    induction 1 as [n|n n' l Cn _ IH]; intros x I.
    - destruct I as [<-|[]]. constructor.
    - destruct I as [<-|I]; [constructor|]. apply (star_trans _ n n' x); [apply star_one; exact Cn|exact (IH x I)].
  Qed.
  Lemma path_nodup n l : path n l -> ~ cyclic t n -> NoDup l.
  Proof.
    induction 1 as [n|n n' l Cn Pl IH]; intro A; [constructor; [auto|constructor]|].
    constructor.
    - intro I. apply A. exists n. split; [constructor|]. pose proof (path_star _ _ Pl n I) as St.
      destruct (star_plus _ _ _ St) as [<-|(y & Sy & E)]; [exists n'; split; [constructor|exact Cn]|exists y; split; [exact (star_left _ _ _ _ Cn Sy)|exact E]].
    - apply IH. intros (k & F & Cy). apply A. exists k. split; [|exact Cy]. apply (star_trans _ n n' k); [apply star_one; exact Cn|exact F].
  Qed.
  Lemma max_in (l : list nat) : l <> [] -> In (list_max l) l.
  Proof.
    induction l as [|x l IH]; [congruence|]. intros _. simpl. destruct l as [|y l]; [left; simpl; lia|].
    assert (X : In (list_max (y :: l)) (y :: l)) by (apply IH; discriminate).
    destruct (Nat.max_spec x (list_max (y :: l))) as [[_ ->]|[_ ->]]; [right; exact X|left; reflexivity].
  Qed.
  Lemma reads_path : forall n tr, reads t n tr -> exists l, path n l /\ length l = pheight tr /\ forall x, In x l -> exists s, get_node t x = Ret s.
  Proof.
    assert (X : (forall n tr, reads t n tr -> exists l, path n l /\ length l = pheight tr /\ forall x, In x l -> exists s, get_node t x = Ret s) /\
      (forall ns cs, reads_all t ns cs -> forall h, In h (map pheight cs) -> exists n l, In n ns /\ path n l /\ length l = h /\ forall x, In x l -> exists s, get_node t x = Ret s)).
    { apply reads_reads_all_ind.
      - intros n s a k v G I E. exists [n]. split; [constructor|]. split; [reflexivity|]. intros x [<-|[]]. eauto.
      - intros n s a x ns cs G I E Rs IH. destruct cs as [|c cs].
        + exists [n]. split; [constructor|]. split; [reflexivity|]. intros y [<-|[]]. eauto.
        + destruct (IH (list_max (map pheight (c :: cs)))) as (n' & l & In' & Pl & El & Ok); [apply max_in; discriminate|].
          exists (n :: l). split; [apply (path_more n n'); [exists s, a, x, ns; auto|exact Pl]|]. split; [simpl in *; congruence|].
          intros y [<-|J]; eauto.
      - intros h [].
      - intros n ns c cs _ (l & Pl & El & Ok) _ IH2 h [<-|I].
        + exists n, l. split; [left; reflexivity|auto].
        + destruct (IH2 h I) as (n' & l' & In' & Z). exists n', l'. split; [right; exact In'|exact Z]. }
    exact (proj1 X).
  Qed.
  Lemma acyclic_finite m : ~ cyclic t m -> finitely_many (reads t m).
  Proof.
    intro A. exists (enum (length (in_nodes t)) m). intros tr R. apply enum_all; [exact R|].
    destruct (reads_path m tr R) as (l & Pl & <- & Ok). pose proof (path_nodup _ _ Pl A) as N.
    rewrite <- (seq_length (length (in_nodes t)) 0). apply NoDup_incl_length; [exact N|]. intros x I. apply in_seq.
    destruct (Ok x I) as (s & G). split; [lia|]. unfold get_node in G. simpl. apply nth_error_Some. destruct (nth_error (in_nodes t) x); [discriminate|discriminate G].
  Qed.
End Forest.

(** ** The forests of the parser *)
Section Parser.
  Context {T NT AK AV V : Type} `{OrdEq T} `{OrdEq NT} `{OrdEq AK} `{OrdEq V}.
  Variable g : Grammar T NT AK AV.
  Hypothesis Bg : accepted g.
  Local Notation SP := (Prod (StreamTerminal T) (StartNonTerminal NT) (StartActionKey AK) (StartActionValue AV)).
  Local Notation sg := (wrapg g).
  Local Notation tree := (Inner T AK V).
  Local Notation ESet := (EarleyStateSet T NT AK AV).
  Variable w : list (Token T V).
  Variable lay : layout (StartNonTerminal NT).
  Hypothesis Inj : lay_inj sg lay.
  Hypothesis Up : lay_up sg lay.
  Implicit Types (t : tree) (sets : list ESet).

  Lemma parse_both t0 m t : TInv t0 -> runs_to (fun fuel => parse lay sg w t0 fuel) (Ret (Some m, t)) ->
    exists sets lab lab', XInv g w lay (length w) sets t lab /\ PInv g lay w ulf ubr t0 (length w) sets t lab' /\
      owns sets (length w) (p0 g) 0 0 m.
  Proof.
    intros T0 Rt.
    assert (NC : forall K, K <= length w -> ~ collision g w ulf ubr K).
    { intros K L C. destruct (parse_main g Bg lay Inj w t0 T0) as (r & R' & Pr).
      rewrite (runs_to_fun _ _ _ R' Rt) in Pr. destruct Pr as (Pr & _). apply (Pr K L). apply (bad_stuck g Bg w ulf ubr K L). right. exact C. }
    destruct Rt as [_ (n & R)]. specialize (R n (le_n n)). unfold parse in R.
    destruct (new_start lay sg t0) as [s0|e|] eqn:R0; cbn [obind] in R; try discriminate.
    destruct (close_state lay sg [] s0 n) as [[s1 t1]|e|] eqn:R1; cbn [obind] in R; try discriminate.
    destruct (start_x g Bg w lay Inj Up NC t0 n s1 t1 T0) as (lab1 & I1); [rewrite R0; exact R1|].
    destruct (parse_tokens lay sg w [s1] t1 n) as [[sets t2]|e|] eqn:R2; cbn [obind] in R; try discriminate.
    destruct (tokens_x g Bg w lay Inj Up NC n w 0 [s1] t1 lab1 sets t2 I1 eq_refl eq_refl R2) as (lab & I).
    destruct (start_step g Bg lay Inj w ulf ubr (ulab_fun g Bg w) t0 T0) as (r & Rr & Pr).
    assert (r = Ret (s1, t1)) as ->.
    { apply (runs_to_fun _ _ _ Rr). apply (runs_to_mono _ n); [|rewrite R0; exact R1|discriminate].
      apply (fuel_mono_bind (fun _ => _) (fun n _ => _)); [apply fuel_mono_const|]. intro a. apply close_mono. }
    destruct Pr as (labp & Pi).
    destruct (tokens_step g Bg lay Inj w ulf ubr (ulab_fun g Bg w) t0 w 0 [s1] t1 labp Pi eq_refl eq_refl) as (r2 & Rr2 & Pr2).
    assert (r2 = Ret (sets, t2)) as ->.
    { apply (runs_to_fun _ _ _ Rr2). apply (runs_to_mono _ n); [apply tokens_mono|exact R2|discriminate]. }
    destruct Pr2 as (labp2 & Pi2).
    destruct (nth_error sets (length w)) as [last|] eqn:El; [|apply nth_error_None in El; rewrite (xi_len _ _ _ _ _ _ _ I) in El; lia].
    rewrite (last_nth _ _ (xi_len _ _ _ _ _ _ _ I)), El in R. cbn [expect obind] in R.
    destruct (final_step g Bg lay w ulf ubr _ _ _ (xi_s _ _ _ _ _ _ _ I _ _ El)) as (o' & Ro & Po). rewrite Ro in R. cbn [obind] in R. injection R as -> ->.
    exists sets, lab, labp2. split; [exact I|]. split; [exact Pi2|]. exists last, []. split; [exact El|exact Po].
  Qed.

  Section Run.
    Variables (t0 t : tree) (sets : list ESet) (lab lab' : nat -> option unit).
    Hypothesis XI : XInv g w lay (length w) sets t lab.
    Hypothesis PI : PInv g lay w ulf ubr t0 (length w) sets t lab'.
    Hypothesis Dflt : AK.

    Lemma entry_reads k s p d i v : nth_error sets k = Some s -> In (mkk p d i, v) s -> exists trs, reads_all t v trs.
    Proof.
      intros E I. pose proof (xi_s _ _ _ _ _ _ _ XI _ _ E) as Sk.
      destruct (SInv_entry _ _ _ _ _ _ _ _ _ _ _ _ Sk I) as (ls & It & _).
      destruct (item_change g w ulf ubr tleaf (tbranch Dflt) _ _ _ _ _ It) as (trs & It').
      destruct (proj2 (pi_claims _ _ _ _ _ _ _ _ _ _ PI) Dflt _ _ _ _ _ _ E It') as (v' & I' & R).
      destruct (SInv_unique g Bg lay Inj w ulf ubr _ _ _ _ _ _ _ _ _ Sk I I') as [_ <-]. exists trs. exact R.
    Qed.
    Definition owned n : Prop := exists k q x i, owns sets k q x i n.
    Lemma tinv : TInv t.
    Proof. exact (li_t _ _ _ _ _ _ (xi_l _ _ _ _ _ _ _ XI)). Qed.
    Lemma stage_w : stage sets = length w.
    Proof. unfold stage. rewrite (xi_len _ _ _ _ _ _ _ XI). reflexivity. Qed.
    Lemma owned_alt n k q x i a c : owns sets k q x i n -> In a (nalts t n) -> acont t a = Some c ->
      exists c', cc sets c c' /\ ac g w (length w) k q x i c'.
    Proof.
      intros O I E. destruct (proj1 (gi_q _ _ _ _ _ (xi_g _ _ _ _ _ _ _ XI) n c (ex_intro _ a (conj I E))) _ _ _ _ O) as (c' & Cc & Ac).
      rewrite stage_w in Ac. eauto.
    Qed.
    Lemma owned_node n : owned n -> exists s, get_node t n = Ret s /\ s = nalts t n /\ s <> [].
    Proof.
      intros (k & q & x & i & s & v & E & I). destruct (entry_reads _ _ _ _ _ _ E I) as (trs & R).
      destruct (reads_all_app_inv _ _ _ _ R) as (c1 & c2 & _ & _ & R2). inversion R2 as [|n0 ns0 c cs Rn _]; subst.
      destruct (reads_reads_alt _ _ _ Rn) as (s' & a & G & Ia & _). exists s'. split; [exact G|].
      split; [symmetry; exact (EarleySize.get_node_nalts _ _ _ G)|]. intros ->. destruct Ia.
    Qed.
    Lemma owned_child n n' : owned n -> child t n n' -> owned n'.
    Proof.
      intros (k & q & x & i & O) (s & a & y & ns & G & I & E & J). apply get_alt_acont in E.
      destruct (owned_alt n k q x i a _ O (get_node_In _ _ _ _ G I) E) as ([tok|K p j] & Cc & Ac); [destruct Cc|].
      destruct Cc as (_ & sK & EK & IK). destruct (gi_v _ _ _ _ _ (xi_g _ _ _ _ _ _ _ XI) _ _ _ _ _ _ EK IK) as (ks & _ & Vs).
      apply In_nth_error in J. destruct J as (y' & J). destruct (vals_nth _ _ _ _ _ _ _ _ Vs J) as (k' & _ & O'). exists k', p, (0 + y'), j. exact O'.
    Qed.
    Lemma owned_live m : owned m -> live t m.
    Proof.
      intros Om n F. assert (On : owned n) by (induction F as [|y z F IH Cz]; [exact Om|exact (owned_child _ _ IH Cz)]).
      destruct (owned_node n On) as (s & G & E & Ne). exists s. split; [exact G|]. split; [exact Ne|]. intros a Ia.
      subst s. destruct On as (k & q & x & i & O). destruct (ti_alts _ tinv _ _ Ia) as (c & Ec).
      destruct (owned_alt n k q x i a c O Ia Ec) as (c' & Cc & _). pose proof Ec as Ga. apply get_alt_acont in Ga.
      destruct c as [kd v|ak ns], c' as [tok|K p j].
      - exists (PLeaf kd v). constructor. exact Ga.
      - destruct Cc.
      - destruct Cc.
      - destruct Cc as (_ & sK & EK & IK). destruct (entry_reads _ _ _ _ _ _ EK IK) as (trs & R). exists (PBranch ak trs). econstructor; eassumption.
    Qed.

    (** *** Pieces cut in one way *)
    Section OneWay.
      Hypothesis UC : unique_cuts (rhs_of g) (start_nt g) (map tk_kind w).
      Local Notation sitem := (item g w slf (sbr g)).
      Lemma it_sitem k q d i : it g w k q d i -> exists ls, sitem k q d i ls.
      Proof. intros (ls & I). eapply item_change. exact I. Qed.
      Lemma chain_item K q d i ks : K <= length w -> chain g w K q d i ks -> it g w K q d i -> exists ls, sitem K q d i ls /\ map snd ls = ks.
      Proof.
        intros L C. induction C as [K q i|K q d i j ks Pr C IH]; intro It.
        - destruct (it_sitem _ _ _ _ It) as (ls & I). exists ls. split; [exact I|]. apply (item_facts g Bg w) in I. destruct ls; [reflexivity|]. simpl in I. lia.
        - destruct Pr as [[Sd ->]|(r & p & _ & (R & A & N) & _)].
          + destruct Sd as (d0 & tok & [= <-] & Ij & N & E). destruct (IH ltac:(lia) Ij) as (ls & I & <-).
            eexists. split; [exact (it_scan g w _ _ _ _ _ _ _ _ I N E)|]. rewrite map_app. reflexivity.
          + apply (rit_it g w K L) in R. assert (Ij : it g w j q d i) by (unfold at_ in A; destruct (Nat.eqb_spec j K) as [->|]; [exact (rit_it g w K L _ _ _ _ A)|exact A]).
            destruct (it_sitem _ _ _ _ R) as (ls' & I'). destruct (item_facts g Bg w _ _ _ _ _ _ _ I') as (Lj & _).
            destruct (IH ltac:(lia) Ij) as (ls & I & <-).
            eexists. split; [exact (it_complete g w _ _ _ _ _ _ _ _ _ _ I N I')|]. rewrite map_app. reflexivity.
      Qed.
      Lemma completes_item K q d i p j : completes g w K q d i p j -> it g w K q (S d) i /\ exists ls, sitem j q d i ls /\ sitem K q (S d) i (ls ++ [(NonTerm (unwrap_nt g (p_head p)), j, K)]).
      Proof.
        intros (Ic & Iq & N). destruct (it_sitem _ _ _ _ Iq) as (ls & I). destruct (it_sitem _ _ _ _ Ic) as (ls' & I'). split.
        - destruct Iq as (l1 & I1). destruct Ic as (l2 & I2). eexists. exact (it_complete g w _ _ _ _ _ _ _ _ _ _ I1 N I2).
        - exists ls. split; [exact I|]. exact (it_complete g w _ _ _ _ _ _ _ _ _ _ I N I').
      Qed.
      Lemma ac_once J k q x i c : J <= length w -> ac g w J k q x i c ->
        match c with
        | ALeaf tok => exists k0, k = S k0 /\ scans g w k0 q x i tok
        | ABr K p j => K = k /\ completes g w k q x i p j
        end.
      Proof.
        intros L A. induction A as [J k q x i c A IH|k q d i tok Sc|K q d i p j Cm|K q d i p j ks ks1 x k k1 c Cm C1 C2 E1 E2 A IH].
        - apply IH. lia.
        - eauto.
        - auto.
        - assert (k1 = k) as ->; [|exact (IH L)].
          destruct (completes_item _ _ _ _ _ _ Cm) as (It & ls & I & I').
          destruct Cm as (Ic & Iq & N). assert (Lj : j <= length w) by (destruct Iq as (l & Il); apply (item_facts g Bg w) in Il; tauto).
          destruct (chain_item _ _ _ _ _ Lj C2 Iq) as (ls2 & I2 & <-). destruct (chain_item _ _ _ _ _ L C1 It) as (ls1 & I1 & E).
          rewrite (slab_fun g Bg w UC _ _ _ _ _ _ I I2) in I'. rewrite (slab_fun g Bg w UC _ _ _ _ _ _ I1 I') in E.
          rewrite map_app in E. simpl in E. apply app_inj_tail in E. destruct E as [E _]. rewrite E in E1. congruence.
      Qed.
      Hypothesis KD : KeySpec.keys_distinct g.
      Lemma alts_differ n a a' c c' : owned n -> In a (nalts t n) -> In a' (nalts t n) -> acont t a = Some c -> acont t a' = Some c' -> a <> a' ->
        exists x x' ns ns', c = CBranch x ns /\ c' = CBranch x' ns' /\ x <> x'.
      Proof.
        intros (k & q & x & i & O) I I' E E' Na.
        destruct (owned_alt n k q x i a c O I E) as (d & Cc & Ac). destruct (owned_alt n k q x i a' c' O I' E') as (d' & Cc' & Ac').
        apply ac_once in Ac; [|lia]. apply ac_once in Ac'; [|lia].
        destruct c as [kd v|ak ns], d as [tok|K p j]; [| destruct Cc | destruct Cc |]; destruct c' as [kd' v'|ak' ns'], d' as [tok'|K' p' j'];
          try (destruct Cc'; fail); simpl in Cc, Cc'.
        - destruct Ac as (k0 & -> & _ & _ & Ek). destruct Ac' as (k1 & [= <-] & _ & _ & Ek'). subst tok tok'. rewrite Ek in Ek'. injection Ek' as -> ->.
          destruct Na. exact (acont_inj _ _ _ _ tinv E E').
        - destruct Ac as (k0 & -> & _ & N & _). destruct Ac' as (_ & _ & _ & N'). rewrite N in N'. discriminate.
        - destruct Ac' as (k0 & -> & _ & N & _). destruct Ac as (_ & _ & _ & N'). rewrite N in N'. discriminate.
        - destruct Ac as (-> & Cm). destruct Ac' as (-> & Cm'). exists ak, ak', ns, ns'. split; [reflexivity|]. split; [reflexivity|]. intros <-.
          destruct (completes_item _ _ _ _ _ _ Cm) as (_ & ls & _ & Il). destruct (completes_item _ _ _ _ _ _ Cm') as (_ & ls' & _ & Il').
          pose proof (slab_fun g Bg w UC _ _ _ _ _ _ Il Il') as El. apply app_inj_tail in El. destruct El as [_ El]. injection El as _ <-.
          destruct Cm as ((l1 & I1) & _ & N1). destruct Cm' as ((l2 & I2) & _ & N2). rewrite N1 in N2. injection N2 as Hd.
          destruct Cc as (Ak & s & Es & Is). destruct Cc' as (Ak' & s' & Es' & Is').
          destruct (complete_prod g Bg w _ _ _ _ _ _ _ I1 Ak) as (A & ix & p1 & -> & (r & Ir & Ix) & Ek & _).
          destruct (complete_prod g Bg w _ _ _ _ _ _ _ I2 Ak') as (A' & ix' & p2 & -> & (r' & Ir' & Ix') & Ek' & _).
          simpl in Hd. injection Hd as <-.
          assert (r' = r) as ->.
          { apply bt_get_iff in Ir; [|apply Bg]. apply bt_get_iff in Ir'; [|apply Bg]. congruence. }
          assert (ix' = ix) as ->.
          { assert (Nd : NoDup (map pi_action_key (r_prods r))) by (apply KD; unfold rules, bt_values; apply in_map_iff; exists (A, r); auto).
            apply (proj1 (NoDup_nth_error _) Nd); [rewrite map_length; apply nth_error_Some; congruence|].
            rewrite !nth_error_map, Ix, Ix'. simpl. congruence. }
          assert (p2 = p1) as -> by congruence. rewrite Es in Es'. injection Es' as <-.
          destruct (SInv_unique g Bg lay Inj w ulf ubr _ _ _ _ _ _ _ _ _ (xi_s _ _ _ _ _ _ _ XI _ _ Es) Is Is') as [_ <-].
          apply Na. exact (acont_inj _ _ _ _ tinv E E').
      Qed.
    End OneWay.
  End Run.
End Parser.
