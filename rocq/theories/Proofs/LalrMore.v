(** [from_prod_lookahead] as a whole, LR(1), and the actions of a parse state. *)
From Coq Require Import String List Arith Lia Bool NArith Permutation Sorted.
From Verif.Model Require Import Ord BTree Outcome Utils Grammar Nullable Firsts State Lalr.
From Verif.Spec Require Import Reach Cfg BuildSpec NullSpec StateSpec LalrSpec.
From Verif.Proofs Require Import OrdFacts BTreeFacts LoopFacts UtilsFacts GrammarFacts NullableFacts CfgFacts
  FirstsFacts FollowsFacts FirstsMore StateFacts StateMore StateSets LalrFacts.
Import ListNotations.

(** ** Sets and maps over a preorder *)
Section Pre.
  Context {K : Type} `{TotalPre K}.
  Lemma bol_snoc (l : list K) y : bs_of_list (l ++ [y]) = bs_add y (bs_of_list l).
  Proof. unfold bs_of_list, bs_extend. rewrite fold_left_app. reflexivity. Qed.
  Lemma bol_mem (l : list K) y : bs_mem y (bs_of_list l) = true <-> exists z, In z l /\ cmp y z = Eq.
  Proof.
    induction l as [|a l IH] using rev_ind; [split; [discriminate | intros (z & [] & _)]|].
    rewrite bol_snoc, bs_mem_add, IH. split.
    - intros [C|(z & Iz & Ez)].
      + exists a. split; [apply in_or_app; right; left; reflexivity | exact C].
      + exists z. split; [apply in_or_app; auto | exact Ez].
    - intros (z & Iz & Ez). apply in_app_or in Iz. destruct Iz as [Iz|[<-|[]]]; [right; eauto | auto].
  Qed.
  Lemma bol_uniq (l : list K) x :
    (forall a b, In a l -> In b l -> cmp a b = Eq -> a = b) -> (In x (bs_of_list l) <-> In x l).
  Proof.
    intro U. split.
    - intro I. apply bs_extend_In_inv in I. destruct I as [I|[]]. exact I.
    - intro I. assert (M : bs_mem x (bs_of_list l) = true).
      { apply bol_mem. exists x. split; [exact I | apply cmp_refl]. }
      apply bs_mem_iff in M. destruct M as (y & Iy & E).
      assert (y = x); [|subst; exact Iy]. symmetry. apply U; [exact I | | exact E].
      apply bs_extend_In_inv in Iy. destruct Iy as [Iy|[]]. exact Iy.
  Qed.

  Context {V : Type}.
  Local Notation M := (btmap K V).

  Lemma bt_of_list_snoc (l : list (K * V)) k v : bt_of_list (l ++ [(k, v)]) = bt_insert k v (bt_of_list l).
  Proof. unfold bt_of_list. rewrite fold_left_app. reflexivity. Qed.
  Lemma bt_of_list_keys (l : list (K * V)) : bt_keys (bt_of_list l) = bs_of_list (map fst l).
  Proof.
    induction l as [|[k v] l IH] using rev_ind; [reflexivity|].
    rewrite bt_of_list_snoc, bt_keys_insert, IH, map_app. cbn [map fst]. rewrite bol_snoc. reflexivity.
  Qed.
  Lemma bt_of_list_find (l : list (K * V)) x :
    bt_get x (bt_of_list l) = option_map snd (find (fun kv => eqb x (fst kv)) (rev l)).
  Proof.
    induction l as [|[k v] l IH] using rev_ind; [reflexivity|].
    rewrite bt_of_list_snoc, bt_get_insert, rev_app_distr. cbn [rev app find fst].
    destruct (eqb x k); [reflexivity | exact IH].
  Qed.

  (** Insertion of absent keys only. *)
  Definition bt_first (l : list (K * V)) : M :=
    fold_left (fun m kv => if bt_mem (fst kv) m then m else bt_insert (fst kv) (snd kv) m) l [].
  Lemma bt_first_snoc l k v :
    bt_first (l ++ [(k, v)]) = if bt_mem k (bt_first l) then bt_first l else bt_insert k v (bt_first l).
  Proof. unfold bt_first. rewrite fold_left_app. reflexivity. Qed.
  Lemma bt_first_sorted l : msorted (bt_first l).
  Proof.
    induction l as [|[k v] l IH] using rev_ind; [apply sorted_nil|]. rewrite bt_first_snoc.
    destruct (bt_mem k (bt_first l)); [exact IH | apply bt_insert_sorted; exact IH].
  Qed.
  Lemma bt_first_keys l : bt_keys (bt_first l) = bs_of_list (map fst l).
  Proof.
    induction l as [|[k v] l IH] using rev_ind; [reflexivity|].
    rewrite bt_first_snoc, map_app. cbn [map fst]. rewrite bol_snoc, <- IH, bt_mem_keys.
    destruct (bs_mem k (bt_keys (bt_first l))) eqn:Mk.
    - symmetry. apply bs_add_mem_id; [apply bt_first_sorted | exact Mk].
    - apply bt_keys_insert.
  Qed.
  Lemma find_app {A} (f : A -> bool) l1 l2 :
    find f (l1 ++ l2) = match find f l1 with Some a => Some a | None => find f l2 end.
  Proof. induction l1 as [|a l1 IH]; [reflexivity|]. simpl. destruct (f a); [reflexivity | exact IH]. Qed.
  Lemma bt_first_find l x : bt_get x (bt_first l) = option_map snd (find (fun kv => eqb x (fst kv)) l).
  Proof.
    induction l as [|[k v] l IH] using rev_ind; [reflexivity|].
    rewrite bt_first_snoc, find_app. cbn [find fst].
    destruct (bt_mem k (bt_first l)) eqn:Mk.
    - rewrite IH. destruct (find (fun kv => eqb x (fst kv)) l) as [y|] eqn:F; [reflexivity|].
      destruct (eqb x k) eqn:E; [|reflexivity]. exfalso. unfold eqb in E.
      destruct (cmp x k) eqn:C; try discriminate. unfold bt_mem in Mk.
      rewrite <- (bt_get_compat x k (bt_first l) C), IH in Mk. discriminate.
    - rewrite bt_get_insert. destruct (eqb x k) eqn:E; [|rewrite IH; destruct (find _ l); reflexivity].
      destruct (find (fun kv => eqb x (fst kv)) l) as [y|] eqn:F; [|reflexivity]. exfalso.
      unfold eqb in E. destruct (cmp x k) eqn:C; try discriminate. unfold bt_mem in Mk.
      rewrite <- (bt_get_compat x k (bt_first l) C), IH in Mk. discriminate.
  Qed.
End Pre.

(** [shuffle_iter]. *)
Section Shuffle.
  Context {K V : Type} `{OrdEq K} `{TotalPre V}.

  Definition vals (k : K) (l : list (K * V)) : list V := map snd (filter (fun kv => eqb k (fst kv)) l).
  Lemma vals_In (k : K) (l : list (K * V)) v : In v (vals k l) <-> In (k, v) l.
  Proof.
    unfold vals. rewrite in_map_iff. split.
    - intros ([k' v'] & <- & I). apply filter_In in I. destruct I as [I E]. simpl in *. unfold eqb in E.
      destruct (cmp k k') eqn:C; try discriminate. apply cmp_eq in C. subst. exact I.
    - intro I. exists (k, v). split; [reflexivity|]. apply filter_In. split; [exact I|].
      simpl. unfold eqb. rewrite cmp_refl. reflexivity.
  Qed.
  Lemma shuffle_snoc (l : list (K * V)) k v : shuffle_iter (l ++ [(k, v)]) =
    match bt_get k (shuffle_iter l) with
    | None => bt_insert k (bs_of_list [v]) (shuffle_iter l)
    | Some set => bt_insert k (bs_add v set) (shuffle_iter l)
    end.
  Proof. unfold shuffle_iter. rewrite fold_left_app. reflexivity. Qed.
  Lemma shuffle_get (l : list (K * V)) k :
    bt_get k (shuffle_iter l) = match vals k l with [] => None | vs => Some (bs_of_list vs) end.
  Proof.
    induction l as [|[k' v] l IH] using rev_ind; [reflexivity|].
    rewrite shuffle_snoc. unfold vals. rewrite filter_app, map_app. fold (vals k l).
    cbn [filter fst]. unfold eqb. destruct (cmp k k') eqn:C; cbv match.
    - apply cmp_eq in C. subst k'. rewrite IH. cbn [map snd]. destruct (vals k l) as [|a vs].
      + rewrite bt_get_insert. unfold eqb. rewrite cmp_refl. reflexivity.
      + rewrite bt_get_insert. unfold eqb. rewrite cmp_refl. rewrite <- (bol_snoc (a :: vs) v). reflexivity.
    - cbn [map]. rewrite app_nil_r, <- IH.
      destruct (bt_get k' (shuffle_iter l)); rewrite bt_get_insert; unfold eqb; rewrite C; reflexivity.
    - cbn [map]. rewrite app_nil_r, <- IH.
      destruct (bt_get k' (shuffle_iter l)); rewrite bt_get_insert; unfold eqb; rewrite C; reflexivity.
  Qed.
  Lemma shuffle_sorted (l : list (K * V)) : msorted (shuffle_iter l).
  Proof.
    induction l as [|[k v] l IH] using rev_ind; [apply sorted_nil|]. rewrite shuffle_snoc.
    destruct (bt_get k (shuffle_iter l)); apply bt_insert_sorted; exact IH.
  Qed.
  Lemma shuffle_In (l : list (K * V)) k vs : (forall a b, In a (vals k l) -> In b (vals k l) -> cmp a b = Eq -> a = b) ->
    In (k, vs) (shuffle_iter l) -> vs <> [] /\ sorted vs /\ forall v, In v vs <-> In (k, v) l.
  Proof.
    intros U I. apply bt_get_iff in I; [|apply shuffle_sorted]. rewrite shuffle_get in I.
    destruct (vals k l) as [|a w] eqn:E; [discriminate|]. injection I as <-. split; [|split].
    - intro N. assert (X : In a (bs_of_list (a :: w))) by (apply bol_uniq; [exact U | left; reflexivity]).
      rewrite N in X. destruct X.
    - apply bs_of_list_sorted.
    - intro v. rewrite (bol_uniq _ _ U), <- E. apply vals_In.
  Qed.
  Lemma shuffle_has (l : list (K * V)) k v : In (k, v) l -> exists vs, In (k, vs) (shuffle_iter l).
  Proof.
    intro I. apply vals_In in I. destruct (vals k l) as [|a w] eqn:E; [destruct I|].
    exists (bs_of_list (a :: w)). apply bt_get_iff; [apply shuffle_sorted|]. rewrite shuffle_get, E. reflexivity.
  Qed.
  Lemma shuffle_only (l : list (K * V)) k vs : In (k, vs) (shuffle_iter l) -> exists v, In (k, v) l.
  Proof.
    intro I. apply bt_get_iff in I; [|apply shuffle_sorted]. rewrite shuffle_get in I.
    destruct (vals k l) as [|a w] eqn:E; [discriminate|]. exists a. apply vals_In. rewrite E. left. reflexivity.
  Qed.
End Shuffle.
