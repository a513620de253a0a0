From Coq Require Import List Arith Lia.
From Verif.Model Require Import Ord BTree Utils Mergeables.
From Verif.Spec Require Import MergeSpec.
From Verif.Proofs Require Import OrdFacts BTreeFacts.
Import ListNotations.

Section MF.
  Context {K V : Type} `{TotalPre K}.
  Variable merge : V -> V -> WasChanged * V.
  Implicit Types (m : btmap K V) (k x : K) (v : V).

  Lemma bt_get_kv_insert x k v m : msorted m ->
    bt_get_kv x (bt_insert k v m) =
    if eqb x k then Some (match bt_get_kv k m with Some kv => fst kv | None => k end, v) else bt_get_kv x m.
  Proof.
    unfold eqb. induction m as [|[k' v'] m IH]; simpl; intro S.
    - destruct (cmp x k); reflexivity.
    - destruct (sorted_inv _ _ S) as [S' F]. destruct (cmp k k') eqn:E; simpl.
      + rewrite <- (cmp_eq_compat_r _ _ x E). destruct (cmp x k); reflexivity.
      + destruct (cmp x k) eqn:E1; try reflexivity.
        assert (N : bt_get_kv k m = None).
        { destruct (bt_get_kv k m) as [[k0 v0]|] eqn:G; [|reflexivity]. exfalso.
          assert (G' : bt_get k m = Some v0) by (rewrite bt_get_kv_get, G; reflexivity).
          apply bt_get_Some_In in G'. destruct G' as (k1 & I & E2). rewrite Forall_forall in F.
          specialize (F k1 (in_map fst _ _ I)). pose proof (cmp_lt_trans _ _ _ E F). congruence. }
        rewrite N. reflexivity.
      + rewrite (IH S'). destruct (cmp x k) eqn:E1; try reflexivity.
        rewrite (cmp_eq_compat _ _ k' E1), E. reflexivity.
  Qed.

  Lemma bt_get_kv_compat x k m : cmp x k = Eq -> bt_get_kv x m = bt_get_kv k m.
  Proof.
    intro E. induction m as [|[k' v'] m IH]; simpl; [reflexivity|].
    rewrite (cmp_eq_compat _ _ k' E), IH. reflexivity.
  Qed.

  Lemma insert_cow_owned m (v : Value K V) : mm_insert_cow merge m (Owned v) = mm_insert merge m v.
  Proof. reflexivity. Qed.
  Lemma insert_cow_borrowed m (v : Value K V) : mm_insert_cow merge m (Borrowed v) = mm_insert merge m v.
  Proof. reflexivity. Qed.

  Lemma mm_step_op m op : mm_step merge m op = mm_insert merge m (op_value op).
  Proof. destruct op as [v|[v|v]]; reflexivity. Qed.

  Lemma get_entry_get m k : bt_get k m = option_map v_value (mm_get_entry m k).
  Proof. unfold mm_get_entry. rewrite bt_get_kv_get. destruct (bt_get_kv k m) as [[]|]; reflexivity. Qed.

  Lemma mm_insert_ok m (v : Value K V) : msorted m ->
    msorted (snd (mm_insert merge m v)) /\
    (forall k, mm_get_entry (snd (mm_insert merge m v)) k = entry_step merge k (mm_get_entry m k) v) /\
    fst (mm_insert merge m v) = match mm_get_entry m (v_key v) with None => Changed | Some o => fst (merge (v_value o) (v_value v)) end.
  Proof.
    intro S. unfold mm_insert. rewrite get_entry_get. unfold mm_get_entry, entry_step. destruct v as [kv vv]. simpl.
    destruct (bt_get_kv kv m) as [[k0 v0]|] eqn:G; simpl.
    - destruct (merge v0 vv) as [c w] eqn:M. simpl. split; [apply bt_insert_sorted; exact S|]. split; [|reflexivity].
      intro k. rewrite bt_get_kv_insert by exact S. rewrite G. unfold eqb. destruct (cmp k kv) eqn:E; try reflexivity.
      rewrite (bt_get_kv_compat _ _ m E), G. simpl. rewrite M. reflexivity.
    - split; [apply bt_insert_sorted; exact S|]. split; [|reflexivity].
      intro k. rewrite bt_get_kv_insert by exact S. rewrite G. unfold eqb. destruct (cmp k kv) eqn:E; try reflexivity.
      rewrite (bt_get_kv_compat _ _ m E), G. reflexivity.
  Qed.

  Lemma mm_exec_app m ops1 ops2 :
    mm_exec merge m (ops1 ++ ops2) =
    let '(c1, m1) := mm_exec merge m ops1 in let '(c2, m2) := mm_exec merge m1 ops2 in (c1 ++ c2, m2).
  Proof.
    revert m. induction ops1 as [|op ops1 IH]; intro m; simpl.
    - destruct (mm_exec merge m ops2). reflexivity.
    - destruct (mm_step merge m op) as [c m1]. rewrite IH. destruct (mm_exec merge m1 ops1) as [c1 m2].
      destruct (mm_exec merge m2 ops2). reflexivity.
  Qed.

  Lemma entry_of_snoc k h op : entry_of merge k (h ++ [op]) = entry_step merge k (entry_of merge k h) (op_value op).
  Proof. unfold entry_of. rewrite map_app, fold_left_app. reflexivity. Qed.

  Lemma mm_history ops :
    let '(cs, m) := mm_exec merge mm_new ops in
    msorted m /\ (forall k, mm_get_entry m k = entry_of merge k ops) /\
    length cs = length ops /\
    (forall h op r, ops = h ++ op :: r -> nth_error cs (length h) = Some (report merge h op)).
  Proof.
    induction ops as [|op ops IH] using rev_ind.
    - simpl. split; [constructor|]. split; [reflexivity|]. split; [reflexivity|]. intros [|] ? ?; discriminate.
    - rewrite mm_exec_app. destruct (mm_exec merge mm_new ops) as [cs m]. destruct IH as (S & G & L & Rp).
      simpl. rewrite mm_step_op. pose proof (mm_insert_ok m (op_value op) S) as (S' & G' & R').
      destruct (mm_insert merge m (op_value op)) as [c m']. simpl in *. split; [exact S'|]. split; [|split].
      + intro k. rewrite G', G, entry_of_snoc. reflexivity.
      + rewrite !app_length. simpl. lia.
      + intros h op' r E. destruct r as [|x r _] using rev_ind.
        * apply app_inj_tail in E. destruct E as [-> ->]. rewrite nth_error_app2 by lia. rewrite L, Nat.sub_diag. simpl.
          f_equal. rewrite R'. unfold report. rewrite G. reflexivity.
        * change (h ++ op' :: r ++ [x]) with (h ++ (op' :: r) ++ [x]) in E. rewrite app_assoc in E.
          apply app_inj_tail in E. destruct E as [E _]. specialize (Rp h op' r E).
          rewrite nth_error_app1; [exact Rp|]. apply nth_error_Some. congruence.
  Qed.
End MF.
