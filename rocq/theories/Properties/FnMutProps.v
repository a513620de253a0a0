(** C104: the calls [breadth_first_search] and [fixed_point] make to their function (src/utils.rs). *)
From Coq Require Import String List Arith Lia Sorted.
From Verif.Model Require Import Ord BTree Outcome Utils UtilsFnMut.
From Verif.Spec Require Import Reach UtilsSpec CallsSpec.
From Verif.Proofs Require Import OrdFacts BTreeFacts LoopFacts UtilsFacts UtilsMore FnMutFacts.
Import ListNotations.

Section Bfs.
  Context {T S : Type} `{OrdEq T}.
  Variable f : T -> S -> outcome (list T * S).

  (** C104.  [breadth_first_search] calls its function on the different initial items in increasing order, then on the items
      answered so far, in increasing order, then on those answered there for the first time, and so on; it returns the set
      of all answered items, and the function's state is that left by these calls. *)
  Theorem C104_bfs_calls (initial : list T) s r s' :
    runs_to (breadth_first_search_mut initial f s) (Ret (r, s')) <->
    exists first log, increasing first /\ (forall x, In x first <-> In x initial) /\ by_rounds [] first log /\ calls f log s s' /\
      increasing r /\ (forall y, In y r <-> answered log y).
  Proof.
    assert (P : forall y : T, In y [] <-> answered [] y) by (intro y; split; [intros []|intros (x & ys & [] & _)]).
    split.
    - intros [_ (n & R)]. specialize (R n (le_n n)). unfold breadth_first_search_mut in R.
      destruct (bfs_ret f n [] _ _ _ _ _ (@sorted_nil T _) P R) as (log & C & By & Sr & Q).
      exists (bs_of_list initial), log. split; [apply bs_of_list_sorted|]. split; [intro z; apply bs_of_list_In|]. auto.
    - intros (first & log & S1 & I1 & By & C & Sr & Q). assert (E : bs_of_list initial = first).
      { apply sorted_ext; [apply bs_of_list_sorted|exact S1|]. intro x. rewrite bs_of_list_In, I1. reflexivity. }
      subst first. destruct (bfs_calls f log [] _ [] s s' (@sorted_nil T _) P By C) as (n & r' & R).
      assert (r' = r).
      { destruct (bfs_ret f n [] _ _ _ _ _ (@sorted_nil T _) P R) as (log' & C' & By' & Sr' & Q').
        assert (log' = log).
        { clear -C C' By By' H0. remember (@nil (T * list T)) as past eqn:Ep. clear Ep. remember (bs_of_list initial) as items eqn:Ei. clear Ei. revert s log' C C' By'.
          induction By as [past|past round new log Ne Fa By IH]; intros s log' C C' By'.
          - inversion By' as [|round' ? ? Ne' ? ? Em]; [reflexivity|]. destruct round'; [congruence|discriminate].
          - inversion By' as [Em|round' new' log2 Ne' Fa' By2 Em]; subst; [destruct round; [congruence|discriminate]|].
            apply calls_app in C, C'. destruct C as (s1 & C1 & C2), C' as (s1' & C1' & C2').
            assert (X : round' = round /\ s1' = s1).
            { clear -Em C1 C1'. revert s round' Em C1 C1'. induction round as [|[a b] round IH]; intros s [|[a' b'] round'] Em C1 C1'; try discriminate.
              - inversion C1. inversion C1'. subst. auto.
              - simpl in Em. injection Em as -> Em. inversion C1 as [|? ? ? ? t ? E C]. inversion C1' as [|? ? ? ? t2 ? E2 C2]. subst. rewrite E in E2. injection E2 as -> ->.
                destruct (IH t2 round' Em C C2) as [-> ->]. auto. }
            destruct X as [-> ->]. assert (new' = new).
            { destruct Fa as [F1 F2], Fa' as [F1' F2']. apply sorted_ext; [exact F1'|exact F1|]. intro y. rewrite F2, F2'. reflexivity. }
            subst new'. rewrite (IH s1 log2 C2 C2' By2). reflexivity. }
        subst log'. apply sorted_ext; [exact Sr'|exact Sr|]. intro y. rewrite Q', Q. reflexivity. }
      subst r'. exact (runs_to_mono _ n _ (bfs_mut_mono f _ _ _) R ltac:(discriminate)).
  Qed.

  (** C104.  A panic of the function ends the search, and the search panics only so. *)
  Theorem C104_bfs_panics (initial : list T) s m :
    runs_to (breadth_first_search_mut initial f s) (Panic m) <->
    exists first log x s1, increasing first /\ (forall x, In x first <-> In x initial) /\ next_call [] first log x /\
      calls f log s s1 /\ f x s1 = Panic m.
  Proof.
    assert (P : forall y : T, In y [] <-> answered [] y) by (intro y; split; [intros []|intros (x & ys & [] & _)]).
    split.
    - intros [_ (n & R)]. specialize (R n (le_n n)). unfold breadth_first_search_mut in R.
      destruct (bfs_panic f n [] _ _ _ _ (@sorted_nil T _) P R) as (log & x & s1 & C & Nc & Pn).
      exists (bs_of_list initial), log, x, s1. split; [apply bs_of_list_sorted|]. split; [intro z; apply bs_of_list_In|]. auto.
    - intros (first & log & x & s1 & S1 & I1 & Nc & C & Pn). assert (E : bs_of_list initial = first).
      { apply sorted_ext; [apply bs_of_list_sorted|exact S1|]. intro z. rewrite bs_of_list_In, I1. reflexivity. }
      subst first. destruct (bfs_panics f log x [] _ [] s s1 m (@sorted_nil T _) P Nc C Pn) as (n & R).
      exact (runs_to_mono _ n _ (bfs_mut_mono f _ _ _) R ltac:(discriminate)).
  Qed.

  (** C104.  When the answers depend on the argument only, the function is called once for each different initial item and
      once more for each item reachable from them in one or more steps: an initial item that is reachable gets two calls. *)
  Theorem C104_bfs_called_once (next : T -> list T) (step : T -> S -> S) (initial : list T) s r s' :
    (forall x s, f x s = Ret (next x, step x s)) ->
    runs_to (breadth_first_search_mut initial f s) (Ret (r, s')) ->
    exists first rest, increasing first /\ (forall x, In x first <-> In x initial) /\
      NoDup rest /\ (forall y, In y rest <-> exists x, In x initial /\ plus (fun a b => In b (next a)) x y) /\
      s' = fold_left (fun s x => step x s) (first ++ rest) s.
  Proof.
    intros F R. apply C104_bfs_calls in R. destruct R as (first & log & S1 & I1 & By & C & Sr & Q).
    assert (An : forall x ys, In (x, ys) log -> ys = next x).
    { clear -C F. induction C as [|a b log s s1 s2 E C IH]; [intros x ys []|]. intros x ys [[= <- <-]|I]; [|exact (IH x ys I)]. rewrite F in E. congruence. }
    destruct (by_rounds_once f [] first log By) as (rest & E & Nd & Q1 & Q2).
    assert (A : forall y, answered log y <-> In y rest).
    { intro y. split; [|intro I; apply Q1; exact I]. intro I. destruct (Q2 y I) as [(x & ys & [] & _)|J]. exact J. }
    exists first, rest. split; [exact S1|]. split; [exact I1|]. split; [exact Nd|]. split.
    - intro y. rewrite <- A. split.
      + apply (by_rounds_reach f [] first log next initial By An). intros x I. left. apply I1. exact I.
      + intros (x & I & Px). apply (log_closed log next initial An) with (z := x); auto; intro z; rewrite E, in_app_iff; [rewrite I1; auto|rewrite A; auto].
    - rewrite <- E. clear -C F. induction C as [|a b log s s1 s2 E C IH]; [reflexivity|]. simpl. rewrite F in E. injection E as _ <-. exact IH.
  Qed.
End Bfs.

Section Fix.
  Context {T S : Type}.
  Variable eq : T -> T -> bool.
  Variable f : T -> S -> outcome (T * S).

  (** C104.  [fixed_point] calls its function on the start value, then on each answer, until an answer equals its argument,
      which it returns. *)
  Theorem C104_fixed_point_calls x s x' s' :
    runs_to (fun n => fixed_point_mut eq f n x s) (Ret (x', s')) <->
    exists before y, calls f (before ++ [(x', y)]) s s' /\ linked x (before ++ [(x', y)]) /\
      (forall a b, In (a, b) before -> eq b a = false) /\ eq y x' = true.
  Proof.
    split.
    - intros [_ (n & R)]. specialize (R n (le_n n)). exact (fixed_point_mut_ret eq f n x s x' s' R).
    - intros (l & y & C & Li & Ne & Q). split; [discriminate|]. exists (Datatypes.S (length l)). intros n L. apply (fixed_point_mut_calls eq f l y); auto.
  Qed.
  Theorem C104_fixed_point_panics x s m :
    runs_to (fun n => fixed_point_mut eq f n x s) (Panic m) <->
    exists before s1, calls f before s s1 /\ linked x before /\ (forall a b, In (a, b) before -> eq b a = false) /\
      f (last (map snd before) x) s1 = Panic m.
  Proof.
    split.
    - intros [_ (n & R)]. specialize (R n (le_n n)). destruct (fixed_point_mut_panic eq f n x s m R) as (l & x1 & s1 & C & Li & -> & Ne & P). eauto 6.
    - intros (l & s1 & C & Li & Ne & P). split; [discriminate|]. exists (Datatypes.S (length l)). intros n L. apply (fixed_point_mut_panics eq f l x s s1 m); auto.
  Qed.
End Fix.

(** The functions of Model/Utils.v, on which C22, C23 and the reachability check of [build] rest, are these with a function
    that has no state. *)
Theorem C104_bfs_stateless {T S} `{OrdEq T} (f : T -> outcome (list T)) (initial : list T) (s : S) n :
  breadth_first_search_mut initial (fun x s => l <- f x ;; Ret (l, s)) s n = (r <- breadth_first_search initial f n ;; Ret (r, s)).
Proof.
  unfold breadth_first_search_mut, breadth_first_search. generalize (bs_of_list initial) at 1 2. generalize (@nil T) at 1 2.
  assert (R : forall curr acc, bfs_round_mut (fun x (s : S) => l <- f x ;; Ret (l, s)) curr acc s = (r <- bfs_round f curr acc ;; Ret (r, s))).
  { induction curr as [|c curr IH]; intro acc; cbn [bfs_round_mut bfs_round]; [reflexivity|]. destruct (f c); cbn [obind]; [apply IH|reflexivity|reflexivity]. }
  induction n as [|n IH]; intros seen curr; [reflexivity|]. cbn [bfs_loop_mut bfs_loop]. destruct curr as [|c curr]; [reflexivity|].
  rewrite R. unfold btset in *. destruct (bfs_round f (c :: curr) ([], seen)) as [[a b]| |]; cbn [obind]; [apply IH|reflexivity|reflexivity].
Qed.
Theorem C104_fixed_point_stateless {T S} (eq : T -> T -> bool) (f : T -> T) (x : T) (s : S) n :
  fixed_point_mut eq (fun x s => Ret (f x, s)) n x s = (r <- fixed_point eq f n x ;; Ret (r, s)).
Proof.
  revert x. induction n as [|n IH]; intro x; [reflexivity|]. cbn [fixed_point_mut fixed_point obind]. destruct (eq (f x) x); [reflexivity|apply IH].
Qed.

(** A search that writes them down: 1 and 3 first (3 once, though given twice), then 2, 3 (again) and 1
    (again); a function that panics at its third call; and a fixed point. *)
Example C104_example :
  let f x (s : list nat) := Ret (match x with 1 => [2; 3] | 2 => [3; 1] | _ => [] end, s ++ [x]) in
  runs_to (breadth_first_search_mut [3; 1; 3] f []) (Ret ([1; 2; 3], [1; 3; 2; 3; 1])) /\
  runs_to (breadth_first_search_mut [3; 1] (fun x s => if Nat.ltb (List.length s) 2 then f x s else Panic "stop"%string) []) (Panic "stop"%string) /\
  runs_to (fun n => fixed_point_mut Nat.eqb (fun x s => Ret (Nat.min 3 (x + 2), s ++ [x])) n 0 []) (Ret (3, [0; 2; 3])).
Proof.
  cbv zeta. split; [|split].
  - apply (runs_to_mono _ 9); [apply bfs_mut_mono|vm_compute; reflexivity|discriminate].
  - apply (runs_to_mono _ 9); [apply bfs_mut_mono|vm_compute; reflexivity|discriminate].
  - apply (runs_to_mono _ 9); [apply fixed_point_mut_mono|vm_compute; reflexivity|discriminate].
Qed.

Print Assumptions C104_bfs_calls.
Print Assumptions C104_bfs_panics.
Print Assumptions C104_bfs_called_once.
Print Assumptions C104_fixed_point_calls.
Print Assumptions C104_fixed_point_panics.
Print Assumptions C104_bfs_stateless.
Print Assumptions C104_fixed_point_stateless.
