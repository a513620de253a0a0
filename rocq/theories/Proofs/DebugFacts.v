(** Debug texts can be read in one way only. *)
From Coq Require Import String Ascii List Arith Bool Lia DecimalString.
From Verif.Model Require Import Ord BTree Outcome Utils Grammar StartGrammar Nullable NonNull State Earley DotText Debug.
From Verif.Spec Require Import Cfg BuildSpec NullSpec DebugSpec.
From Verif.Proofs Require Import OrdFacts BTreeFacts GrammarFacts BuildMore DotTextFacts.
Import ListNotations.
Local Open Scope string_scope.

Lemma sapp_assoc (a b c : string) : (a ++ b) ++ c = a ++ (b ++ c).
Proof. induction a as [|x a IH]; cbn; [reflexivity|now rewrite IH]. Qed.
Lemma sapp_nil (a : string) : a ++ "" = a.
Proof. induction a as [|x a IH]; cbn; [reflexivity|now rewrite IH]. Qed.

(** ** Tokens *)
Inductive token := Word (s : string) | Sym (c : ascii).
Definition word (w : string) : list token := if String.eqb w "" then [] else [Word w].
Fixpoint lex_from (w s : string) : list token :=
  match s with
  | "" => word w
  | String c s =>
    if dbg_space c then word w ++ lex_from "" s
    else if dbg_punct c then word w ++ Sym c :: lex_from "" s
    else lex_from (w ++ String c "") s
  end%list.
Definition lex (s : string) : list token := lex_from "" s.

Definition sep_start (s : string) : Prop :=
  match s with "" => True | String c _ => dbg_space c || dbg_punct c = true end.

Lemma lex_from_sep w k : sep_start k -> lex_from w k = (word w ++ lex k)%list.
Proof.
  destruct k as [|c k]; cbn [sep_start]; [intros _; unfold lex; cbn; rewrite app_nil_r; reflexivity|].
  intro S. unfold lex. cbn [lex_from]. destruct (dbg_space c); [reflexivity|]. simpl in S. rewrite S. reflexivity.
Qed.
Lemma lex_no_sep s k : no_sep s = true -> sep_start k -> forall w, lex_from w (s ++ k) = (word (w ++ s) ++ lex k)%list.
Proof.
  intros N Sk. induction s as [|c s IH]; intro w; cbn [append].
  - rewrite sapp_nil. apply lex_from_sep. exact Sk.
  - simpl in N. apply andb_prop in N. destruct N as [N1 N2]. apply negb_true_iff, orb_false_iff in N1. destruct N1 as [N1 N3].
    cbn [lex_from]. rewrite N1, N3, (IH N2), sapp_assoc. reflexivity.
Qed.
Lemma lex_word n k : is_word n -> sep_start k -> lex (n ++ k) = Word n :: lex k.
Proof.
  intros [Ne N] Sk. unfold lex at 1. rewrite (lex_no_sep n k N Sk). cbn [append]. unfold word.
  destruct (String.eqb_spec n ""); [contradiction|reflexivity].
Qed.

Lemma lex_pad s k : forall b w, (b = true -> w = "") -> lex_from w (pad b s ++ k) = lex_from w (s ++ k).
Proof.
  induction s as [|c s IH]; intros b w B; [reflexivity|]. cbn [pad].
  assert (X : lex_from w (String c (pad (Ascii.eqb c "010") s) ++ k) = lex_from w (String c s ++ k)).
  { cbn [append lex_from]. destruct (dbg_space c) eqn:Sc; [f_equal; apply IH; reflexivity|].
    assert (E : Ascii.eqb c "010" = false) by (unfold dbg_space in Sc; apply orb_false_iff in Sc; apply Sc). rewrite E.
    destruct (dbg_punct c); [do 2 f_equal; apply IH; discriminate|apply IH; discriminate]. }
  destruct b; [|exact X]. rewrite (B eq_refl) in *. rewrite <- X. reflexivity.
Qed.
Lemma lex_pad0 s k : lex (pad true s ++ k) = lex (s ++ k).
Proof. apply lex_pad. reflexivity. Qed.

(** ** Trees *)
Inductive dtree :=
| DAtom (s : string)
| DStruct (n : string) (fs : list (string * dtree))
| DTuple (n : string) (xs : list dtree)
| DList (xs : list dtree)
| DSet (xs : list dtree)
| DAngle (t : dtree)
| DNamed (n : string) (t : dtree).
Definition named (ft : string * dtree) : dtree := DNamed (fst ft) (snd ft).

Inductive spelled : dtree -> list token -> Prop :=
| sp_atom s : spelled (DAtom s) [Word s]
| sp_struct n fs us : items "}" (map named fs) us -> spelled (DStruct n fs) (Word n :: Sym "{" :: us)
| sp_tuple n xs us : items ")" xs us -> spelled (DTuple n xs) (Word n :: Sym "(" :: us)
| sp_list xs us : items "]" xs us -> spelled (DList xs) (Sym "[" :: us)
| sp_set xs us : items "}" xs us -> spelled (DSet xs) (Sym "{" :: us)
| sp_angle t ts : spelled t ts -> spelled (DAngle t) (Sym "<" :: ts ++ [Sym ">"])
| sp_named n t ts : spelled t ts -> spelled (DNamed n t) (Word n :: Sym ":" :: ts)
with items : ascii -> list dtree -> list token -> Prop :=
| it_nil c : items c [] [Sym c]
| it_last c t ts : spelled t ts -> items c [t] (ts ++ [Sym c])
| it_cons c t ts xs us : spelled t ts -> items c xs us -> items c (t :: xs) (ts ++ Sym "," :: us).

Definition closer (c : ascii) : Prop := In c ["}"; ")"; "]"; ">"]%char.
Definition stops (k : list token) : Prop :=
  match k with [] => True | Sym c :: _ => c = ","%char \/ closer c | Word _ :: _ => False end.

Lemma spelled_first t ts : spelled t ts -> exists x ts', ts = x :: ts' /\
  match x with Word _ => True | Sym c => c = "["%char \/ c = "{"%char \/ c = "<"%char end.
Proof. intro S. inversion S; subst; eexists; eexists; (split; [reflexivity|]); simpl; auto. Qed.
Lemma named_inj l l' : map named l = map named l' -> l = l'.
Proof.
  revert l'. induction l as [|[f t] l IH]; intros [|[f' t'] l'] E; try discriminate; [reflexivity|].
  simpl in E. injection E as -> -> E. rewrite (IH _ E). reflexivity.
Qed.

Lemma uniq n :
  (forall t t' ts ts' k k', length ts <= n -> spelled t ts -> spelled t' ts' -> stops k -> stops k' ->
     (ts ++ k = ts' ++ k' -> t = t' /\ k = k')%list) /\
  (forall c xs xs' us us' k k', closer c -> length us <= n -> items c xs us -> items c xs' us' ->
     (us ++ k = us' ++ k' -> xs = xs' /\ k = k')%list).
Proof.
  induction n as [|n IH].
  { split.
    - intros t t' ts ts' k k' L S. destruct (spelled_first _ _ S) as (x & ts0 & -> & _). simpl in L. lia.
    - intros c xs xs' us us' k k' _ L I. inversion I; subst; try (rewrite app_length in L); simpl in L; lia. }
  destruct IH as [IH1 IH2].
  assert (One : forall t t' ts ts' k k', length ts <= S n -> spelled t ts -> spelled t' ts' -> stops k -> stops k' ->
     (ts ++ k = ts' ++ k' -> t = t' /\ k = k')%list).
  { intros t t' ts ts' k k' L S0 S1 K K' E.
    inversion S0; subst; inversion S1; subst; cbn [app] in E; simpl in L;
      try discriminate E;
      try (injection E as -> ->; simpl in K; destruct K as [K|K]; [discriminate|unfold closer in K; simpl in K; intuition discriminate]);
      try (injection E as <- <-; simpl in K'; destruct K' as [K'|K']; [discriminate|unfold closer in K'; simpl in K'; intuition discriminate]).
    - injection E as -> ->. auto.
    - injection E as -> E. assert (L' : List.length us <= n) by lia. match goal with I1 : items _ _ us, I2 : items _ _ us0 |- _ =>
        destruct (IH2 "}"%char _ _ _ _ k k' ltac:(unfold closer; simpl; auto) L' I1 I2 E) as [E1 ->] end.
      apply named_inj in E1. subst. auto.
    - injection E as -> E. assert (L' : List.length us <= n) by lia. match goal with I1 : items _ _ us, I2 : items _ _ us0 |- _ =>
        destruct (IH2 ")"%char _ _ _ _ k k' ltac:(unfold closer; simpl; auto) L' I1 I2 E) as [-> ->] end. auto.
    - injection E as E. assert (L' : List.length us <= n) by lia. match goal with I1 : items _ _ us, I2 : items _ _ us0 |- _ =>
        destruct (IH2 "]"%char _ _ _ _ k k' ltac:(unfold closer; simpl; auto) L' I1 I2 E) as [-> ->] end. auto.
    - injection E as E. assert (L' : List.length us <= n) by lia. match goal with I1 : items _ _ us, I2 : items _ _ us0 |- _ =>
        destruct (IH2 "}"%char _ _ _ _ k k' ltac:(unfold closer; simpl; auto) L' I1 I2 E) as [-> ->] end. auto.
    - injection E as E. rewrite <- !app_assoc in E. rewrite app_length in L. simpl in L.
      assert (L' : List.length ts0 <= n) by lia. match goal with I1 : spelled _ ts0, I2 : spelled _ ts |- _ =>
      destruct (IH1 _ _ _ _ (Sym ">"%char :: k) (Sym ">"%char :: k') L' I1 I2
        ltac:(simpl; unfold closer; simpl; auto 9) ltac:(simpl; unfold closer; simpl; auto 9) E) as [-> E'] end. injection E' as ->. auto.
    - injection E as -> E. assert (L' : List.length ts0 <= n) by lia. match goal with I1 : spelled _ ts0, I2 : spelled _ ts |- _ =>
        destruct (IH1 _ _ _ _ k k' L' I1 I2 K K' E) as [-> ->] end. auto. }
  split; [exact One|].
  intros c xs xs' us us' k k' Cc L I I' E.
  assert (Sc : forall r, stops (Sym c :: r)) by (intro r; simpl; auto).
  assert (Sm : forall r, stops (Sym ","%char :: r)) by (intro r; simpl; auto).
  assert (Nc : c <> ","%char) by (intros ->; unfold closer in Cc; simpl in Cc; intuition discriminate).
  assert (Nf : forall t ts r r', spelled t ts -> Sym c :: r = (ts ++ r')%list -> False).
  { intros t ts r r' S0 Q. destruct (spelled_first _ _ S0) as (x & ts0 & -> & X). simpl in Q. injection Q as <- _.
    unfold closer in Cc. simpl in *. intuition congruence. }
  inversion I; subst; inversion I'; subst; rewrite <- ?app_assoc in E; cbn [app] in E; rewrite ?app_length in L; simpl in L.
  - injection E as E. auto.
  - exfalso. eapply Nf; [|exact E]. eassumption.
  - exfalso. eapply Nf; [|exact E]. eassumption.
  - exfalso. symmetry in E. eapply Nf; [|exact E]. eassumption.
  - assert (L' : List.length ts <= S n) by lia.
    match goal with I1 : spelled _ ts, I2 : spelled _ ts0 |- _ => destruct (One _ _ _ _ _ _ L' I1 I2 (Sc _) (Sc _) E) as [-> E'] end.
    injection E' as ->. auto.
  - assert (L' : List.length ts <= S n) by lia.
    match goal with I1 : spelled _ ts, I2 : spelled _ ts0 |- _ => destruct (One _ _ _ _ _ _ L' I1 I2 (Sc _) (Sm _) E) as [_ E'] end.
    injection E' as E' _. contradiction.
  - exfalso. symmetry in E. eapply Nf; [|exact E]. eassumption.
  - assert (L' : List.length ts <= S n) by lia.
    match goal with I1 : spelled _ ts, I2 : spelled _ ts0 |- _ => destruct (One _ _ _ _ _ _ L' I1 I2 (Sm _) (Sc _) E) as [_ E'] end.
    injection E' as E' _. congruence.
  - assert (L' : List.length ts <= S n) by lia. assert (L2 : List.length us0 <= n) by lia.
    match goal with I1 : spelled _ ts, I2 : spelled _ ts0 |- _ => destruct (One _ _ _ _ _ _ L' I1 I2 (Sm _) (Sm _) E) as [-> E'] end.
    injection E' as E'.
    match goal with I1 : items _ _ us0, I2 : items _ _ us |- _ => destruct (IH2 c _ _ _ _ k k' Cc L2 I1 I2 E') as [-> ->] end. auto.
Qed.

(** ** Texts *)

(** The text [f], in both styles, spells [t]. *)
Definition shows (f : bool -> string) (t : dtree) : Prop :=
  forall a, exists ts, spelled t ts /\ forall k, sep_start k -> lex (f a ++ k) = (ts ++ lex k)%list.

Lemma shows_uniq f f' t t' a a' : shows f t -> shows f' t' -> f a = f' a' -> t = t'.
Proof.
  intros S S' E. destruct (S a) as (ts & Sp & L). destruct (S' a') as (ts' & Sp' & L').
  specialize (L "" I). specialize (L' "" I). rewrite E, L' in L.
  apply (proj1 (uniq (length ts)) t t' ts ts' [] [] (le_n _) Sp Sp' I I). symmetry. exact L.
Qed.
Lemma shows_ext f f' t : (forall a, f a = f' a) -> shows f t -> shows f' t.
Proof. intros E S a. destruct (S a) as (ts & Sp & L). exists ts. split; [exact Sp|]. rewrite <- E. exact L. Qed.

Lemma shows_word s : is_word s -> shows (fun _ => s) (DAtom s).
Proof. intros W a. exists [Word s]. split; [constructor|]. intros k K. exact (lex_word s k W K). Qed.
Lemma shows_const f t : shows f t -> shows (fun _ => f false) t.
Proof. intros S a. exact (S false). Qed.
Lemma lex_sym c k : dbg_space c = false -> dbg_punct c = true -> lex (String c k) = Sym c :: lex k.
Proof. intros E1 E2. unfold lex at 1. cbn [lex_from]. rewrite E1, E2. reflexivity. Qed.
Lemma lex_blank c k : dbg_space c = true -> lex (String c k) = lex k.
Proof. intros E1. unfold lex at 1. cbn [lex_from]. rewrite E1. reflexivity. Qed.

Lemma shows_angle f t : shows f t -> shows (fun a => "<" ++ f a ++ ">") (DAngle t).
Proof.
  intros S a. destruct (S a) as (ts & Sp & L). exists (Sym "<" :: ts ++ [Sym ">"])%list. split; [constructor; exact Sp|].
  intros k K. cbn [append]. rewrite lex_sym, sapp_assoc, L by reflexivity. cbn [append]. rewrite lex_sym by reflexivity.
  cbn [app]. rewrite <- app_assoc. reflexivity.
Qed.
Lemma shows_named n f t : is_word n -> shows f t -> shows (fun a => (n ++ ":") ++ f a) (DNamed n t).
Proof.
  intros W S a. destruct (S a) as (ts & Sp & L). exists (Word n :: Sym ":" :: ts). split; [constructor; exact Sp|].
  intros k K. rewrite !sapp_assoc. rewrite lex_word by (exact W || reflexivity). cbn [append]. rewrite lex_sym, L by (reflexivity || exact K). reflexivity.
Qed.
Lemma shows_entry n f t : is_word n -> shows f t -> shows (fun a => n ++ ": " ++ f a) (DNamed n t).
Proof.
  intros W S a. destruct (S a) as (ts & Sp & L). exists (Word n :: Sym ":" :: ts). split; [constructor; exact Sp|].
  intros k K. rewrite !sapp_assoc. rewrite lex_word by (exact W || reflexivity). cbn [append].
  rewrite lex_sym, lex_blank, L by (reflexivity || exact K). reflexivity.
Qed.

(** Items of a list or set, after the opening bracket. *)
Lemma shows_items c xs ts a : dbg_space c = false -> dbg_punct c = true -> Forall2 shows xs ts ->
  forall h, (h = true -> xs = [] -> a = true) ->
  exists us, items c ts us /\ forall k,
    lex (items_text a h (String c "") (map (fun f => f a) xs) ++ k) =
    ((if h && negb a then [Sym ","] else []) ++ us ++ lex k)%list.
Proof.
  intros C1 C2 F. induction F as [|f t xs ts S F IH]; intros h Hh.
  - exists [Sym c]. split; [constructor|]. intro k. simpl. rewrite lex_sym by assumption.
    destruct h; [rewrite (Hh eq_refl eq_refl)|]; reflexivity.
  - destruct (S a) as (us1 & Sp & L). cbn [map items_text].
    destruct a.
    + destruct (IH true (fun _ _ => eq_refl)) as (us & I & Lu). exists (us1 ++ Sym "," :: us)%list. split; [constructor; assumption|].
      intro k. rewrite andb_false_r. cbn [app].
      assert (X : lex (pad true (f true ++ "," ++ nl) ++ items_text true true (String c "") (map (fun f => f true) xs) ++ k) = (us1 ++ Sym ","%char :: us ++ lex k)%list).
      { rewrite lex_pad0, !sapp_assoc, L by reflexivity. cbn [append]. unfold nl. cbn [append]. rewrite lex_sym, lex_blank, Lu by reflexivity. reflexivity. }
      rewrite <- app_assoc. cbn [app]. destruct h; rewrite !sapp_assoc; [exact X|]. unfold nl at 1. cbn [append]. rewrite lex_blank by reflexivity. exact X.
    + destruct xs as [|g xs].
      * inversion F; subst. exists (us1 ++ [Sym c])%list. split; [constructor; assumption|]. intro k. cbn [map items_text].
        assert (X : lex ((f false) ++ String c "" ++ k) = ((us1 ++ [Sym c]) ++ lex k)%list).
        { rewrite L by (cbn [append sep_start]; rewrite C2; apply orb_true_r). cbn [append]. rewrite lex_sym, <- app_assoc by assumption. reflexivity. }
        destruct h; rewrite !sapp_assoc; cbn [andb negb app append]; [|exact X].
        rewrite lex_sym, lex_blank by reflexivity. f_equal. exact X.
      * destruct (IH true ltac:(discriminate)) as (us & I & Lu). exists (us1 ++ Sym "," :: us)%list. split; [constructor; assumption|].
        intro k. cbn [map]. cbn [map] in Lu. cbn [andb negb] in Lu.
        assert (X : lex ((f false) ++ items_text false true (String c "") (g false :: map (fun f => f false) xs) ++ k) = ((us1 ++ Sym ","%char :: us) ++ lex k)%list).
        { rewrite L by reflexivity. rewrite Lu, <- app_assoc. reflexivity. }
        destruct h; rewrite !sapp_assoc; cbn [andb negb app append]; [|exact X].
        rewrite lex_sym, lex_blank by reflexivity. f_equal. exact X.
Qed.

Lemma shows_list xs ts : Forall2 shows xs ts -> shows (fun a => "[" ++ items_text a false "]" (map (fun f => f a) xs)) (DList ts).
Proof.
  intros F a. destruct (shows_items "]" xs ts a eq_refl eq_refl F false ltac:(discriminate)) as (us & I & L).
  exists (Sym "["%char :: us). split; [constructor; exact I|]. intros k _. cbn [append]. rewrite lex_sym, L by reflexivity. reflexivity.
Qed.
Lemma shows_set xs ts : Forall2 shows xs ts -> shows (fun a => "{" ++ items_text a false "}" (map (fun f => f a) xs)) (DSet ts).
Proof.
  intros F a. destruct (shows_items "}" xs ts a eq_refl eq_refl F false ltac:(discriminate)) as (us & I & L).
  exists (Sym "{"%char :: us). split; [constructor; exact I|]. intros k _. cbn [append]. rewrite lex_sym, L by reflexivity. reflexivity.
Qed.

(** Fields of a struct. *)
Lemma shows_fields fs (gs : list (string * dtree)) a :
  Forall2 (fun (f : string * (bool -> string)) g => is_word (fst f) /\ fst f = fst g /\ shows (snd f) (snd g)) fs gs ->
  forall h, (fs = [] -> h = true /\ a = true) ->
  exists us, items "}" (map named gs) us /\ forall k,
    lex (struct_text a h (map (fun fv => (fst fv, snd fv a)) fs) ++ k) =
    ((if h then if a then [] else [Sym ","] else [Sym "{"]) ++ us ++ lex k)%list.
Proof.
  intros F. induction F as [|[n f] [n' t] fs gs (W & En & Sf) F IH]; intros h Hh.
  - destruct (Hh eq_refl) as [-> ->]. exists [Sym "}"%char]. split; [constructor|]. intro k. reflexivity.
  - cbn [fst snd] in W, En, Sf. subst n'.
    destruct (shows_entry n f t W Sf a) as (us1 & Sp & L). cbn [map struct_text fst snd].
    assert (Sp' : spelled (named (n, t)) us1) by exact Sp.
    destruct a.
    + destruct (IH true (fun _ => conj eq_refl eq_refl)) as (us & I & Lu). exists (us1 ++ Sym "," :: us)%list. split; [constructor; assumption|].
      intro k.
      assert (X : lex (pad true (n ++ ": " ++ f true ++ "," ++ nl) ++ struct_text true true (map (fun fv => (fst fv, snd fv true)) fs) ++ k) = (us1 ++ Sym ","%char :: us ++ lex k)%list).
      { rewrite lex_pad0. replace (n ++ ": " ++ f true ++ "," ++ nl) with ((n ++ ": " ++ f true) ++ "," ++ nl) by now rewrite !sapp_assoc.
        rewrite (sapp_assoc _ ("," ++ nl)), L by reflexivity. unfold nl. cbn [append]. rewrite lex_sym, lex_blank, Lu by reflexivity. reflexivity. }
      rewrite <- app_assoc. cbn [app]. destruct h; rewrite !sapp_assoc; [exact X|]. unfold nl at 1. cbn [append].
      rewrite lex_blank, lex_sym, lex_blank by reflexivity. cbn [app]. f_equal. exact X.
    + destruct fs as [|g fs].
      * inversion F; subst. exists (us1 ++ [Sym "}"%char])%list. split; [constructor; assumption|]. intro k. cbn [map struct_text].
        assert (X : lex ((n ++ ": " ++ f false) ++ " }" ++ k) = ((us1 ++ [Sym "}"%char]) ++ lex k)%list).
        { rewrite L by reflexivity. cbn [append]. rewrite lex_blank, lex_sym, <- app_assoc by reflexivity. reflexivity. }
        rewrite !sapp_assoc in X. destruct h; rewrite !sapp_assoc; cbn [app append].
        { rewrite lex_sym, lex_blank by reflexivity. f_equal. exact X. }
        { rewrite lex_blank, lex_sym, lex_blank by reflexivity. f_equal. exact X. }
      * destruct (IH true ltac:(discriminate)) as (us & I & Lu). exists (us1 ++ Sym "," :: us)%list. split; [constructor; assumption|].
        intro k. set (R := struct_text _ _ _) in *.
        assert (X : lex ((n ++ ": " ++ f false) ++ R ++ k) = ((us1 ++ Sym ","%char :: us) ++ lex k)%list).
        { rewrite L by reflexivity. rewrite Lu, <- app_assoc. reflexivity. }
        rewrite !sapp_assoc in X. destruct h; rewrite !sapp_assoc; cbn [app append].
        { rewrite lex_sym, lex_blank by reflexivity. f_equal. exact X. }
        { rewrite lex_blank, lex_sym, lex_blank by reflexivity. f_equal. exact X. }
Qed.
Lemma shows_struct n fs gs : is_word n -> fs <> [] ->
  Forall2 (fun (f : string * (bool -> string)) g => is_word (fst f) /\ fst f = fst g /\ shows (snd f) (snd g)) fs gs ->
  shows (fun a => n ++ struct_text a false (map (fun fv => (fst fv, snd fv a)) fs)) (DStruct n gs).
Proof.
  intros W Ne F a. destruct (shows_fields fs gs a F false ltac:(intro; contradiction)) as (us & I & L).
  exists (Word n :: Sym "{"%char :: us). split; [constructor; exact I|]. intros k _. rewrite sapp_assoc, lex_word.
  - rewrite L. reflexivity.
  - exact W.
  - destruct fs; [contradiction|]. cbn [map struct_text]. destruct a; reflexivity.
Qed.

Lemma shows_tuple_items xs ts a : Forall2 shows xs ts ->
  forall m, (xs = [] -> m <> 0 /\ a = true) ->
  exists us, items ")" ts us /\ forall k,
    lex (tuple_text a false m (map (fun f => f a) xs) ++ k) =
    ((if Nat.eqb m 0 then [Sym "("] else if a then [] else [Sym ","]) ++ us ++ lex k)%list.
Proof.
  intros F. induction F as [|f t xs ts Sf F IH]; intros m Hm.
  - destruct (Hm eq_refl) as [M ->]. exists [Sym ")"%char]. split; [constructor|]. intro k. destruct m; [contradiction|].
    cbn [map tuple_text Nat.eqb]. rewrite andb_false_r. reflexivity.
  - destruct (Sf a) as (us1 & Sp & L). cbn [map tuple_text].
    destruct a.
    + destruct (IH (S m) ltac:(split; [discriminate|reflexivity])) as (us & I & Lu). cbn [Nat.eqb app] in Lu.
      exists (us1 ++ Sym "," :: us)%list. split; [constructor; assumption|]. intro k. set (R := tuple_text _ _ _ _) in *.
      assert (X : lex (pad true (f true ++ "," ++ nl) ++ R ++ k) = (us1 ++ Sym ","%char :: us ++ lex k)%list).
      { rewrite lex_pad0, !sapp_assoc, L by reflexivity. unfold nl. cbn [append]. rewrite lex_sym, lex_blank, Lu by reflexivity. reflexivity. }
      rewrite <- app_assoc. cbn [app]. destruct (Nat.eqb m 0); rewrite !sapp_assoc; [|exact X]. unfold nl at 1. cbn [append].
      rewrite lex_sym, lex_blank by reflexivity. cbn [app]. f_equal. exact X.
    + destruct xs as [|g xs].
      * inversion F; subst. exists (us1 ++ [Sym ")"%char])%list. split; [constructor; assumption|]. intro k.
        assert (X : lex (f false ++ ")" ++ k) = ((us1 ++ [Sym ")"%char]) ++ lex k)%list).
        { rewrite L by reflexivity. cbn [append]. rewrite lex_sym, <- app_assoc by reflexivity. reflexivity. }
        cbn [map tuple_text]. rewrite andb_false_r. destruct (Nat.eqb m 0) eqn:M; cbn [andb Nat.eqb]; rewrite !sapp_assoc; cbn [app append].
        { rewrite lex_sym by reflexivity. f_equal. exact X. }
        { rewrite lex_sym, lex_blank by reflexivity. f_equal. exact X. }
      * destruct (IH (S m) ltac:(discriminate)) as (us & I & Lu). cbn [Nat.eqb] in Lu.
        exists (us1 ++ Sym "," :: us)%list. split; [constructor; assumption|]. intro k. set (R := tuple_text _ _ _ _) in *.
        assert (X : lex (f false ++ R ++ k) = ((us1 ++ Sym ","%char :: us) ++ lex k)%list).
        { rewrite L by reflexivity. rewrite Lu, <- app_assoc. reflexivity. }
        destruct (Nat.eqb m 0); rewrite !sapp_assoc; cbn [app append].
        { rewrite lex_sym by reflexivity. f_equal. exact X. }
        { rewrite lex_sym, lex_blank by reflexivity. f_equal. exact X. }
Qed.
Lemma shows_tuple n xs ts : is_word n -> xs <> [] -> Forall2 shows xs ts ->
  shows (fun a => n ++ tuple_text a (String.eqb n "") 0 (map (fun f => f a) xs)) (DTuple n ts).
Proof.
  intros W Ne F a. destruct (String.eqb_spec n "") as [E|_]; [destruct W; contradiction|].
  destruct (shows_tuple_items xs ts a F 0 ltac:(intro; contradiction)) as (us & I & L).
  exists (Word n :: Sym "("%char :: us). split; [constructor; exact I|]. intros k _. rewrite sapp_assoc, lex_word.
  - rewrite L. reflexivity.
  - exact W.
  - destruct xs; [contradiction|]. cbn [map tuple_text]. destruct a; reflexivity.
Qed.

(** ** Derived implementations *)
Section FInd.
  Variable P : fcall -> Prop.
  Hypothesis HStr : forall s, P (FStr s).
  Hypothesis HSeq : forall a b, P a -> P b -> P (FSeq a b).
  Hypothesis HStruct : forall n fs, Forall (fun fc => P (snd fc)) fs -> P (FStruct n fs).
  Hypothesis HTuple : forall n xs, Forall P xs -> P (FTuple n xs).
  Hypothesis HList : forall xs, Forall P xs -> P (FList xs).
  Hypothesis HSet : forall xs, Forall P xs -> P (FSet xs).
  Hypothesis HMap : forall es, Forall (fun kv => P (fst kv) /\ P (snd kv)) es -> P (FMap es).
  Fixpoint fcall_ind' (c : fcall) : P c :=
    let all := fix all (xs : list fcall) : Forall P xs :=
      match xs with [] => Forall_nil _ | x :: xs => Forall_cons _ (fcall_ind' x) (all xs) end in
    match c with
    | FStr s => HStr s
    | FSeq a b => HSeq a b (fcall_ind' a) (fcall_ind' b)
    | FStruct n fs => HStruct n fs ((fix go (fs : list (string * fcall)) : Forall (fun fc => P (snd fc)) fs :=
        match fs with [] => Forall_nil _ | x :: fs => Forall_cons _ (fcall_ind' (snd x)) (go fs) end) fs)
    | FTuple n xs => HTuple n xs (all xs)
    | FList xs => HList xs (all xs)
    | FSet xs => HSet xs (all xs)
    | FMap es => HMap es ((fix go (es : list (fcall * fcall)) : Forall (fun kv => P (fst kv) /\ P (snd kv)) es :=
        match es with [] => Forall_nil _ | x :: es => Forall_cons _ (conj (fcall_ind' (fst x)) (fcall_ind' (snd x))) (go es) end) es)
    end.
End FInd.

Fixpoint tree_of (c : fcall) : dtree :=
  match c with
  | FStr s => DAtom s
  | FStruct n fs => DStruct n (map (fun fv => (fst fv, tree_of (snd fv))) fs)
  | FTuple n xs => DTuple n (map tree_of xs)
  | FList xs => DList (map tree_of xs)
  | FSet xs => DSet (map tree_of xs)
  | FSeq _ _ | FMap _ => DAtom ""
  end.
Definition style (c : fcall) : bool -> string := fun a => fmt a c.

Lemma map_style a xs : map (fmt a) xs = map (fun f => f a) (map style xs).
Proof. rewrite map_map. reflexivity. Qed.

Lemma derived_items xs : Forall derived xs -> Forall (fun c => derived c -> shows (style c) (tree_of c)) xs ->
  Forall2 shows (map style xs) (map tree_of xs).
Proof. intros D F. induction F; inversion D; subst; constructor; auto. Qed.
Lemma derived_shows c : derived c -> shows (style c) (tree_of c).
Proof.
  induction c as [s|a b _ _|n fs IH|n xs IH|xs IH|xs IH|es _] using fcall_ind'; intro D; inversion D; subst.
  - now apply shows_word.
  - match goal with F : Forall _ fs |- _ => rename F into Dx end. simpl.
    eapply shows_ext; [|apply (shows_struct n (map (fun fv => (fst fv, style (snd fv))) fs))].
    + intro a. unfold style. cbn [fmt]. rewrite map_map. reflexivity.
    + assumption.
    + destruct fs; [contradiction|discriminate].
    + clear -IH Dx. induction Dx as [|[f c] fs [W D] Dx IHD]; [constructor|]. inversion IH; subst. constructor; [|auto]. cbn. auto.
  - eapply shows_ext; [|apply (shows_tuple n (map style xs) (map tree_of xs))]; try assumption.
    + intro a. unfold style at 2. cbn [fmt]. rewrite map_style. reflexivity.
    + destruct xs; [contradiction|discriminate].
    + now apply derived_items.
  - eapply shows_ext; [|apply (shows_list (map style xs)); now apply derived_items].
    intro a. unfold style at 2. cbn [fmt]. rewrite map_style. reflexivity.
  - eapply shows_ext; [|apply (shows_set (map style xs)); now apply derived_items].
    intro a. unfold style at 2. cbn [fmt]. rewrite map_style. reflexivity.
Qed.

Lemma map_tree_inj xs : Forall (fun c => derived c -> forall c', derived c' -> tree_of c = tree_of c' -> c = c') xs ->
  Forall derived xs -> forall ys, Forall derived ys -> map tree_of xs = map tree_of ys -> xs = ys.
Proof.
  intros F D. induction D as [|x xs Dx D IH]; intros [|y ys] Dy E; try discriminate; [reflexivity|].
  simpl in E. injection E as E1 E2. inversion F; subst. inversion Dy; subst. f_equal; auto.
Qed.
Lemma derived_tree_inj c : derived c -> forall c', derived c' -> tree_of c = tree_of c' -> c = c'.
Proof.
  induction c as [s|a b _ _|n fs IH|n xs IH|xs IH|xs IH|es _] using fcall_ind'; intro D; inversion D; subst;
    intros c' D' E; inversion D'; subst; cbn in E; try discriminate; injection E as E; subst; try reflexivity;
    try (f_equal; eapply map_tree_inj; eassumption).
  - f_equal. match goal with E : map _ fs = map _ ?l |- _ => rename l into gs; rename E into Em end.
    match goal with F : Forall (fun fc => is_word (fst fc) /\ _) gs |- _ => rename F into Dg end.
    match goal with F : Forall (fun fc => is_word (fst fc) /\ _) fs |- _ => rename F into Df end.
    clear -IH Em Dg Df. revert gs Dg Em. induction Df as [|[f c] fs [_ Dc] Df IHf]; intros [|[g c'] gs] Dg E; try discriminate; [reflexivity|].
    inversion IH as [|? ? IHc IHr]; subst. inversion Dg as [|? ? [_ Dc'] Dg']; subst. cbn in E. injection E as -> Ec E. cbn in *.
    rewrite (IHc Dc c' Dc' Ec), (IHf IHr gs Dg' E). reflexivity.
Qed.

Theorem derived_text_inj c c' a a' : derived c -> derived c' -> fmt a c = fmt a' c' -> c = c'.
Proof.
  intros D D' E. apply derived_tree_inj; [assumption..|].
  exact (shows_uniq _ _ _ _ a a' (derived_shows c D) (derived_shows c' D') E).
Qed.

Lemma constituent_no_sep s : forallb is_constituent (list_ascii_of_string s) = true -> no_sep s = true.
Proof.
  induction s as [|c s IH]; [reflexivity|]. cbn [list_ascii_of_string forallb no_sep]. intro E. apply andb_prop in E. destruct E as [E1 E2].
  rewrite (IH E2), andb_true_r. clear -E1. destruct c as [[] [] [] [] [] [] [] []]; vm_compute in E1; (discriminate || reflexivity).
Qed.
Lemma nat_is_word n : is_word (show_usize n).
Proof.
  split; [|apply constituent_no_sep, show_usize_digits].
  unfold show_usize, NilZero.string_of_uint. destruct (Nat.to_uint n); discriminate.
Qed.

(** ** Grammars *)
Lemma derived_not_angle c t : derived c -> tree_of c <> DAngle t.
Proof. intros D E. inversion D; subst; discriminate. Qed.
Lemma derived_not_named c n t : derived c -> tree_of c <> DNamed n t.
Proof. intros D E. inversion D; subst; discriminate. Qed.

Section Gram.
  Context {T NT AK AV : Type} {DT : Debug T} {DN : Debug NT}.

  Definition elem_tree (e : Elem T NT) : dtree :=
    match e with Term t => tree_of (dbg t) | NonTerm n => DAngle (tree_of (dbg n)) end.
  Definition pe_tree (e : ProdElement T NT) : dtree :=
    match pe_id e with Some n => DNamed n (elem_tree (pe_elem e)) | None => elem_tree (pe_elem e) end.

  Lemma pe_shows e : word_elem e -> shows (style (dbg e)) (pe_tree e).
  Proof.
    intros [W D]. assert (X : shows (style (dbg (pe_elem e))) (elem_tree (pe_elem e))).
    { destruct (pe_elem e) as [t|n].
      - exact (shows_const _ _ (derived_shows _ D)).
      - exact (shows_angle _ _ (shows_const _ _ (derived_shows _ D))). }
    unfold pe_tree, dbg, Debug_prod_element. destruct (pe_id e) as [n|]; [|exact X].
    exact (shows_named n _ _ (W n eq_refl) X).
  Qed.
  Lemma pe_inj e e' : dbg_inj T -> dbg_inj NT -> word_elem e -> word_elem e' -> pe_tree e = pe_tree e' -> e = e'.
  Proof.
    intros JT JN [_ D] [_ D'] E. destruct e as [i e], e' as [i' e']. unfold pe_tree in E. cbn [pe_id pe_elem] in *.
    assert (X : elem_tree e = elem_tree e' -> e = e').
    { destruct e as [t|n], e' as [t'|n']; cbn [elem_tree]; intro Q.
      - f_equal. apply JT. exact (derived_tree_inj _ D _ D' Q).
      - exfalso. exact (derived_not_angle _ _ D Q).
      - exfalso. symmetry in Q. exact (derived_not_angle _ _ D' Q).
      - injection Q as Q. f_equal. apply JN. exact (derived_tree_inj _ D _ D' Q). }
    assert (Y : forall n t (e : Elem T NT), match e with Term t => derived (dbg t) | NonTerm n => derived (dbg n) end -> elem_tree e <> DNamed n t).
    { intros n t [u|u] Du; cbn [elem_tree]; [exact (derived_not_named _ _ _ Du)|discriminate]. }
    destruct i as [n|], i' as [n'|].
    - injection E as -> E. rewrite (X E). reflexivity.
    - exfalso. symmetry in E. exact (Y _ _ _ D' E).
    - exfalso. exact (Y _ _ _ D E).
    - rewrite (X E). reflexivity.
  Qed.

  Lemma list_shows {A} (dA : A -> fcall) (tr : A -> dtree) xs : Forall (fun x => shows (style (dA x)) (tr x)) xs ->
    shows (style (FList (map dA xs))) (DList (map tr xs)).
  Proof.
    intro F. eapply shows_ext; [|apply (shows_list (map (fun x => style (dA x)) xs) (map tr xs))].
    - intro a. unfold style at 2. cbn [fmt]. rewrite !map_map. reflexivity.
    - induction F; constructor; auto.
  Qed.
  Lemma set_shows {A} (dA : A -> fcall) (tr : A -> dtree) xs : Forall (fun x => shows (style (dA x)) (tr x)) xs ->
    shows (style (FSet (map dA xs))) (DSet (map tr xs)).
  Proof.
    intro F. eapply shows_ext; [|apply (shows_set (map (fun x => style (dA x)) xs) (map tr xs))].
    - intro a. unfold style at 2. cbn [fmt]. rewrite !map_map. reflexivity.
    - induction F; constructor; auto.
  Qed.
  Lemma struct_shows n fs gs : is_word n -> fs <> [] ->
    Forall2 (fun (f : string * fcall) g => is_word (fst f) /\ fst f = fst g /\ shows (style (snd f)) (snd g)) fs gs ->
    shows (style (FStruct n fs)) (DStruct n gs).
  Proof.
    intros W Ne F. eapply shows_ext; [|apply (shows_struct n (map (fun fv => (fst fv, style (snd fv))) fs) gs W)].
    - intro a. unfold style at 2. cbn [fmt]. rewrite !map_map. reflexivity.
    - destruct fs; [contradiction|discriminate].
    - clear Ne. induction F; constructor; auto.
  Qed.
  Lemma map_pe_inj (es es' : list (ProdElement T NT)) : dbg_inj T -> dbg_inj NT -> Forall word_elem es -> Forall word_elem es' ->
    map pe_tree es = map pe_tree es' -> es = es'.
  Proof.
    intros JT JN F. revert es'. induction F as [|e es W F IH]; intros [|e' es'] F' E; try discriminate; [reflexivity|].
    cbn in E. injection E as E1 E2. inversion F'; subst. f_equal; [now apply pe_inj|now apply IH].
  Qed.

  Ltac isw := split; [discriminate|reflexivity].

  Definition prod_tree (p : Prod T NT AK AV) : dtree :=
    DStruct "Prod" [("head", tree_of (dbg (p_head p))); ("elems", DList (map pe_tree (prod_elements p)))].
  Lemma prod_shows p : word_prod p -> shows (style (dbg p)) (prod_tree p).
  Proof.
    intros [Dh F]. apply struct_shows; [isw|discriminate|]. repeat constructor; cbn [fst snd]; try discriminate.
    - now apply derived_shows.
    - apply list_shows. revert F. apply Forall_impl. exact pe_shows.
  Qed.
  Lemma prod_tree_inj (p p' : Prod T NT AK AV) : dbg_inj T -> dbg_inj NT -> word_prod p -> word_prod p' -> prod_tree p = prod_tree p' ->
    p_head p = p_head p' /\ prod_elements p = prod_elements p'.
  Proof.
    intros JT JN [D F] [D' F'] E. injection E as E1 E2. split; [apply JN; now apply derived_tree_inj|now apply map_pe_inj].
  Qed.

  Theorem prod_text_inj (p p' : Prod T NT AK AV) a a' : dbg_inj T -> dbg_inj NT -> word_prod p -> word_prod p' ->
    debug_text a p = debug_text a' p' -> p_head p = p_head p' /\ prod_elements p = prod_elements p'.
  Proof.
    intros JT JN W W' E. apply prod_tree_inj; try assumption. exact (shows_uniq _ _ _ _ a a' (prod_shows p W) (prod_shows p' W') E).
  Qed.


  Definition ps_tree (s : ProdState T NT AK AV) : dtree :=
    DStruct "ProdState" [("prod", prod_tree (ps_prod s)); ("index", DAtom (show_usize (ps_index s)))].
  Lemma ps_shows s : word_prod (ps_prod s) -> shows (style (dbg s)) (ps_tree s).
  Proof.
    intro W. apply struct_shows; [isw|discriminate|]. repeat constructor; cbn [fst snd]; try discriminate.
    - now apply prod_shows.
    - apply shows_word, nat_is_word.
  Qed.
  Theorem ps_text_inj (s s' : ProdState T NT AK AV) a a' : dbg_inj T -> dbg_inj NT -> word_prod (ps_prod s) -> word_prod (ps_prod s') ->
    debug_text a s = debug_text a' s' ->
    p_head (ps_prod s) = p_head (ps_prod s') /\ prod_elements (ps_prod s) = prod_elements (ps_prod s') /\ ps_index s = ps_index s'.
  Proof.
    intros JT JN W W' E. assert (X := shows_uniq _ _ _ _ a a' (ps_shows s W) (ps_shows s' W') E). injection X as X1 X2 X3.
    assert (Y : prod_tree (ps_prod s) = prod_tree (ps_prod s')) by (unfold prod_tree; rewrite X1, X2; reflexivity).
    destruct (prod_tree_inj _ _ JT JN W W' Y). apply show_usize_inj in X3. auto.
  Qed.

  Definition rule_tree (r : RuleInner T NT AK AV) : dtree :=
    DStruct "Rule" [("head", tree_of (dbg (r_head r))); ("prods", DList (map prod_tree (rule_prods r)))].
  Definition grammar_tree (g : Grammar T NT AK AV) : dtree :=
    DStruct "Grammar" [("Terms", DList (map (fun t => tree_of (dbg t)) (get_terminals g)));
      ("NonTerms", DList (map (fun t => tree_of (dbg t)) (get_nonterminals g))); ("Rules", DList (map rule_tree (rules g)))].

  Definition word_rule (r : RuleInner T NT AK AV) : Prop :=
    derived (dbg (r_head r)) /\ forall p, In p (r_prods r) -> Forall word_elem (pi_elements p).
  Lemma rule_prods_word r : word_rule r -> Forall word_prod (rule_prods r).
  Proof.
    intros [Dh W]. unfold rule_prods. generalize 0. induction (r_prods r) as [|p ps IH]; intro i; constructor.
    - split; [exact Dh|]. apply W. now left.
    - apply IH. intros q Hq. apply W. now right.
  Qed.
  Lemma rule_shows r : word_rule r -> shows (style (dbg r)) (rule_tree r).
  Proof.
    intro W. apply struct_shows; [isw|discriminate|]. repeat constructor; cbn [fst snd]; try discriminate.
    - apply derived_shows, W.
    - apply list_shows. apply rule_prods_word in W. revert W. apply Forall_impl. exact prod_shows.
  Qed.
  Lemma number_prods_inj h ps : forall h' ps' i i', dbg_inj T -> dbg_inj NT ->
    Forall word_prod (@number_prods T NT AK AV h i ps) -> Forall word_prod (@number_prods T NT AK AV h' i' ps') ->
    map prod_tree (number_prods h i ps) = map prod_tree (number_prods h' i' ps') -> map pi_elements ps = map pi_elements ps'.
  Proof.
    induction ps as [|p ps IH]; intros h' [|p' ps'] i i' JT JN W W' E; try discriminate; [reflexivity|].
    cbn [number_prods map] in *. inversion W; inversion W'; subst. inversion E as [[E1 E2 E3]].
    f_equal; [|eapply IH; eassumption].
    match goal with W : word_prod (Build_Prod h _ p), W' : word_prod (Build_Prod h' _ p') |- _ => destruct W as [_ W], W' as [_ W'] end.
    now apply map_pe_inj.
  Qed.
  Lemma rule_tree_inj r r' : dbg_inj T -> dbg_inj NT -> word_rule r -> word_rule r' -> rule_tree r = rule_tree r' ->
    (r_head r, map pi_elements (r_prods r)) = (r_head r', map pi_elements (r_prods r')).
  Proof.
    intros JT JN W W' E. inversion E as [[E1 E2]]. f_equal.
    - apply JN. apply derived_tree_inj; [apply W|apply W'|exact E1].
    - eapply number_prods_inj; try eassumption; now apply rule_prods_word.
  Qed.

  Lemma grammar_shows g : word_grammar g -> shows (style (dbg g)) (grammar_tree g).
  Proof.
    intro W. apply struct_shows; [isw|discriminate|].
    assert (We : forall e, In e (get_elements g) -> match e with Term t => derived (dbg t) | NonTerm n => derived (dbg n) end).
    { unfold get_elements. intros e I. apply in_flat_map in I. destruct I as (p & Ip & Ie). apply in_flat_map in Ip. destruct Ip as (r & Ir & Ip).
      destruct (W r Ir) as [_ Wp]. specialize (Wp p Ip). rewrite Forall_forall in Wp. unfold elements_iter in Ie. apply in_map_iff in Ie.
      destruct Ie as (x & <- & Ix). apply (Wp x Ix). }
    repeat constructor; cbn [fst snd]; try discriminate.
    - apply list_shows. unfold get_terminals. induction (get_elements g) as [|e es IH]; [constructor|]. cbn [filter_map].
      assert (IH' := IH (fun e H => We e (or_intror H))). specialize (We e (or_introl eq_refl)).
      destruct e; cbn [as_term]; [constructor; [now apply derived_shows|]|]; exact IH'.
    - apply list_shows. unfold get_nonterminals. induction (get_elements g) as [|e es IH]; [constructor|]. cbn [filter_map].
      assert (IH' := IH (fun e H => We e (or_intror H))). specialize (We e (or_introl eq_refl)).
      destruct e; cbn [as_nonterm]; [|constructor; [now apply derived_shows|]]; exact IH'.
    - apply list_shows. apply Forall_forall. intros r Ir. apply rule_shows. exact (W r Ir).
  Qed.

  Theorem grammar_text_inj (g g' : Grammar T NT AK AV) a a' : dbg_inj T -> dbg_inj NT -> word_grammar g -> word_grammar g' ->
    debug_text a g = debug_text a' g' -> rule_shapes g = rule_shapes g'.
  Proof.
    intros JT JN W W' E. assert (X := shows_uniq _ _ _ _ a a' (grammar_shows g W) (grammar_shows g' W') E).
    unfold grammar_tree in X. injection X as _ _ X1. unfold rule_shapes. unfold word_grammar in *.
    revert W W' X1. generalize (rules g) (rules g'). clear -JT JN. intros rs. induction rs as [|r rs IH]; intros [|r' rs'] W W' E; try discriminate; [reflexivity|].
    cbn [map] in *. assert (E1 : rule_tree r = rule_tree r') by congruence. assert (E2 : map rule_tree rs = map rule_tree rs') by congruence.
    f_equal.
    - apply rule_tree_inj; try assumption; [apply W|apply W']; now left.
    - apply IH; [intros x Ix; apply W; now right|intros x Ix; apply W'; now right|exact E2].
  Qed.
  Lemma number_text h (ps ps' : list (ProdInner T NT AK AV)) : forall i i', map pi_elements ps = map pi_elements ps' ->
    map (@dbg _ Debug_prod) (number_prods h i ps) = map (@dbg _ Debug_prod) (number_prods h i' ps').
  Proof.
    revert ps'. induction ps as [|p ps IH]; intros [|p' ps'] i i' E; try discriminate; [reflexivity|].
    cbn [map] in E. injection E as E1 E2. cbn [number_prods map]. rewrite (IH _ (S i) (S i') E2). f_equal.
    unfold dbg, Debug_prod, prod_elements. cbn [p_inner p_head]. rewrite E1. reflexivity.
  Qed.
  Theorem grammar_text_of_shapes (g g' : Grammar T NT AK AV) a : rule_shapes g = rule_shapes g' -> debug_text a g = debug_text a g'.
  Proof.
    intro E. unfold debug_text. f_equal. unfold dbg, Debug_grammar.
    assert (X : get_elements g = get_elements g' /\ map (@dbg _ Debug_rule) (rules g) = map (@dbg _ Debug_rule) (rules g')).
    { unfold get_elements, rule_shapes in *. change (bt_values (rule_set g)) with (rules g). change (bt_values (rule_set g')) with (rules g').
      revert E. generalize (rules g) (rules g'). intro rs. induction rs as [|r rs IH]; intros [|r' rs'] E; try discriminate; [auto|].
      cbn [map] in E. injection E as E1 E2 E3. destruct (IH _ E3) as [IH1 IH2]. cbn [flat_map map]. rewrite !flat_map_app, IH1, IH2. split.
      - f_equal. clear -E2. revert E2. generalize (r_prods r) (r_prods r'). intro ps. induction ps as [|p ps IH]; intros [|p' ps'] E; try discriminate; [reflexivity|].
        cbn [map] in E. injection E as E1 E2. cbn [flat_map]. rewrite (IH _ E2). unfold elements_iter. rewrite E1. reflexivity.
      - f_equal. unfold dbg, Debug_rule, rule_prods. rewrite E1, (number_text _ _ _ 0 0 E2). reflexivity. }
    destruct X as [X1 X2]. unfold get_terminals, get_nonterminals. rewrite X1, X2. reflexivity.
  Qed.
End Gram.

(** ** Errors and action keys *)
Lemma derived_map {A} {DA : Debug A} (xs : list A) : Forall (fun x => derived (dbg x)) xs -> Forall derived (map dbg xs).
Proof. induction 1; constructor; auto. Qed.
Lemma dbg_map_inj {A} {DA : Debug A} (xs ys : list A) : dbg_inj A -> map dbg xs = map dbg ys -> xs = ys.
Proof.
  intro J. revert ys. induction xs as [|x xs IH]; intros [|y ys] E; try discriminate; [reflexivity|].
  cbn in E. injection E as E1 E2. f_equal; [now apply J|now apply IH].
Qed.
Ltac isw := split; [discriminate|reflexivity].

Lemma errors_derived {A} {DA : Debug A} (e : GrammarErrors A) :
  Forall (fun x => derived (dbg x)) (unreachable_nonterms e) -> Forall (fun x => derived (dbg x)) (nonterms_without_rules e) ->
  Forall (fun x => derived (dbg x)) (rules_without_prods e) -> derived (dbg e).
Proof.
  intros F1 F2 F3. constructor; [isw|discriminate|].
  repeat constructor; cbn [fst snd]; try discriminate; now apply derived_map.
Qed.
Lemma errors_inj {A} {DA : Debug A} : dbg_inj A -> dbg_inj (GrammarErrors A).
Proof.
  intros J [a b c] [a' b' c'] E. unfold dbg, Debug_errors in E. cbn in E. injection E as E1 E2 E3.
  apply dbg_map_inj in E1; [|assumption]. apply dbg_map_inj in E2; [|assumption]. apply dbg_map_inj in E3; [|assumption]. subst. reflexivity.
Qed.
Lemma bool_inj : dbg_inj bool.
Proof. intros [] []; cbn; intro E; try reflexivity; discriminate E. Qed.
Lemma bool_derived (b : bool) : derived (dbg b).
Proof. constructor. destruct b; isw. Qed.
Lemma nat_inj : dbg_inj nat.
Proof. intros i j E. injection E as E. now apply show_usize_inj. Qed.
Lemma nat_derived (n : nat) : derived (dbg n).
Proof. constructor. apply nat_is_word. Qed.
Lemma name_inj : dbg_inj name.
Proof. intros i j E. injection E as E. exact E. Qed.
Lemma key_derived {A} {DA : Debug A} (k : NNActionKey A) : derived (dbg (nk_action k)) -> derived (dbg k).
Proof.
  intro D. constructor; [isw|discriminate|]. repeat constructor; cbn [fst snd]; try discriminate; [exact D|].
  apply derived_map. apply Forall_forall. intros b _. apply bool_derived.
Qed.
Lemma key_inj {A} {DA : Debug A} : dbg_inj A -> dbg_inj (NNActionKey A).
Proof.
  intros J [a b] [a' b'] E. unfold dbg, Debug_nnkey in E. cbn in E. injection E as E1 E2.
  apply J in E1. apply dbg_map_inj in E2; [|exact bool_inj]. subst. reflexivity.
Qed.

(** ** Action trees *)
Section TreeInd.
  Context {L V : Type}.
  Variable P : TreeNode L V -> Prop.
  Definition on_value (v : TreeValue L V) : Prop := match v with TVNode t => P t | TVLeaf _ => True end.
  Hypothesis HNode : forall a ps, Forall (fun nv => on_value (snd nv)) ps -> P (TNode a ps).
  Fixpoint tree_ind' (t : TreeNode L V) : P t :=
    match t with
    | TNode a ps => HNode a ps ((fix go (ps : list (name * TreeValue L V)) : Forall (fun nv => on_value (snd nv)) ps :=
        match ps with
        | [] => Forall_nil _
        | x :: ps => @Forall_cons _ (fun nv => on_value (snd nv)) x ps
            (match snd x as v return on_value v with TVNode t => tree_ind' t | TVLeaf _ => I end) (go ps)
        end) ps)
    end.
End TreeInd.

Section Tree.
  Context {L V : Type} {DL : Debug L} {DV : Debug V}.
  Fixpoint tree_tr (t : TreeNode L V) : dtree :=
    match t with
    | TNode a ps => DStruct "TreeNode" [("action_name", tree_of (dbg a)); ("params", DSet (map (fun p => DNamed (fst p) (value_tr (snd p))) ps))]
    end
  with value_tr (v : TreeValue L V) : dtree :=
    match v with
    | TVNode t => DTuple "Node" [tree_tr t]
    | TVLeaf v => DTuple "Leaf" [tree_of (dbg v)]
    end.

  Lemma map_shows (es : list (name * fcall)) (ts : list (name * dtree)) :
    Forall2 (fun e t => is_word (fst e) /\ fst e = fst t /\ shows (style (snd e)) (snd t)) es ts ->
    shows (style (FMap (map (fun e => (dbg (fst e), snd e)) es))) (DSet (map named ts)).
  Proof.
    intro F. eapply shows_ext; [|apply (shows_set (map (fun e a => (fst e ++ ": " ++ fmt a (snd e))%string) es))].
    - intro a. unfold style at 1. cbn [fmt]. rewrite !map_map. reflexivity.
    - induction F as [|[n c] [n' t] es ts (W & E & S0) F IH]; [constructor|]. cbn [fst snd] in *. subst n'.
      cbn [map]. constructor; [|exact IH]. exact (shows_entry n _ t W S0).
  Qed.

  Lemma tree_shows t : word_tree t -> shows (style (dbg t)) (tree_tr t).
  Proof.
    induction t as [a ps IH] using tree_ind'. intro W. inversion W as [? ? Da Wn Wt Wl]; subst.
    apply struct_shows; [isw|discriminate|]. repeat constructor; cbn [fst snd]; try discriminate; [now apply derived_shows|].
    assert (X := map_shows (map (fun p => (fst p, dbg_tree_value (snd p))) ps) (map (fun p => (fst p, value_tr (snd p))) ps)).
    rewrite !map_map in X. apply X. clear X.
    - clear W Da. induction IH as [|[n v] ps Hv IH IHp]; [constructor|]. constructor.
      + cbn [fst snd] in *. split; [apply (Wn n v); now left|]. split; [reflexivity|].
        assert (X : forall m c t, is_word m -> shows (style c) t -> shows (style (FTuple m [c])) (DTuple m [t])).
        { intros m c t Wm Sc. eapply shows_ext; [|apply (shows_tuple m [style c] [t] Wm); [discriminate|repeat constructor; exact Sc]]. reflexivity. }
        destruct v as [t|v]; cbn [dbg_tree_value value_tr].
        * apply X; [isw|]. apply Hv. apply (Wt n). now left.
        * apply X; [isw|]. apply derived_shows. apply (Wl n). now left.
      + apply IHp; intros; [eapply Wn|eapply Wt|eapply Wl]; right; eassumption.
  Qed.
  Lemma tree_tr_inj t : dbg_inj L -> dbg_inj V -> word_tree t -> forall t', word_tree t' -> tree_tr t = tree_tr t' -> t = t'.
  Proof.
    intros JL JV. induction t as [a ps IH] using tree_ind'. intros W [a' ps'] W' E.
    inversion W as [? ? Da Wn Wt Wl]; inversion W' as [? ? Da' Wn' Wt' Wl']; subst. cbn [tree_tr] in E. injection E as E1 E2.
    f_equal; [apply JL; now apply derived_tree_inj|].
    clear W W' Da Da' E1. revert ps' Wn' Wt' Wl' E2. induction IH as [|[n v] ps Hv IH IHp]; intros [|[n' v'] ps'] Wn' Wt' Wl' E; try discriminate; [reflexivity|].
    cbn [map fst snd] in E. injection E as -> Ev E. f_equal.
    - f_equal. cbn [snd] in Hv. destruct v as [t|v], v' as [t'|v']; cbn [value_tr] in Ev; try discriminate; injection Ev as Ev; f_equal.
      + apply Hv; [eapply Wt; now left|eapply Wt'; now left|exact Ev].
      + apply JV. apply derived_tree_inj; [eapply Wl; now left|eapply Wl'; now left|exact Ev].
    - apply IHp; intros; try (exact E); [eapply Wn|eapply Wt|eapply Wl|eapply Wn'|eapply Wt'|eapply Wl']; right; eassumption.
  Qed.
  Theorem tree_text_inj (t t' : TreeNode L V) a a' : dbg_inj L -> dbg_inj V -> word_tree t -> word_tree t' ->
    debug_text a t = debug_text a' t' -> t = t'.
  Proof.
    intros JL JV W W' E. apply tree_tr_inj; try assumption. exact (shows_uniq _ _ _ _ a a' (tree_shows t W) (tree_shows t' W') E).
  Qed.
End Tree.

Lemma void_inj : dbg_inj Void.
Proof. intros []. Qed.

(** The trees of the Nullable pass, for a grammar with words as names. *)
Section NullTrees.
  Context {T NT AK AV : Type} {DT : Debug T} {DN : Debug NT} {DK : Debug AK} `{OrdEq NT}.
  Lemma prod_key_derived (k : ProdKey NT AK) : derived (dbg (pk_head k)) -> derived (dbg (pk_action_key k)) -> derived (dbg k).
  Proof. intros D1 D2. constructor; [isw|discriminate|]. repeat constructor; cbn [fst snd]; try discriminate; assumption. Qed.
  Lemma prod_key_inj : dbg_inj NT -> dbg_inj AK -> dbg_inj (ProdKey NT AK).
  Proof. intros J1 J2 [a b] [a' b'] E. unfold dbg, Debug_prod_key in E. cbn in E. injection E as E1 E2. apply J1 in E1. apply J2 in E2. subst. reflexivity. Qed.
  Lemma null_tree_words (g : Grammar T NT AK AV) A t : built g -> word_grammar g ->
    (forall B p, prod_of g B p -> derived (dbg (pi_action_key p))) -> null_tree g A t -> word_tree t.
  Proof.
    intros B W K. assert (Wh : forall A r, In (A, r) (rule_set g) -> r_head r = A /\ In r (rules g)).
    { intros C r I. destruct (acc_wf g (built_accepted g B)) as [_ Wf]. split; [exact (Wf C r I)|].
      unfold rules, bt_values. apply in_map_iff. exists (C, r). auto. }
    revert A. induction t as [k ps IH] using tree_ind'. intros A N. inversion N as [? p ? Pr _ _ Sub _]; subst.
    destruct Pr as (r & Ir & Ip). destruct (Wh A r Ir) as [Eh Ir']. destruct (W r Ir') as [Dh We]. specialize (We p Ip). rewrite Forall_forall in We.
    constructor.
    - apply prod_key_derived; cbn; [rewrite <- Eh; exact Dh|]. apply (K A). exists r. auto.
    - intros n v I. destruct (Sub n v I) as (C & t & (pre & post & Es & _) & _). destruct (We (Build_ProdElement (Some n) (NonTerm C))) as [Wn _].
      + rewrite Es. apply in_or_app. right. now left.
      + apply Wn. reflexivity.
    - intros n t I. rewrite Forall_forall in IH. specialize (IH _ I). cbn in IH. destruct (Sub n _ I) as (C & t' & _ & Et & Nt). injection Et as ->.
      exact (IH _ Nt).
    - intros n v I. destruct v.
  Qed.
End NullTrees.

(** Values of the transformed grammar. *)
Lemma nnvalue_text_inj {NT AK AV} {DN : Debug NT} {DK : Debug AK} {DV : Debug AV} (v v' : NNActionValue NT AK AV) a a' :
  dbg_inj NT -> dbg_inj AK -> dbg_inj AV -> derived (dbg (nv_parent_value v)) -> derived (dbg (nv_parent_value v')) ->
  (forall n t, In (n, t) (nv_nullable_arguments v) -> is_word n /\ word_tree t) ->
  (forall n t, In (n, t) (nv_nullable_arguments v') -> is_word n /\ word_tree t) ->
  debug_text a v = debug_text a' v' -> v = v'.
Proof.
  intros JN JK JV D D' W W' E.
  pose (tr := fun v : NNActionValue NT AK AV => DStruct "ActionValue" [("parent_value", tree_of (dbg (nv_parent_value v)));
    ("nullable_arguments", DSet (map (fun p => DNamed (fst p) (tree_tr (snd p))) (nv_nullable_arguments v)))]).
  assert (S : forall v, derived (dbg (nv_parent_value v)) -> (forall n t, In (n, t) (nv_nullable_arguments v) -> is_word n /\ word_tree t) -> shows (style (dbg v)) (tr v)).
  { clear. intros v D W. apply struct_shows; [isw|discriminate|]. repeat constructor; cbn [fst snd]; try discriminate; [now apply derived_shows|].
    assert (X := map_shows (map (fun p => (fst p, dbg_tree (snd p))) (nv_nullable_arguments v)) (map (fun p => (fst p, tree_tr (snd p))) (nv_nullable_arguments v))).
    rewrite !map_map in X. apply X. clear X. induction (nv_nullable_arguments v) as [|[n t] l IH]; [constructor|]. constructor.
    - destruct (W n t (or_introl eq_refl)) as [Wn Wt]. cbn [fst snd]. split; [exact Wn|]. split; [reflexivity|]. exact (tree_shows t Wt).
    - apply IH. intros m u I. apply W. now right. }
  assert (X := shows_uniq _ _ _ _ a a' (S v D W) (S v' D' W') E). destruct v as [pv l], v' as [pv' l']. unfold tr in X. cbn in *. injection X as X1 X2.
  f_equal; [apply JV; now apply derived_tree_inj|]. clear -X2 W W' JN JK. revert l' W' X2. induction l as [|[n t] l IH]; intros [|[n' t'] l'] W' E; try discriminate; [reflexivity|].
  cbn in E. injection E as -> Et E. f_equal.
  - f_equal. apply tree_tr_inj; try assumption; [exact (prod_key_inj JN JK)|exact void_inj|apply (W n' t); now left|apply (W' n' t'); now left].
  - apply IH; try assumption; intros m u I; [apply W|apply W']; now right.
Qed.

(** Earley states. *)
Section EState.
  Context {T NT AK AV : Type} {DT : Debug T} {DN : Debug NT}.
  Lemma stream_inj : dbg_inj T -> dbg_inj (StreamTerminal T).
  Proof. intros J [|t] [|t'] E; cbn in E; try discriminate; [reflexivity|]. injection E as E. f_equal. now apply J. Qed.
  Lemma startnt_inj : dbg_inj NT -> dbg_inj (StartNonTerminal NT).
  Proof. intros J [|t] [|t'] E; cbn in E; try discriminate; [reflexivity|]. injection E as E. f_equal. now apply J. Qed.
  Lemma estate_text_inj (s s' : @EarleyState T NT AK AV) a a' :
    dbg_inj T -> dbg_inj NT -> word_prod (ps_prod (ek_prod_state (es_key s))) -> word_prod (ps_prod (ek_prod_state (es_key s'))) ->
    debug_text a s = debug_text a' s' ->
    let q := ek_prod_state (es_key s) in let q' := ek_prod_state (es_key s') in
    p_head (ps_prod q) = p_head (ps_prod q') /\ prod_elements (ps_prod q) = prod_elements (ps_prod q') /\ ps_index q = ps_index q' /\
    ek_origin (es_key s) = ek_origin (es_key s') /\ List.length (es_value s) = List.length (es_value s').
  Proof.
    intros JT JN W W' E.
    pose (tr := fun s : @EarleyState T NT AK AV => DStruct "EarleyState" [("prod_state", ps_tree (ek_prod_state (es_key s)));
      ("origin_index", DAtom (show_usize (ek_origin (es_key s)))); ("value_len", DAtom (show_usize (List.length (es_value s))))]).
    assert (Sh : forall s, word_prod (ps_prod (ek_prod_state (es_key s))) -> shows (style (dbg s)) (tr s)).
    { clear. intros s W. apply struct_shows; [isw|discriminate|]. repeat constructor; cbn [fst snd]; try discriminate.
      - now apply ps_shows.
      - apply shows_word, nat_is_word.
      - apply shows_word, nat_is_word. }
    assert (X := shows_uniq _ _ _ _ a a' (Sh s W) (Sh s' W') E). unfold tr, ps_tree in X. injection X as X1 X2 X3 X4 X5.
    assert (Y : prod_tree (ps_prod (ek_prod_state (es_key s))) = prod_tree (ps_prod (ek_prod_state (es_key s'))))
      by (unfold prod_tree; rewrite X1, X2; reflexivity).
    destruct (prod_tree_inj _ _ (stream_inj JT) (startnt_inj JN) W W' Y) as [Y1 Y2].
    apply show_usize_inj in X3, X4, X5. cbv zeta. auto.
  Qed.
End EState.
