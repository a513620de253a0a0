(** More on Debug texts (C92): the helpers of utils/fmt.rs, symbols, errors of the passes, and state sets. *)
From Coq Require Import String Ascii List Arith Bool.
From Verif.Model Require Import Ord BTree Outcome Utils Grammar StartGrammar Nullable Firsts NonNull State Earley Debug.
From Verif.Spec Require Import DebugSpec.
From Verif.Proofs Require Import DotTextFacts DebugFacts.
Import ListNotations.
Local Open Scope string_scope.

Lemma items_compact close vs : forall h,
  items_text false h close vs = (if h then match vs with [] => "" | _ => ", " end else "") ++ String.concat ", " vs ++ close.
Proof.
  induction vs as [|v vs IH]; intro h; [destruct h; reflexivity|]. cbn [items_text]. rewrite IH. cbn [String.concat].
  destruct vs; destruct h; cbn [append String.concat]; rewrite ?sapp_assoc; reflexivity.
Qed.
Lemma fields_compact vs : forall h,
  struct_text false h vs =
  (if h then match vs with [] => "" | _ => ", " end else match vs with [] => "" | _ => " { " end) ++
  String.concat ", " (map (fun fv => fst fv ++ ": " ++ snd fv) vs) ++ (if h then " }" else match vs with [] => "" | _ => " }" end).
Proof.
  induction vs as [|[f v] vs IH]; intro h; [destruct h; reflexivity|]. cbn [struct_text map fst snd]. rewrite IH. cbn [String.concat].
  destruct vs as [|w vs]; destruct h; cbn [map]; rewrite ?sapp_assoc; reflexivity.
Qed.
Lemma tuple_compact vs : forall n,
  tuple_text false false n vs =
  (if Nat.eqb n 0 then match vs with [] => "" | _ => "(" end else match vs with [] => "" | _ => ", " end) ++
  String.concat ", " vs ++ (if Nat.eqb n 0 then match vs with [] => "" | _ => ")" end else ")").
Proof.
  induction vs as [|v vs IH]; intro n.
  - cbn [tuple_text]. destruct (Nat.eqb n 0); [reflexivity|]. rewrite andb_false_r. reflexivity.
  - cbn [tuple_text]. rewrite IH. cbn [Nat.eqb]. destruct vs; destruct (Nat.eqb n 0); cbn [String.concat append]; rewrite ?sapp_assoc; reflexivity.
Qed.

Section Helpers.
  Context {A : Type} {DA : Debug A}.

  (** C92, for the helpers [list_fmt], [set_fmt], [tuple_fmt] and [struct_fmt]: what they write with [{:?}]. *)
  Theorem C92_helper_list (xs : list A) : fmt false (list_fmt xs) = "[" ++ String.concat ", " (map (debug_text false) xs) ++ "]".
  Proof. unfold list_fmt. cbn [fmt]. rewrite items_compact, map_map. reflexivity. Qed.
  Theorem C92_helper_set (xs : list A) : fmt false (set_fmt xs) = "{" ++ String.concat ", " (map (debug_text false) xs) ++ "}".
  Proof. unfold set_fmt. cbn [fmt]. rewrite items_compact, map_map. reflexivity. Qed.
  Theorem C92_helper_tuple n (xs : list A) : n <> "" ->
    fmt false (tuple_fmt n xs) = if xs then n else n ++ "(" ++ String.concat ", " (map (debug_text false) xs) ++ ")".
  Proof.
    intro Ne. unfold tuple_fmt. cbn [fmt]. destruct (String.eqb_spec n ""); [contradiction|]. rewrite tuple_compact, map_map.
    destruct xs; cbn [map Nat.eqb]; [cbn; now rewrite sapp_nil|reflexivity].
  Qed.
  Theorem C92_helper_struct n (xs : list (string * A)) :
    fmt false (struct_fmt n xs) =
    if xs then n else n ++ " { " ++ String.concat ", " (map (fun fv => fst fv ++ ": " ++ debug_text false (snd fv)) xs) ++ " }".
  Proof.
    unfold struct_fmt. cbn [fmt]. rewrite fields_compact, !map_map. destruct xs; cbn [map]; [cbn; now rewrite sapp_nil|reflexivity].
  Qed.
  (** Their texts, in either style, determine what was given to them, and which of them was called. *)
  Theorem C92_helper_texts (xs ys : list A) (fs gs : list (string * A)) n m alt alt' :
    dbg_inj A -> (forall x : A, derived (dbg x)) -> is_word n -> is_word m ->
    (forall f, In f fs -> is_word (fst f)) -> (forall f, In f gs -> is_word (fst f)) ->
    (fmt alt (list_fmt xs) = fmt alt' (list_fmt ys) -> xs = ys) /\
    (fmt alt (set_fmt xs) = fmt alt' (set_fmt ys) -> xs = ys) /\
    (xs <> [] -> ys <> [] -> fmt alt (tuple_fmt n xs) = fmt alt' (tuple_fmt m ys) -> n = m /\ xs = ys) /\
    (fs <> [] -> gs <> [] -> fmt alt (struct_fmt n fs) = fmt alt' (struct_fmt m gs) -> n = m /\ fs = gs) /\
    fmt alt (list_fmt xs) <> fmt alt' (set_fmt ys) /\
    (xs <> [] -> fs <> [] -> fmt alt (tuple_fmt n xs) <> fmt alt' (struct_fmt m fs)).
  Proof.
    intros J D Wn Wm Wf Wg.
    assert (Dx : forall l : list A, Forall derived (map dbg l)).
    { intro l. apply Forall_forall. intros c I. apply in_map_iff in I as (x & <- & _). apply D. }
    assert (Df : forall l : list (string * A), (forall f, In f l -> is_word (fst f)) ->
      Forall (fun fc => is_word (fst fc) /\ derived (snd fc)) (map (fun kv => (fst kv, dbg (snd kv))) l)).
    { intros l W. apply Forall_forall. intros c I. apply in_map_iff in I as (x & <- & I). cbn. split; [now apply W | apply D]. }
    assert (Jf : forall l l' : list (string * A), map (fun kv => (fst kv, dbg (snd kv))) l = map (fun kv => (fst kv, dbg (snd kv))) l' -> l = l').
    { induction l as [|[f x] l IH]; intros [|[f' x'] l'] E; try discriminate; [reflexivity|]. cbn in E. injection E as -> Ex E.
      apply J in Ex. rewrite (IH _ E), Ex. reflexivity. }
    assert (Ln : forall (B C : Type) (f : B -> C) l, l <> [] -> map f l <> []) by (intros B C f [|] N; [contradiction | discriminate]).
    repeat apply conj.
    - intro E. apply derived_text_inj in E; [|constructor; apply Dx|constructor; apply Dx]. injection E as E. exact (dbg_map_inj _ _ J E).
    - intro E. apply derived_text_inj in E; [|constructor; apply Dx|constructor; apply Dx]. injection E as E. exact (dbg_map_inj _ _ J E).
    - intros N N' E. apply derived_text_inj in E; [|constructor; auto|constructor; auto]. injection E as -> E. split; [reflexivity | exact (dbg_map_inj _ _ J E)].
    - intros N N' E. apply derived_text_inj in E; [|constructor; auto|constructor; auto]. injection E as -> E. split; [reflexivity | exact (Jf _ _ E)].
    - intro E. apply derived_text_inj in E; [discriminate E|constructor; apply Dx|constructor; apply Dx].
    - intros N N' E. apply derived_text_inj in E; [discriminate E|constructor; auto|constructor; auto].
  Qed.

  (** C92, for the symbols, keys and values of a wrapped grammar: their implementations are derived ones and tell
      different values apart if those of the grammar's own symbols do, so the theorems of this property apply to
      wrapped grammars too; in particular the text determines the value. *)
  Theorem C92_wrapped_text : dbg_inj A -> (forall x : A, derived (dbg x)) ->
    (dbg_inj (StreamTerminal A) /\ forall x : StreamTerminal A, derived (dbg x)) /\
    (dbg_inj (StartNonTerminal A) /\ forall x : StartNonTerminal A, derived (dbg x)) /\
    (dbg_inj (StartActionKey A) /\ forall x : StartActionKey A, derived (dbg x)) /\
    (dbg_inj (StartActionValue A) /\ forall x : StartActionValue A, derived (dbg x)).
  Proof.
    intros J D. repeat apply conj;
      try (intros [|t] [|t'] E; cbn in E; try discriminate; [reflexivity|]; injection E as E; f_equal; now apply J);
      (intros [|t]; [apply dv_word; split; [discriminate|reflexivity]|]; apply dv_tuple; [split; [discriminate|reflexivity]|discriminate|constructor; [apply D|constructor]]).
  Qed.
End Helpers.

(** C92, for the library's own symbols, exactly; a terminal and a nonterminal with the same name print differently. *)
Theorem C92_symbol_text n m alt alt' : is_word n -> is_word m ->
  fmt false (dbg_terminal n) = "Terminal(" ++ n ++ ")" /\ fmt false (dbg_nonterminal n) = "NonTerminal(" ++ n ++ ")" /\
  (fmt alt (dbg_terminal n) = fmt alt' (dbg_terminal m) -> n = m) /\
  (fmt alt (dbg_nonterminal n) = fmt alt' (dbg_nonterminal m) -> n = m) /\
  fmt alt (dbg_terminal n) <> fmt alt' (dbg_nonterminal m).
Proof.
  intros Wn Wm.
  assert (Dt : forall k, is_word k -> derived (dbg_terminal k)).
  { intros k W. apply dv_tuple; [split; [discriminate|reflexivity]|discriminate|]. constructor; [apply dv_word; exact W|constructor]. }
  assert (Dn : forall k, is_word k -> derived (dbg_nonterminal k)).
  { intros k W. apply dv_tuple; [split; [discriminate|reflexivity]|discriminate|]. constructor; [apply dv_word; exact W|constructor]. }
  repeat apply conj; try reflexivity;
    (intro E; apply derived_text_inj in E; auto; first [discriminate E | injection E as E; exact E]).
Qed.

(** C92, for the errors of the passes, exactly. *)
Theorem C92_pass_error_texts (e : NullableError) (f : FirstsError) (o : FollowsError) :
  debug_text false e = "Ambiguity" /\ debug_text false f = "NullableError(Ambiguity)" /\ debug_text false o = "First(NullableError(Ambiguity))".
Proof. destruct e, f as [[]], o as [[[]]]. repeat split. Qed.

Section Sets.
  Context {T NT AK AV : Type} {DT : Debug T} {DN : Debug NT}.

  (** What the text of an Earley state shows. *)
  Definition shown_state (s : @EarleyState T NT AK AV) :=
    let q := ek_prod_state (es_key s) in
    (p_head (ps_prod q), prod_elements (ps_prod q), ps_index q, ek_origin (es_key s), List.length (es_value s)).

  (** C92, for the set of states after each token: the text determines what is shown of each state, in order. *)
  Theorem C92_state_set_text (s s' : @EarleyStateSet T NT AK AV) alt alt' :
    dbg_inj T -> dbg_inj NT ->
    (forall x, In x (states s) -> word_prod (ps_prod (ek_prod_state (es_key x)))) ->
    (forall x, In x (states s') -> word_prod (ps_prod (ek_prod_state (es_key x)))) ->
    fmt alt (dbg_state_set s) = fmt alt' (dbg_state_set s') ->
    map shown_state (states s) = map shown_state (states s').
  Proof.
    intros JT JN W W' E.
    pose (tr := fun s : @EarleyState T NT AK AV => DStruct "EarleyState" [("prod_state", ps_tree (ek_prod_state (es_key s)));
      ("origin_index", DAtom (DotText.show_usize (ek_origin (es_key s)))); ("value_len", DAtom (DotText.show_usize (List.length (es_value s))))]).
    assert (Sh : forall s, word_prod (ps_prod (ek_prod_state (es_key s))) -> shows (style (dbg s)) (tr s)).
    { clear. intros s W. apply struct_shows; [isw|discriminate|]. repeat constructor; cbn [fst snd]; try discriminate.
      - now apply ps_shows.
      - apply shows_word, nat_is_word.
      - apply shows_word, nat_is_word. }
    assert (Ss : forall l : list (@EarleyState T NT AK AV), (forall x, In x l -> word_prod (ps_prod (ek_prod_state (es_key x)))) ->
      shows (style (FSet (map dbg l))) (DSet (map tr l))).
    { intros l Wl. eapply shows_ext; [|apply (shows_set (map (fun x => style (dbg x)) l))].
      - intro a. unfold style. cbn [fmt]. rewrite !map_map. reflexivity.
      - induction l as [|x l IH]; [constructor|]. cbn [map]. constructor; [apply Sh, Wl; now left|]. apply IH. intros y I. apply Wl. now right. }
    assert (X := shows_uniq _ _ _ _ alt alt' (Ss _ W) (Ss _ W') E). injection X as X. clear E.
    revert X W W'. generalize (states s) as l, (states s') as l'. clear -JT JN.
    induction l as [|x l IH]; intros [|y l'] X W W'; try discriminate; [reflexivity|]. cbn [map] in *.
    injection X as X1 X2 X3 X4 X5 X. f_equal.
    - assert (Y : prod_tree (ps_prod (ek_prod_state (es_key x))) = prod_tree (ps_prod (ek_prod_state (es_key y))))
        by (unfold prod_tree; rewrite X1, X2; reflexivity).
      destruct (prod_tree_inj _ _ (stream_inj JT) (startnt_inj JN) (W _ (or_introl eq_refl)) (W' _ (or_introl eq_refl)) Y) as [Y1 Y2].
      apply show_usize_inj in X3, X4, X5. unfold shown_state. rewrite Y1, Y2, X3, X4, X5. reflexivity.
    - apply IH; [exact X | intros; apply W; now right | intros; apply W'; now right].
  Qed.
End Sets.

Print Assumptions C92_helper_list.
Print Assumptions C92_helper_set.
Print Assumptions C92_helper_tuple.
Print Assumptions C92_helper_struct.
Print Assumptions C92_helper_texts.
Print Assumptions C92_wrapped_text.
Print Assumptions C92_symbol_text.
Print Assumptions C92_pass_error_texts.
Print Assumptions C92_state_set_text.

Example C92_helper_case : fmt false (struct_fmt "P" [("x", 1); ("y", 20)]) = "P { x: 1, y: 20 }" /\ fmt false (tuple_fmt "P" [1; 2]) = "P(1, 2)" /\
  fmt false (list_fmt (@nil nat)) = "[]" /\ fmt false (set_fmt [3; 4]) = "{3, 4}".
Proof. vm_compute. auto. Qed.
Example C92_symbol_case : is_word "E" /\ is_word "num".
Proof. repeat split; discriminate. Qed.
