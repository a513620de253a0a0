(** Debug formatting: utils/fmt.rs and the [Debug] implementations of the crate.

    An implementation of [Debug] is modelled by the calls it makes on its [Formatter]; [fmt] is what
    [std::fmt] writes for them, with [{:?}] ([alt = false]) or [{:#?}] ([alt = true]) and no other option. *)
From Coq Require Import String Ascii List Arith Bool.
From Verif.Model Require Import Ord BTree Outcome Utils Grammar StartGrammar Nullable Firsts NonNull State Tree Earley DotText.
Import ListNotations.
Local Open Scope string_scope.

(** ** [std::fmt] (core::fmt::builders, as documented; not part of the repository) *)

(** The calls on a formatter.  Fields and items are the calls their own implementations make. *)
Inductive fcall :=
| FStr (s : string)                                   (* [write_str] *)
| FSeq (a b : fcall)                                  (* one after the other *)
| FStruct (name : string) (fields : list (string * fcall))  (* [debug_struct .. field .. finish] *)
| FTuple (name : string) (fields : list fcall)        (* [debug_tuple .. field .. finish] *)
| FList (items : list fcall)                          (* [debug_list .. entries .. finish] *)
| FSet (items : list fcall)                           (* [debug_set] *)
| FMap (entries : list (fcall * fcall)).              (* [debug_map] *)

Definition nl : string := String "010"%char "".

(** [PadAdapter]: four spaces at the beginning of each line. *)
Fixpoint pad (on_newline : bool) (s : string) : string :=
  match s with
  | "" => ""
  | String c s => (if on_newline then "    " else "") ++ String c (pad (Ascii.eqb c "010"%char) s)
  end.

(** [DebugStruct::field] for each field and [finish]; the values are given as texts. *)
Fixpoint struct_text (alt has_fields : bool) (fields : list (string * string)) : string :=
  match fields with
  | [] => if has_fields then (if alt then "}" else " }") else ""
  | (f, v) :: fields =>
      (if alt then (if has_fields then "" else " {" ++ nl) ++ pad true (f ++ ": " ++ v ++ "," ++ nl)
       else (if has_fields then ", " else " { ") ++ f ++ ": " ++ v) ++ struct_text alt true fields
  end.

(** [DebugTuple::field] for each field and [finish]: [n] is the number of fields so far. *)
Fixpoint tuple_text (alt empty_name : bool) (n : nat) (fields : list string) : string :=
  match fields with
  | [] => if Nat.eqb n 0 then "" else (if Nat.eqb n 1 && empty_name && negb alt then "," else "") ++ ")"
  | v :: fields =>
      (if alt then (if Nat.eqb n 0 then "(" ++ nl else "") ++ pad true (v ++ "," ++ nl)
       else (if Nat.eqb n 0 then "(" else ", ") ++ v) ++ tuple_text alt empty_name (S n) fields
  end.

(** [DebugInner::entry] for each item of a list or set, and the closing bracket. *)
Fixpoint items_text (alt has_fields : bool) (close : string) (items : list string) : string :=
  match items with
  | [] => close
  | v :: items =>
      (if alt then (if has_fields then "" else nl) ++ pad true (v ++ "," ++ nl)
       else (if has_fields then ", " else "") ++ v) ++ items_text alt true close items
  end.

Fixpoint fmt (alt : bool) (c : fcall) : string :=
  match c with
  | FStr s => s
  | FSeq a b => fmt alt a ++ fmt alt b
  | FStruct name fields => name ++ struct_text alt false (map (fun fv => (fst fv, fmt alt (snd fv))) fields)
  | FTuple name fields => name ++ tuple_text alt (String.eqb name "") 0 (map (fmt alt) fields)
  | FList items => "[" ++ items_text alt false "]" (map (fmt alt) items)
  | FSet items => "{" ++ items_text alt false "}" (map (fmt alt) items)
  | FMap entries =>
      (* [DebugMap]: an entry is written like an item, with its key, a colon and its value *)
      "{" ++ items_text alt false "}" (map (fun kv => fmt alt (fst kv) ++ ": " ++ fmt alt (snd kv)) entries)
  end.

(** ** The implementations *)
Class Debug (A : Type) := dbg : A -> fcall.

(** [format!("{:?}", x)] and [format!("{:#?}", x)]. *)
Definition debug_text {A} `{Debug A} (alt : bool) (x : A) : string := fmt alt (dbg x).

(** utils/fmt.rs:5-31, 70-84 [list_fmt], [set_fmt]; 33-68, 86-103 [tuple_fmt], [struct_fmt]. *)
Definition list_fmt {A} `{Debug A} (items : list A) : fcall := FList (map dbg items).
Definition set_fmt {A} `{Debug A} (items : list A) : fcall := FSet (map dbg items).
Definition tuple_fmt {A} `{Debug A} (name : string) (items : list A) : fcall := FTuple name (map dbg items).
Definition struct_fmt {A} `{Debug A} (name : string) (items : list (string * A)) : fcall :=
  FStruct name (map (fun kv => (fst kv, dbg (snd kv))) items).

(** utils.rs:100-104: a [Name] is written as it is, without quotes. *)
#[global] Instance Debug_name : Debug name := FStr.
(** [usize] and [bool] (std). *)
#[global] Instance Debug_nat : Debug nat := fun n => FStr (show_usize n).
#[global] Instance Debug_bool : Debug bool := fun b => FStr (if b then "true" else "false").

(** element_types.rs:6-7, 24-25 (derived); the model of both types is the name. *)
Definition dbg_terminal (t : name) : fcall := FTuple "Terminal" [dbg t].
Definition dbg_nonterminal (n : name) : fcall := FTuple "NonTerminal" [dbg n].

Section Symbols.
  Context {A : Type} {DA : Debug A}.
  (** start_grammar.rs:17-21, 57-61, 81-85, 114-118 (derived). *)
  #[global] Instance Debug_stream : Debug (StreamTerminal A) := fun t =>
    match t with EndOfStream => FStr "EndOfStream" | STerm t => FTuple "Term" [dbg t] end.
  #[global] Instance Debug_startnt : Debug (StartNonTerminal A) := fun n =>
    match n with Start => FStr "Start" | NTerm n => FTuple "NTerm" [dbg n] end.
  #[global] Instance Debug_startak : Debug (StartActionKey A) := fun k =>
    match k with StartKey => FStr "Start" | ActionKey k => FTuple "ActionKey" [dbg k] end.
  #[global] Instance Debug_startav : Debug (StartActionValue A) := fun v =>
    match v with StartValue => FStr "Start" | ActionValue v => FTuple "ActionValue" [dbg v] end.
  (** transform/nonnull.rs:63-67 (derived). *)
  #[global] Instance Debug_nnkey : Debug (NNActionKey A) := fun k =>
    FStruct "ActionKey" [("action", dbg (nk_action k)); ("nt_nullable_states", FList (map dbg (nk_nullable_states k)))].
  (** base.rs:471-476 (derived): the fields are private, so this is all a user can see of an error. *)
  #[global] Instance Debug_errors : Debug (GrammarErrors A) := fun e =>
    FStruct "GrammarErrors"
      [("unreachable_nonterms", FSet (map dbg (unreachable_nonterms e)));
       ("nonterms_without_rules", FSet (map dbg (nonterms_without_rules e)));
       ("rules_without_prods", FSet (map dbg (rules_without_prods e)))].
End Symbols.

(** nullables.rs:146-150, firsts.rs:9-13, follows.rs:9-13 (derived). *)
#[global] Instance Debug_nullable_error : Debug NullableError := fun _ => FStr "Ambiguity".
#[global] Instance Debug_firsts_error : Debug FirstsError := fun e =>
  match e with FNullableError e => FTuple "NullableError" [dbg e] end.
#[global] Instance Debug_follows_error : Debug FollowsError := fun e =>
  match e with FoFirst e => FTuple "First" [dbg e] end.

Section Trees.
  Context {NT AK : Type} {DN : Debug NT} {DK : Debug AK}.
  (** base.rs:245-249 (derived). *)
  #[global] Instance Debug_prod_key : Debug (ProdKey NT AK) := fun k =>
    FStruct "ProdKey" [("head", dbg (pk_head k)); ("action_key", dbg (pk_action_key k))].
End Trees.
Section TreeNodes.
  Context {L V : Type} {DL : Debug L} {DV : Debug V}.
  (** utils.rs:121-131 (derived); a [Box] is written like its content. *)
  Fixpoint dbg_tree (t : TreeNode L V) : fcall :=
    match t with
    | TNode a ps =>
        FStruct "TreeNode" [("action_name", dbg a); ("params", FMap (map (fun p => (dbg (fst p), dbg_tree_value (snd p))) ps))]
    end
  with dbg_tree_value (v : TreeValue L V) : fcall :=
    match v with
    | TVNode t => FTuple "Node" [dbg_tree t]
    | TVLeaf v => FTuple "Leaf" [dbg v]
    end.
  #[global] Instance Debug_tree : Debug (TreeNode L V) := dbg_tree.
End TreeNodes.
#[global] Instance Debug_void : Debug Void := fun v => match v with end.

(** transform/nonnull.rs:84-88 (derived). *)
#[global] Instance Debug_nnvalue {NT AK AV} {DN : Debug NT} {DK : Debug AK} {DV : Debug AV} : Debug (NNActionValue NT AK AV) := fun v =>
  FStruct "ActionValue" [("parent_value", dbg (nv_parent_value v));
    ("nullable_arguments", FMap (map (fun p => (dbg (fst p), dbg (snd p))) (nv_nullable_arguments v)))].

Section Grammars.
  Context {T NT AK AV : Type} {DT : Debug T} {DN : Debug NT}.

  (** base.rs:83-94: the symbol is formatted with [{:?}] whatever the style. *)
  #[global] Instance Debug_elem : Debug (Elem T NT) := fun e =>
    match e with
    | Term t => FStr (debug_text false t)
    | NonTerm n => FStr ("<" ++ debug_text false n ++ ">")
    end.
  (** base.rs:161-172 *)
  #[global] Instance Debug_prod_element : Debug (ProdElement T NT) := fun e =>
    match pe_id e with
    | Some name => FSeq (FStr (name ++ ":")) (dbg (pe_elem e))
    | None => dbg (pe_elem e)
    end.
  (** base.rs:755-766 *)
  #[global] Instance Debug_prod : Debug (Prod T NT AK AV) := fun p =>
    FStruct "Prod" [("head", dbg (p_head p)); ("elems", FList (map dbg (prod_elements p)))].
  (** base.rs:611-622 *)
  #[global] Instance Debug_rule : Debug (RuleInner T NT AK AV) := fun r =>
    FStruct "Rule" [("head", dbg (r_head r)); ("prods", FList (map dbg (rule_prods r)))].
  (** base.rs:329-342 *)
  #[global] Instance Debug_grammar : Debug (Grammar T NT AK AV) := fun g =>
    FStruct "Grammar" [("Terms", FList (map dbg (get_terminals g)));
      ("NonTerms", FList (map dbg (get_nonterminals g))); ("Rules", FList (map dbg (rules g)))].

  (** state.rs:33-46 (derived with [derivative]) *)
  #[global] Instance Debug_prod_state : Debug (ProdState T NT AK AV) := fun s =>
    FStruct "ProdState" [("prod", dbg (ps_prod s)); ("index", dbg (ps_index s))].
End Grammars.

Section Earley.
  Context {T NT AK AV : Type} {DT : Debug T} {DN : Debug NT}.
  (** earley/state.rs:213-225 *)
  #[global] Instance Debug_earley_state : Debug (@EarleyState T NT AK AV) := fun s =>
    FStruct "EarleyState" [("prod_state", dbg (ek_prod_state (es_key s))); ("origin_index", dbg (ek_origin (es_key s)));
      ("value_len", dbg (length (es_value s)))].
  (** earley/state.rs:333-343 *)
  Definition dbg_state_set (s : @EarleyStateSet T NT AK AV) : fcall := FSet (map dbg (states s)).
End Earley.
