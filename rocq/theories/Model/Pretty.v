(** The [ToDoc] implementations: grammars as documents for the external crate [pretty] (version 0.10).

    Documents are those of the crate; how they are rendered is specified in Spec/PrettySpec.v.  Texts are
    strings of bytes (UTF-8). *)
From Coq Require Import String List.
From Verif.Model Require Import Ord BTree Outcome Grammar StartGrammar NonNull.
Import ListNotations.
Local Open Scope string_scope.

(** Documents of the crate [pretty] ([Doc]; only the constructors the code uses, directly or through the
    combinators below). *)
Inductive doc :=
| DNil
| DText (s : string)
| DAppend (a b : doc)
| DGroup (d : doc)
| DNest (n : nat) (d : doc)
| DFlatAlt (broken flat : doc)
| DHardline.

(** Combinators of the crate: [line], [line_], [softline], [softline_], [concat], [intersperse], [braces]. *)
Definition line : doc := DFlatAlt DHardline (DText " ").
Definition line_ : doc := DFlatAlt DHardline DNil.
Definition softline : doc := DGroup line.
Definition softline_ : doc := DGroup line_.
Definition concat_docs (ds : list doc) : doc := fold_left DAppend ds DNil.
Definition intersperse (ds : list doc) (sep : doc) : doc :=
  match ds with
  | [] => DNil
  | d :: ds => fold_left (fun acc d => DAppend (DAppend acc sep) d) ds (DAppend DNil d)
  end.
Definition braces (d : doc) : doc := DAppend (DAppend (DText "{") d) (DText "}").

(** src/utils.rs:45-52 [ToDoc]. *)
Class ToDoc (A : Type) := to_doc : A -> doc.

(** src/utils.rs:54-61. *)
#[export] Instance ToDoc_unit : ToDoc unit := fun _ => DText "()".

(** src/utils.rs:112-119 ([Name]); src/grammar/base/element_types.rs:15-22, 33-40 ([Terminal], [NonTerminal],
    which wrap a [Name]). *)
#[export] Instance ToDoc_name : ToDoc name := fun s => DText s.

Section Symbols.
  Context {T NT AK AV : Type} `{ToDoc T} `{ToDoc NT}.

  (** src/grammar/base.rs:62-81 *)
  #[export] Instance ToDoc_Elem : ToDoc (Elem T NT) := fun e =>
    match e with
    | NonTerm nt => DAppend (DAppend (DText "<") (to_doc nt)) (DText ">")
    | Term t => to_doc t
    end.

  (** src/grammar/base.rs:139-160 *)
  #[export] Instance ToDoc_ProdElement : ToDoc (ProdElement T NT) := fun e =>
    let prefix :=
      match pe_id e with
      | Some id => DAppend (to_doc id) (DAppend (DText ":") softline_)
      | None => DNil
      end in
    DAppend prefix (to_doc (pe_elem e)).

  (** src/grammar/base.rs:219-238 *)
  #[export] Instance ToDoc_ProdInner : ToDoc (ProdInner T NT AK AV) := fun p =>
    match pi_elements p with
    | [] => DText "ε"
    | es => intersperse (map to_doc es) softline
    end.

  (** src/grammar/base.rs:284-307 *)
  #[export] Instance ToDoc_RuleInner : ToDoc (RuleInner T NT AK AV) := fun r =>
    DAppend (DAppend (DAppend (to_doc (r_head r)) (DText " =>")) softline)
      (intersperse (map to_doc (r_prods r)) (DAppend (DText " |") softline)).

  (** src/grammar/base.rs:518-551 *)
  #[export] Instance ToDoc_Grammar : ToDoc (Grammar T NT AK AV) := fun g =>
    let start_entry := DAppend (DAppend (DGroup (DText "Start =")) softline) (to_doc (start_symbol g)) in
    let rules_entry :=
      DAppend (DText "Rules ")
        (braces (DAppend softline
          (DNest 2 (concat_docs (map (fun rule => DAppend (DAppend (to_doc (snd rule)) (DText ";")) softline)
                                     (rule_set g)))))) in
    concat_docs (map (fun d => DAppend (DAppend d (DText ",")) softline) [start_entry; rules_entry]).

  (** src/grammar/base.rs:460-468 [to_pretty]; [render w d]: the crate's [pretty(w)], formatted. *)
  Definition to_pretty (render : nat -> doc -> string) (g : Grammar T NT AK AV) : string :=
    render 80 (to_doc g).
End Symbols.

(** src/start_grammar.rs:38-55, 63-79, 96-112, 120-136 *)
#[export] Instance ToDoc_StreamTerminal {T} `{ToDoc T} : ToDoc (StreamTerminal T) := fun t =>
  match t with EndOfStream => DText "<EOS>" | STerm t => to_doc t end.
#[export] Instance ToDoc_StartNonTerminal {NT} `{ToDoc NT} : ToDoc (StartNonTerminal NT) := fun n =>
  match n with Start => DText "<START>" | NTerm nt => to_doc nt end.
#[export] Instance ToDoc_StartActionKey {AK} `{ToDoc AK} : ToDoc (StartActionKey AK) := fun k =>
  match k with StartKey => DText "<START>" | ActionKey ak => to_doc ak end.
#[export] Instance ToDoc_StartActionValue {AV} `{ToDoc AV} : ToDoc (StartActionValue AV) := fun v =>
  match v with StartValue => DText "<START>" | ActionValue av => to_doc av end.

(** src/grammar/transform/nonnull.rs:69-82, 90-103 *)
#[export] Instance ToDoc_NNActionKey {AK} `{ToDoc AK} : ToDoc (NNActionKey AK) := fun k =>
  DAppend DNil (to_doc (nk_action k)).
#[export] Instance ToDoc_NNActionValue {NT AK AV} `{ToDoc AV} : ToDoc (NNActionValue NT AK AV) := fun v =>
  DAppend DNil (to_doc (nv_parent_value v)).
