(** What a printed grammar says: the layouts of a document, the tokens of a text, and a reader for texts. *)
From Coq Require Import String Ascii List Arith Bool.
From Verif.Model Require Import Grammar Pretty.
Import ListNotations.
Local Open Scope string_scope.

(** ** Layouts *)

Definition newline : ascii := "010"%char.
Fixpoint spaces (n : nat) : string := match n with 0 => "" | S n => String " " (spaces n) end.

(** [laid_out flat i d s]: [s] is a rendering of [d] at indentation [i].  The renderer decides for each group
    whether it is laid out flat or broken; nothing is assumed about how it decides. *)
Inductive laid_out : bool -> nat -> doc -> string -> Prop :=
| lay_nil f i : laid_out f i DNil ""
| lay_text f i s : laid_out f i (DText s) s
| lay_append f i a b s t : laid_out f i a s -> laid_out f i b t -> laid_out f i (DAppend a b) (s ++ t)
| lay_group f f' i d s : laid_out f' i d s -> laid_out f i (DGroup d) s
| lay_nest f i n d s : laid_out f (i + n) d s -> laid_out f i (DNest n d) s
| lay_broken i b a s : laid_out false i b s -> laid_out false i (DFlatAlt b a) s
| lay_flat i b a s : laid_out true i a s -> laid_out true i (DFlatAlt b a) s
| lay_hardline f i : laid_out f i DHardline (String newline (spaces i)).

(** A renderer: whatever the width, the result is a layout of the document. *)
Definition renders (render : nat -> doc -> string) : Prop :=
  forall w d, exists f, laid_out f 0 d (render w d).

(** ** Tokens *)

(** White space separates words; each punctuation character is a token. *)
Definition is_space (c : ascii) : bool := Ascii.eqb c " " || Ascii.eqb c newline.
Definition is_punct (c : ascii) : bool :=
  existsb (Ascii.eqb c) ["<"; ">"; "="; "|"; ";"; ","; "{"; "}"; ":"]%char.

Inductive token := Word (s : string) | Sym (c : ascii).

Definition word (w : string) : list token := if String.eqb w "" then [] else [Word w].

Fixpoint lex_from (w s : string) : list token :=
  match s with
  | "" => word w
  | String c s =>
    if is_space c then word w ++ lex_from "" s
    else if is_punct c then word w ++ Sym c :: lex_from "" s
    else lex_from (w ++ String c "") s
  end%list.
Definition lex (s : string) : list token := lex_from "" s.

(** ** The grammar as names *)

(** A production as its elements, a rule as its head and productions, a grammar as its start symbol and
    rules. *)
Definition text_prod := list (ProdElement string string).
Definition text_rule : Type := string * list text_prod.
Definition text_grammar : Type := string * list text_rule.

Section Content.
  Context {T NT AK AV : Type}.
  Variables (show_t : T -> string) (show_nt : NT -> string).

  Definition elem_names (e : ProdElement T NT) : ProdElement string string :=
    Build_ProdElement (pe_id e)
      (match pe_elem e with Term t => Term (show_t t) | NonTerm n => NonTerm (show_nt n) end).
  Definition prod_names (p : ProdInner T NT AK AV) : text_prod := map elem_names (pi_elements p).
  Definition rule_names (r : RuleInner T NT AK AV) : text_rule :=
    (show_nt (r_head r), map prod_names (r_prods r)).
  Definition grammar_names (g : Grammar T NT AK AV) : text_grammar :=
    (show_nt (start_nt g), map rule_names (rules g)).
End Content.

(** ** The tokens a grammar is written with *)

Fixpoint separated {A} (sep : list A) (ls : list (list A)) : list A :=
  match ls with
  | [] => []
  | [l] => l
  | l :: ls => l ++ sep ++ separated sep ls
  end.

Definition elem_tokens (e : ProdElement string string) : list token :=
  match pe_id e with Some n => lex n ++ [Sym ":"%char] | None => [] end ++
  match pe_elem e with Term t => lex t | NonTerm n => Sym "<"%char :: lex n ++ [Sym ">"%char] end.
Definition prod_tokens (p : text_prod) : list token :=
  match p with [] => [Word "ε"] | _ => flat_map elem_tokens p end.
Definition rule_tokens (r : text_rule) : list token :=
  lex (fst r) ++ [Sym "="; Sym ">"]%char ++
  separated [Sym "|"%char] (map prod_tokens (snd r)) ++ [Sym ";"%char].
Definition grammar_tokens (g : text_grammar) : list token :=
  [Word "Start"; Sym "="%char] ++ lex (fst g) ++ [Sym ","%char] ++
  [Word "Rules"; Sym "{"%char] ++ flat_map rule_tokens (snd g) ++ [Sym "}"; Sym ","]%char.

(** ** Reading a text back *)

Fixpoint read_elems (ts : list token) : option text_prod :=
  let cons e r := option_map (cons e) r in
  match ts with
  | [] => Some []
  | Word i :: Sym ":" :: Sym "<" :: Word n :: Sym ">" :: ts =>
      cons (Build_ProdElement (Some i) (NonTerm n)) (read_elems ts)
  | Word i :: Sym ":" :: Word t :: ts => cons (Build_ProdElement (Some i) (Term t)) (read_elems ts)
  | Sym "<" :: Word n :: Sym ">" :: ts => cons (Build_ProdElement None (NonTerm n)) (read_elems ts)
  | Word t :: ts => cons (Build_ProdElement None (Term t)) (read_elems ts)
  | _ => None
  end%char.

Definition read_prod (ts : list token) : option text_prod :=
  match ts with
  | [] => None
  | [Word w] => if String.eqb w "ε" then Some [] else read_elems ts
  | _ => read_elems ts
  end.

(** The pieces between occurrences of a punctuation character. *)
Fixpoint split_at (c : ascii) (ts : list token) : list (list token) :=
  match ts with
  | [] => [[]]
  | t :: ts =>
    let rest := split_at c ts in
    match t with
    | Sym d => if Ascii.eqb c d then [] :: rest
               else match rest with [] => [] | l :: ls => (t :: l) :: ls end
    | Word _ => match rest with [] => [] | l :: ls => (t :: l) :: ls end
    end
  end.

Fixpoint all_some {A} (l : list (option A)) : option (list A) :=
  match l with
  | [] => Some []
  | Some a :: l => option_map (cons a) (all_some l)
  | None :: _ => None
  end.

Definition read_rule (ts : list token) : option text_rule :=
  match ts with
  | Word h :: Sym "=" :: Sym ">" :: ts => option_map (pair h) (all_some (map read_prod (split_at "|" ts)))
  | _ => None
  end%char.

Definition read_tokens (ts : list token) : option text_grammar :=
  match ts with
  | Word "Start" :: Sym "=" :: Word s :: Sym "," :: Word "Rules" :: Sym "{" :: ts =>
      match split_at "}" ts with
      | [rs; [Sym ","]] => option_map (pair s) (all_some (map read_rule (removelast (split_at ";" rs))))
      | _ => None
      end
  | _ => None
  end%char.

Definition read_grammar (text : string) : option text_grammar := read_tokens (lex text).

(** Names that can be read back: non-empty, without white space and punctuation. *)
Fixpoint plain (s : string) : bool :=
  match s with "" => true | String c s => negb (is_space c || is_punct c) && plain s end.
Definition clean (s : string) : Prop := s <> "" /\ plain s = true.

(** All names of a grammar can be read back.  A terminal named like the sign for the empty body cannot. *)
Definition readable (g : text_grammar) : Prop :=
  clean (fst g) /\
  forall h ps, In (h, ps) (snd g) -> clean h /\
    forall p e, In p ps -> In e p ->
      (forall n, pe_id e = Some n -> clean n) /\
      match pe_elem e with Term t => clean t /\ t <> "ε" | NonTerm n => clean n end.

(** A renderer that lays out a group flat if the group itself fits in what is left of the line. *)
Fixpoint flat_width (d : doc) : nat :=
  match d with
  | DNil => 0
  | DText s => String.length s
  | DAppend a b => flat_width a + flat_width b
  | DGroup d => flat_width d
  | DNest _ d => flat_width d
  | DFlatAlt _ a => flat_width a
  | DHardline => 0
  end.
Fixpoint render_at (w : nat) (flat : bool) (i col : nat) (d : doc) : string * nat :=
  match d with
  | DNil => ("", col)
  | DText s => (s, col + String.length s)
  | DAppend a b => let (s, c1) := render_at w flat i col a in let (t, c2) := render_at w flat i c1 b in (s ++ t, c2)
  | DGroup d => render_at w (flat || (Nat.leb (col + flat_width d) w)) i col d
  | DNest n d => render_at w flat (i + n) col d
  | DFlatAlt b a => if flat then render_at w true i col a else render_at w false i col b
  | DHardline => (String newline (spaces i), i)
  end.
Definition simple_render (w : nat) (d : doc) : string := fst (render_at w false 0 0 d).
