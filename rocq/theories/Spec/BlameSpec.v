(** Programs that use the parser as an oracle: they parse beginnings of the input, or the input with other tokens after
    it, each in a tree of its own and inside catch_unwind, to find the first wrong token, the tokens that can follow, and
    the ways to complete the input. *)
From Coq Require Import String List Arith Bool.
From Verif.Model Require Import Ord BTree Outcome Utils Grammar StartGrammar Tokens Tree State Earley.
From Verif.Spec Require Import WalkSpec.
Import ListNotations.

(** What a parse tells: a node, no node, the panic of a syntax error, another panic. *)
Inductive verdict := Accepted | Unfinished | Refused | Confused.
(** What is said about an input: some word begins with it; the token at this position is the first wrong one; the parser
    panicked for another reason at this position. *)
Inductive report := Fine | Bad (i : nat) | Unsure (i : nat).

Section Oracle.
  Context {T NT AK AV V : Type} `{Ord T} `{Ord NT} `{Ord AK} `{Ord V}.
  Variable lay : layout (StartNonTerminal NT).
  Variable sg : StartGrammar T NT AK AV.
  Variable g : Grammar T NT AK AV.

  Definition attempt (fuel : nat) (w : list (Token T V)) : outcome verdict :=
    match parse lay sg w in_new fuel with
    | Ret (Some _, _) => Ret Accepted
    | Ret (None, _) => Ret Unfinished
    | Panic msg => Ret (if string_dec msg "assertion failed: !new_state.is_empty()" then Refused else Confused)
    | NoFuel => NoFuel
    end.

  (** The beginnings of the input one after the other, from [past] on, which was not refused. *)
  Fixpoint blame (fuel : nat) (past rest : list (Token T V)) : outcome report :=
    match rest with
    | [] => Ret Fine
    | x :: rest =>
        v <- attempt fuel (past ++ [x]) ;;
        match v with
        | Refused => Ret (Bad (List.length past))
        | Confused => Ret (Unsure (List.length past))
        | _ => blame fuel (past ++ [x]) rest
        end
    end.

  (** The terminals in the bodies of the productions. *)
  Definition terminals : list T := filter_map as_term (flat_map elements (prods g)).

  Variable value : T -> V.
  Definition make (ks : list T) : list (Token T V) := map (fun k => Build_Token k (value k)) ks.
  Definition fits (v : verdict) : bool := match v with Accepted | Unfinished => true | _ => false end.
  Definition is_word (v : verdict) : bool := match v with Accepted => true | _ => false end.

  (** The terminals that can come next. *)
  Definition expected (fuel : nat) (w : list (Token T V)) : outcome (list T) :=
    vs <- each (fun k => v <- attempt fuel (w ++ make [k]) ;; Ret (k, v)) terminals ;;
    Ret (map fst (filter (fun kv => fits (snd kv)) vs)).

  (** Try to add each of [front] to the input: those that make it a word, and those with which it still can become one. *)
  Definition try_all (fuel : nat) (w : list (Token T V)) (front : list (list T)) : outcome (list (list T) * list (list T)) :=
    vs <- each (fun u => v <- attempt fuel (w ++ make u) ;; Ret (u, v)) front ;;
    Ret (map fst (filter (fun uv => is_word (snd uv)) vs), map fst (filter (fun uv => fits (snd uv)) vs)).
  Definition longer (live : list (list T)) : list (list T) := flat_map (fun u => map (fun k => u ++ [k]) terminals) live.

  (** A shortest way to complete the input, or [None] if there is none. *)
  Fixpoint complete (steps fuel : nat) (w : list (Token T V)) (front : list (list T)) : outcome (option (list T)) :=
    match steps with
    | 0 => NoFuel
    | S steps =>
        '(words, live) <- try_all fuel w front ;;
        match words, live with
        | u :: _, _ => Ret (Some u)
        | [], [] => Ret None
        | [], _ => complete steps fuel w (longer live)
        end
    end.
  (** All ways to complete the input with at most [n] more tokens ([w] empty: the words of length at most [n]). *)
  Fixpoint completions (n fuel : nat) (w : list (Token T V)) (front : list (list T)) : outcome (list (list T)) :=
    '(words, live) <- try_all fuel w front ;;
    match n with
    | 0 => Ret words
    | S n => us <- completions n fuel w (longer live) ;; Ret (words ++ us)
    end.
End Oracle.
