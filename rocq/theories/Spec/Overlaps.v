(** Tokens that stand for several terminals. Patterns of terminals may overlap,
    so that a token can be read as one terminal or as another. What a parser has
    read then is not only a list of tokens, but a list of terminals too: a
    reading. *)
From Coq Require Import Arith Bool String List.
From Verif Require Import Base.Prelude Spec.Grammar Spec.Validity Model.Error.
From Verif Require Import Model.TokenTree Model.Terminal Model.Constructor Model.CodeGen Model.Runtime Spec.Values Spec.Causes.
From Verif Require Import Model.Rust Spec.EmittedCode Spec.Meaning.
Import ListNotations.

Section Overlaps.
Context {bm : BuildMode}.
Variable R : rust.
Variable gi : grammar_info.
Local Notation g := (source (gi_rules gi)).

(** Some sentence of the grammar begins with these terminals. *)
Definition begin_sentence (us : list user_symbol) : Prop := exists vs, language g (us ++ vs).

(** After the terminals [us], sentences go on with two terminals that both match
    the token. *)
Definition doubtful (us : list user_symbol) (k : tok R) : Prop :=
  exists s s', s <> s' /\ sym_matches R gi s k = true /\ sym_matches R gi s' k = true /\ begin_sentence (us ++ [s]) /\ begin_sentence (us ++ [s']).

(** No token was doubtful when it was read. *)
Definition decided (ls : list (user_symbol * tok R)) : Prop :=
  forall l1 s k l2, ls = l1 ++ (s, k) :: l2 -> ~ doubtful (map fst l1) k.

(** No sentence goes on with the token, however it is read; or none ends here. *)
Definition no_way_on (us : list user_symbol) (o : option (tok R)) : Prop :=
  match o with
  | Some k => forall s, sym_matches R gi s k = true -> ~ begin_sentence (us ++ [s])
  | None => ~ language g us
  end.

(** The parser looks for doubtful tokens. *)
Definition looks_for_doubt : Prop := debug_assertions = true /\ exists ty, gi_terminal_type gi = TTEnum ty.

(** How the terminals of the trees were read. *)
Definition reading (ds : list (dtree R)) : list user_symbol := map fst (flat_map leaves ds).

Context {SErr : Type}.
Variable into : SErr -> UErr R.
Variable input : nat -> option (tok R + SErr).

(** The trees [ds] explain the result [r] of a parser on the stream. *)
Definition explains (ds : list (dtree R)) (r : val R + parser_error R) : Prop :=
  let next := input (length (tokens_of R ds)) in
  Forall (well_formed R gi) ds /\ starts input (tokens_of R ds) /\ begin_sentence (reading ds) /\
  (looks_for_doubt -> decided (flat_map leaves ds) /\
    forall k, r = inr (OverlappingTokenMatchers R k) <-> next = Some (inl k) /\ doubtful (reading ds) k) /\
  match r with
  | inl v => next = None /\ exists d, ds = [d] /\ parses_tokens R gi (tokens_of R ds) d /\ snd (Values.eval R gi d) = inl v
  | inr err => error_cause R gi into ds next err /\ forall o, err = ParseError R o -> no_way_on (reading ds) o
  end.

End Overlaps.

(** A run of emitted code ends with a result. *)
Definition gives {E SErr : Type} (R : rust) (m : Rust.result (E := E) (SErr := SErr) R) (r : val R + parser_error R) : Prop :=
  match r with inl v => gives_value R m v | inr e => gives_error R m e end.
