(** What is right about the error of a parser whose stream of tokens fails. *)
From Coq Require Import Arith Bool String List.
From Verif Require Import Base.Prelude Spec.Grammar Spec.Values Spec.Meaning.
From Verif Require Import Model.TokenTree Model.Terminal Model.Constructor Model.CodeGen Model.Runtime Model.Rust.
Import ListNotations.

Section Streams.
Variable R : rust.
Variable gi : grammar_info.

(** A constructor fails with [u] after some, but not all, of the tokens [ts]; these
    can be completed to an input in which the next token is that of [ts]. *)
Definition fails_within (ts : list (tok R)) (u : UErr R) : Prop :=
  exists n rest, n < List.length ts /\ input_fails R gi (firstn n ts) rest u /\ could_begin R gi rest (nth_error ts n).

(** What is right about an error, if the stream gives the tokens [ts] and then fails
    with [u]: it is that of a constructor that fails before the end of [ts]; or it shows
    the first of the tokens that no sentence has there; or else all of them begin a
    sentence, and it is [u]. *)
Definition right_stream_error (ts : list (tok R)) (u : UErr R) (e : parser_error R) : Prop :=
  (exists u', e = UserError R u' /\ fails_within ts u') \/
  (forall u', ~ fails_within ts u') /\
  ((exists n k, nth_error ts n = Some k /\ e = ParseError R (Some k) /\ begins_sentence R gi (firstn n ts) /\
      ~ begins_sentence R gi (firstn (S n) ts)) \/
   (e = UserError R u /\ begins_sentence R gi ts)).
End Streams.
