(** What the parsers of the tests with patterns should compute, without grammars. *)
From Coq Require Import Arith Bool String Ascii NArith List.
From Verif Require Import Base.Prelude Model.TokenTree Model.Terminal Model.CodeGen Model.Runtime Model.Diagnostics Model.Rust Model.Emit Model.Expand Model.TestGrammars.
From Verif Require Import Spec.Values Spec.Diagnostics.
Import ListNotations.
Open Scope list_scope.

(** As [item_of] and [always_made] of [Spec.TestLanguages], but with a given way
    [print] of printing tokens. *)
Definition item_printed (bm : BuildMode) (print : list ttree -> string) (input : list ttree) (em : emitted) : Prop :=
  exists (span : Type) (call_site : span) (join_spans : span -> span -> option span) (lex_error : string -> string)
    (literal_ok : string -> bool) ho fuel ts,
  orders_ok ho /\ trees ts = input /\
  (Expand.grammar (bm := bm) span call_site join_spans print lex_error literal_ok ho fuel ts = Ok (Item span em) \/
   Expand.pub_grammar (bm := bm) span call_site join_spans print lex_error literal_ok ho fuel ts = Ok (Item span em)).

Definition always_printed (bm : BuildMode) (print : list ttree -> string) (input : list ttree) : Prop :=
  forall (span : Type) (call_site : span) (join_spans : span -> span -> option span) (lex_error : string -> string)
    (literal_ok : string -> bool) ho ts,
  orders_ok ho -> trees ts = input ->
  exists N, forall fuel, N < fuel -> exists em em',
    Expand.grammar (bm := bm) span call_site join_spans print lex_error literal_ok ho fuel ts = Ok (Item span em) /\
    Expand.pub_grammar (bm := bm) span call_site join_spans print lex_error literal_ok ho fuel ts = Ok (Item span em').

(** The patterns of the input, and a way of printing that tells them apart: the macro
    knows a pattern by its text only. *)
Definition written_patterns (input : list ttree) : list (list ttree) :=
  flat_map (fun t => match t with TGroup Parenthesis ts => [ts] | _ => [] end) input.
Definition tells_apart (print : list ttree -> string) (input : list ttree) : Prop :=
  forall p q, In p (written_patterns input) -> In q (written_patterns input) -> print p = print q -> p = q.

(** ** tests/token_pattern.rs: the eight tokens of [public static void name == value;]
    (sic), where the name and the semicolon are not followed by punctuation. *)
Definition java_name (f : java_field) : string :=
  match f with
  | FKeyword _ => "Keyword"
  | FIdent _ _ => "Ident"
  | FLiteral _ => "Literal"
  | FOperator _ _ => "Operator"
  end%string.
Definition java_tok (print : list ttree -> string) (f : java_field) : tok (java_rust print) := TVariant (java_name f) (Some f).
Definition declares_main (fs : list java_field) (name value : string) : Prop :=
  fs = [FKeyword Public; FKeyword Static; FKeyword Void; FIdent name Alone; FOperator Eq Joint; FOperator Eq Alone; FLiteral value; FOperator Semicolon Alone].

(** ** tests/disjoint_token_pattern.rs: the two patterns; tokens are pairs of
    [field1] and [field2]. *)
Definition range_tok (print : list ttree -> string) (f : N * N) : tok (range_rust print) := TVariant "A"%string (Some f).
Definition first_pattern (f : N * N) : Prop := (fst f < 10)%N.
Definition second_pattern (f : N * N) : Prop := (5 <= fst f < 12)%N /\ snd f = 100%N.
Definition some_pattern (f : N * N) : Prop := first_pattern f \/ second_pattern f.
Definition both_patterns (f : N * N) : Prop := first_pattern f /\ second_pattern f.
