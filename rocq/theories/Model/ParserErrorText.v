(** Model of the texts of the errors of generated parsers: [Display] and [Debug]
    in src/error.rs:19-26 and 71-99.  Writing to a string does not fail, so the
    results of [write!] are omitted. *)
From Coq Require Import String List.
From Verif Require Import Base.Prelude Model.Terminal Model.Runtime.
Import ListNotations.
Open Scope string_scope.

(** [{:?}] of an [Option]: derived [Debug] of the standard library, which
    writes the value by its own [Debug]. *)
Definition debug_option {A : Type} (debug : A -> string) (o : option A) : string :=
  match o with
  | Some a => "Some(" ++ debug a ++ ")"
  | None => "None"
  end.

(** src/error.rs:72-84 and 86-99, which differ only in the text [show] of a
    user's error, [Display] in the one and [Debug] in the other.  The token of
    [OverlappingTokenMatchers] is formatted where the error is made,
    parser_generator_impl/src/code_gen/state_action_builder.rs:136-143; what is
    formatted there is the peeked value, an [Option]. *)
Definition error_text (R : rust) (debug_token : tok R -> string) (show : UErr R -> string) (e : parser_error R) : string :=
  match e with
  | ParseError _ next_token => "Failed to parse: unexpected " ++ debug_option debug_token next_token
  | OverlappingTokenMatchers _ t =>
      "Token " ++ debug_option debug_token (Some t) ++
      " matches multiple rules. Disambiguate matchers for tokens of this type."
  | UserError _ e => show e
  end.

(** src/error.rs:19: the derived [Debug] of [NoUserErrorType]; its [Display],
    src/error.rs:22-26. *)
Definition no_user_error_debug (_ : unit) : string := "NoUserErrorType".
Definition no_user_error_display (_ : unit) : string := "".
