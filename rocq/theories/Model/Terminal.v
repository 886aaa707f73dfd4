(** Model of parser_generator_impl/src/annotated_grammar/terminal.rs (the
    symbols and the patterns generated for them; parsing is in FrontEnd.v) and of
    [TerminalType] in parse_grammar.rs. *)
From Coq Require Import Arith Bool String Ascii NArith List.
From Verif Require Import Base.Prelude Spec.Grammar Model.Error Model.TokenTree.
Import ListNotations.

(** terminal.rs:55-60; a pattern is kept as its text, as in the code. *)
Inductive paren_group := PGPattern (pat : string) | PGWildcard | PGNone.

(** terminal.rs:62-66 *)
Record user_symbol := mk_symbol { sname : string; sparen : paren_group }.

#[global] Instance EqDec_paren_group : EqDec paren_group.
Proof. intros x y; decide equality; apply string_dec. Defined.
#[global] Instance EqDec_user_symbol : EqDec user_symbol.
Proof. intros [n1 p1] [n2 p2]; decide equality; [apply eq_dec|apply string_dec]. Defined.

(** terminal.rs:77-79 *)
Definition is_wildcard_symbol (s : user_symbol) : bool :=
  match sparen s with PGWildcard => true | _ => false end.

(** terminal.rs:81-83 *)
Definition is_pattern_symbol (s : user_symbol) : bool :=
  match sparen s with PGPattern _ => true | _ => false end.

(** terminal.rs:43-53 *)
Inductive pattern_mode := Named | Unnamed | Rhs.

(** The Rust patterns and expressions that are generated for a token. *)
Inductive pat_code :=
| PLiteral (lit : string)                  (* 'a'                            *)
| PVariant (name : string)                 (* Enum::A                        *)
| PRest (name : string)                    (* Enum::A(..)                    *)
| PBind (name : string)                    (* Enum::A(wildcard_var)          *)
| PPat (name pat : string)                 (* Enum::A(pat)                   *)
| PBindPat (name pat : string)             (* Enum::A(ref wildcard_var @ pat) *)
| PClone (name : string).                  (* Enum::A(wildcard_var.clone())  *)

(** What generating code reports to the user of the macro
    ([ParserGeneratorError]; messages are replaced by what they say). *)
Inductive gen_error :=
| LiteralWithPattern
| NotALiteral (text : string)
| MissingConstructor
| ConstructorNotBraced
| UnknownReference (label : string)
| AmbiguousReference (label : string)
| NotAnIndex (text : string)
| IndexOutOfRange (i : N)
| IndexOfEpsilon (i : nat)
| DanglingNumberSign
| LRError (e : lr_error user_symbol string)
| Unexpected (message : string).

(** parse_grammar.rs:71-74 [TerminalType]; the type is kept as its tokens. *)
Inductive terminal_type := TTRaw (ty : list ttree) | TTEnum (ty : list ttree).

(** parse_grammar.rs:77-81 *)
Definition inner_type (tt : terminal_type) : list ttree :=
  match tt with TTRaw ty | TTEnum ty => ty end.

Section Patterns.
(** Whether [proc_macro2::Literal::from_str] accepts a text. *)
Variable literal_ok : string -> bool.

(** terminal.rs:85-94 *)
Definition as_literal (s : user_symbol) : outcome gen_error string :=
  match sparen s with
  | PGNone => if literal_ok (sname s) then Ok (sname s) else Err (NotALiteral (sname s))
  | _ => Err LiteralWithPattern
  end.

(** terminal.rs:96-98.  [Ident::new] panics unless the name is an identifier. *)
Definition as_ident (s : user_symbol) : outcome gen_error string :=
  if string_is_identifier (sname s) then Ok (sname s) else Panic "not a valid identifier".

(** terminal.rs:100-126.  The [expect] that a pattern's text is tokenized
    again, just as it was before it was printed, is not modelled. *)
Definition as_pattern (s : user_symbol) (mode : pattern_mode) : outcome gen_error pat_code :=
  ident <- as_ident s ;;
  Ok (match sparen s with
      | PGPattern pat =>
          match mode with
          | Named => PBindPat ident pat
          | Unnamed => PPat ident pat
          | Rhs => PClone ident
          end
      | PGWildcard =>
          match mode with
          | Named => PBind ident
          | Unnamed => PRest ident
          | Rhs => PClone ident
          end
      | PGNone => PVariant ident
      end).

(** parse_grammar.rs:83-95 *)
Definition try_build_pattern (tt : terminal_type) (s : user_symbol) (mode : pattern_mode)
  : outcome gen_error pat_code :=
  match tt with
  | TTRaw _ => l <- as_literal s ;; Ok (PLiteral l)
  | TTEnum _ => as_pattern s mode
  end.

(** What a match arm is matched against: [None], [Some(pat)] or [Some(&pat)].
    The two latter match the same tokens and are not distinguished. *)
Inductive matcher := MNone | MSome (p : pat_code).

(** parse_grammar.rs:97-108 *)
Definition try_build_matcher (tt : terminal_type) (s : user_symbol) (mode : pattern_mode)
  : outcome gen_error matcher :=
  p <- try_build_pattern tt s mode ;;
  Ok (MSome p).

(** code_gen/state_action_builder.rs:42-54 *)
Definition token_matcher (tt : terminal_type) (token : aug user_symbol) (mode : pattern_mode)
  : outcome gen_error matcher :=
  match token with
  | Token token => try_build_matcher tt token mode
  | EndOfStream => Ok MNone
  | Epsilon => Panic "internal error: entered unreachable code"
  end.

End Patterns.
