(** Model of the texts of operators and symbols: [Display] in
    parser_generator_impl/src/symbol.rs:74-91 and 213-224, and the derived [Debug]
    of operators, 52.  Writing to a string does not fail, so the results of
    [write!] are omitted. *)
From Coq Require Import Arith Bool String Ascii List.
From Verif Require Import Base.Prelude Model.TokenTree Model.Symbol.
Import ListNotations.
Open Scope string_scope.
Open Scope nat_scope.

(** symbol.rs:74-91 *)
Definition show_operator (op : operator) : string :=
  match op with
  | Arrow => "=>"
  | Colon => ":"
  | Semicolon => ";"
  | NumberSign => "#"
  | BeginProd => "<"
  | EndProd => ">"
  | Pipe => "|"
  | Scope => "::"
  | Bang => "!"
  end.

(** symbol.rs:52: the derived [Debug] *)
Definition debug_operator (op : operator) : string :=
  match op with
  | Arrow => "Arrow"
  | Colon => "Colon"
  | Semicolon => "Semicolon"
  | NumberSign => "NumberSign"
  | BeginProd => "BeginProd"
  | EndProd => "EndProd"
  | Pipe => "Pipe"
  | Scope => "Scope"
  | Bang => "Bang"
  end.

(** [Debug] of strings in the standard library, used in symbol.rs:221.  Strings
    are byte strings here; the bytes of characters beyond ASCII are written as
    they are, while Rust escapes those that cannot be printed. *)
Definition hex_digit (n : nat) : ascii := ascii_of_nat (if n <? 10 then 48 + n else 87 + n).
Definition debug_char (c : ascii) : string :=
  let n := nat_of_ascii c in
  if n =? 0 then "\0"
  else if n =? 9 then "\t"
  else if n =? 10 then "\n"
  else if n =? 13 then "\r"
  else if n =? 34 then "\"""
  else if n =? 92 then "\\"
  else if n <? 16 then ("\u{" ++ String (hex_digit n) "}")%string
  else if (n <? 32) || (n =? 127) then ("\u{" ++ String (hex_digit (n / 16)) (String (hex_digit (n mod 16)) "}"))%string
  else String c "".
Fixpoint debug_chars (s : string) : string :=
  match s with
  | EmptyString => ""
  | String c s' => debug_char c ++ debug_chars s'
  end.
Definition debug_string (s : string) : string := """" ++ debug_chars s ++ """".

(** symbol.rs:213-224.  [print] is [TokenStream::to_string]; the text of a
    [proc_macro2::Group] is that of the stream that holds just the group. *)
Definition show_symbol (print : list ttree -> string) (s : symbol_t) : string :=
  match s with
  | SOp op => debug_operator op
  | SIdent ident => "<" ++ ident ++ ">"
  | SGroup d ts => "{" ++ print [TGroup d ts] ++ "}"
  | SParen ts => "(" ++ print ts ++ ")"
  | SArray ts => "[" ++ print ts ++ "]"
  | SLiteral text => debug_string text
  end.
