(** Token trees of proc_macro2, as far as the code looks at them.  Spans are
    omitted; strings are byte strings. *)
From Coq Require Import Arith Bool String Ascii NArith List.
From Verif Require Import Base.Prelude.
Import ListNotations.

(** proc_macro2::Delimiter *)
Inductive delimiter := Parenthesis | Brace | Bracket | NoDelimiter.

(** proc_macro2::Spacing *)
Inductive spacing := Alone | Joint.

(** proc_macro2::TokenTree; a [TokenStream] is a list of these. *)
Inductive ttree :=
| TGroup (d : delimiter) (ts : list ttree)
| TPunct (c : ascii) (sp : spacing)
| TIdent (name : string)
| TLiteral (text : string).

#[global] Instance EqDec_delimiter : EqDec delimiter.
Proof. intros x y; decide equality. Defined.
#[global] Instance EqDec_spacing : EqDec spacing.
Proof. intros x y; decide equality. Defined.
#[global] Instance EqDec_ascii : EqDec ascii := ascii_dec.

(** parser_generator_impl/src/annotated_grammar/terminal.rs:14-20 *)
Definition is_punct (t : ttree) (ch : ascii) (sp : spacing) : bool :=
  match t with
  | TPunct c s => eqb c ch && eqb s sp
  | _ => false
  end.

(** parser_generator_impl/src/symbol.rs:6-8, for ASCII characters. *)
Definition is_leading_ident_char (c : ascii) : bool :=
  let n := nat_of_ascii c in
  ((65 <=? n) && (n <=? 90)) || ((97 <=? n) && (n <=? 122)) || (n =? 95).

(** symbol.rs:10-12, for ASCII characters. *)
Definition is_ident_char (c : ascii) : bool :=
  let n := nat_of_ascii c in
  is_leading_ident_char c || ((48 <=? n) && (n <=? 57)).

Fixpoint all_chars (f : ascii -> bool) (s : string) : bool :=
  match s with
  | EmptyString => true
  | String c s' => f c && all_chars f s'
  end.

(** symbol.rs:14-16 *)
Definition string_is_identifier (s : string) : bool :=
  match s with
  | EmptyString => false
  | String c _ => is_leading_ident_char c && all_chars is_ident_char s
  end.
