(** What the texts of operators, symbols and conflicts should tell. *)
From Coq Require Import Arith String Ascii List.
From Verif Require Import Base.Prelude Spec.Grammar Model.Error Model.TokenTree Model.Symbol.
Import ListNotations.

(** The characters of punctuation. *)
Fixpoint spelled (ts : list ttree) : string :=
  match ts with
  | TPunct c _ :: ts' => String c (spelled ts')
  | _ => EmptyString
  end.

(** The same symbol, as far as the texts of tokens tell. *)
Inductive same_symbol (print : list ttree -> string) : symbol_t -> symbol_t -> Prop :=
| ss_op op : same_symbol print (SOp op) (SOp op)
| ss_ident n : same_symbol print (SIdent n) (SIdent n)
| ss_literal t : same_symbol print (SLiteral t) (SLiteral t)
| ss_group d ts d' ts' : print [TGroup d ts] = print [TGroup d' ts'] -> same_symbol print (SGroup d ts) (SGroup d' ts')
| ss_paren ts ts' : print ts = print ts' -> same_symbol print (SParen ts) (SParen ts')
| ss_array ts ts' : print ts = print ts' -> same_symbol print (SArray ts) (SArray ts').

(** A symbol of tokens between delimiters: what is between, and the delimiters. *)
Definition between (s : symbol_t) : option (ascii * list ttree * ascii) :=
  match s with
  | SGroup Brace ts => Some ("{", ts, "}")%char
  | SParen ts => Some ("(", ts, ")")%char
  | SArray ts => Some ("[", ts, "]")%char
  | _ => None
  end.

(** The text of a group in braces is in braces, with at least what is between. *)
Definition prints_braces (print : list ttree -> string) : Prop :=
  forall ts, exists l r, print [TGroup Brace ts] = ("{" ++ l ++ print ts ++ r ++ "}")%string.

Section Conflicts.
Context {T L : Type}.
(** An error about a conflict, and the token at which it is. *)
Definition conflict_at (e : lr_error T L) : option (aug T) :=
  match e with
  | ShiftConflict a | ShiftReduceConflict _ a | ReduceConflict _ _ a => Some a
  | _ => None
  end.
(** Tokens have different texts, none of which is that of the end of the stream or
    that of the empty string. *)
Definition told_apart (show_token : T -> string) : Prop :=
  (forall t t', show_token t = show_token t' -> t = t') /\
  forall t, show_token t <> "$"%string /\ show_token t <> String (ascii_of_nat 206) (String (ascii_of_nat 181) "").
End Conflicts.
