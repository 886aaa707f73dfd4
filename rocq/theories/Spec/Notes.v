(** The notes of the messages of [grammar!]: which ones there are, depending on what
    has been read of the input. *)
From Coq Require Import Arith Bool String Ascii List.
From Verif Require Import Base.Prelude Model.Error Model.TokenTree Model.Symbol Model.Diagnostics Spec.Macro Spec.Diagnostics.
Import ListNotations.
Open Scope string_scope.
Open Scope list_scope.

(** A text and its notes. *)
Definition with_notes (text : string) (notes : list string) : string := fold_left (fun m n => (m ++ ": " ++ n)%string) notes text.

Definition name_note : string := """name: `MyName`;"" specifies the name the generated parser struct will be given".
Definition terminal_note : string := """terminal: `type`;"" specifies the `type` of tokens that this grammar will parse".
Definition enum_note : string := """enum_terminal: `enum_type`;"" specifies the `enum_type` of tokens that this grammar will parse".
Definition error_note : string :=
  """error_type: `type`;"" specifies the `type` of errors that either the input stream and/or constructors may yield.".
Definition keyword_note : string := "Expected ""terminal"" or ""enum_terminal"" option".
Definition type_note : string := "expected type".
Definition end_note : string := "Unexpected end of stream".

(** No symbol follows: at the end, or at tokens that are no symbol; or a wrong symbol
    follows; or all symbols are right, but do not fit together. *)
Inductive problem := NoSymbol | WrongSymbol | Misfit.

(** The beginning of a word, but not yet all of it. *)
Definition begun (r : rx) (xs : list symbol_t) : Prop := exists us, us <> [] /\ matches r (xs ++ us).

(** In an option with a type: the note for the option, and before it another one if no
    symbol follows a beginning of the type. *)
Inductive option_notes (key note : string) : list symbol_t -> problem -> list string -> Prop :=
| on_type x xs : Forall in_type xs -> option_notes key note (SIdent key :: SOp Colon :: x :: xs) NoSymbol [type_note; note]
| on_other xs : begun (an_option key a_type) xs -> xs <> [] -> List.length xs <= 2 -> option_notes key note xs NoSymbol [note]
| on_wrong xs : begun (an_option key a_type) xs -> xs <> [] -> option_notes key note xs WrongSymbol [note].

(** In a return type, after its first symbol. *)
Definition in_return_type (xs : list symbol_t) : Prop :=
  exists ref x ys, xs = ref ++ SOp Colon :: x :: ys /\ matches a_ref ref /\ Forall in_type ys.

Definition name_option : rx := an_option "name" an_ident.
Definition two_options : rx := RSeq name_option (RAlt (an_option "terminal" a_type) (an_option "enum_terminal" a_type)).

(** [notes_for xs p notes]: after the symbols [xs], the problem [p] is reported with
    [notes]. *)
Inductive notes_for : list symbol_t -> problem -> list string -> Prop :=
| nf_name xs p : begun name_option xs -> p <> Misfit -> notes_for xs p [name_note]
| nf_keyword xs : matches name_option xs -> notes_for xs NoSymbol [keyword_note]
| nf_no_keyword xs : matches name_option xs -> notes_for xs WrongSymbol []
| nf_terminal xs ys p ns : matches name_option xs -> option_notes "terminal" terminal_note ys p ns -> notes_for (xs ++ ys) p ns
| nf_enum xs ys p ns : matches name_option xs -> option_notes "enum_terminal" enum_note ys p ns -> notes_for (xs ++ ys) p ns
| nf_end xs : matches two_options xs -> notes_for xs NoSymbol [end_note]
| nf_error xs ys p ns : matches two_options xs -> option_notes "error_type" error_note ys p ns -> notes_for (xs ++ ys) p ns
| nf_first xs : matches two_options xs -> notes_for xs WrongSymbol []
| nf_rules xs ys zs p ns : matches two_options xs -> matches (RSeq (maybe (an_option "error_type" a_type)) (RStar a_declaration)) ys ->
    begun a_declaration zs -> ys ++ zs <> [] ->
    (p = NoSymbol -> in_return_type zs -> ns = [type_note]) -> (~ (p = NoSymbol /\ in_return_type zs) -> ns = []) ->
    notes_for (xs ++ ys ++ zs) p ns.

Section Spans.
Context {span : Type}.

(** The text without notes and the place of a problem, when the rest of the input is
    [its]. *)
Definition stated (its : items span) (p : problem) (text : string) (place : span) : Prop :=
  match p with
  | NoSymbol => (its = [] /\ text = error_text UnexpectedEnd) \/
      exists d its', its = inr d :: its' /\ text = dg_message span d /\ place = dg_span span d
  | WrongSymbol => exists x its' e, its = inl x :: its' /\ text = error_text e /\ place = span_of x
  | Misfit => text = error_text EpsilonNotAlone \/ text = error_text DifferentReturnTypes
  end.
End Spans.
