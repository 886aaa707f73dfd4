(** Model of the example program lr_table/examples/print_lr_table.rs, which
    reads a grammar from a text, builds its table and prints it. *)
From Coq Require Import String Ascii List.
From Verif Require Import Base.Prelude Spec.Grammar Model.Error Model.Vocabulary Model.GrammarStr Model.IndexedGrammar Model.LRTable Model.TableText.
Import ListNotations.
Open Scope string_scope.

#[local] Instance EqDec_char : EqDec ascii := ascii_dec.

(** [Result::unwrap].  Simplified: the message does not show the error. *)
Definition unwrap_result {E F A} (m : outcome E A) : outcome F A :=
  match m with
  | Ok a => Ok a
  | Err _ => Panic "called `Result::unwrap()` on an `Err` value"
  | Panic why => Panic why
  | Diverge => Diverge
  end.

(** print_lr_table.rs:5-12: the raw string, line by line. *)
Definition example_text : text := (
  list_ascii_of_string "T -> S" ++ newline ::
  list_ascii_of_string "       S -> S p P" ++ newline ::
  list_ascii_of_string "       S -> P" ++ newline ::
  list_ascii_of_string "       P -> P x V" ++ newline ::
  list_ascii_of_string "       P -> V" ++ newline ::
  list_ascii_of_string "       V -> a" ++ newline ::
  list_ascii_of_string "       V -> b" ++ newline ::
  list_ascii_of_string "       V -> c")%list.

Section Main.
Context {bm : BuildMode}.

(** print_lr_table.rs:3-19, for any text in place of the one of lines 5-12:
    what is written to the standard output.  Simplified: writing does not
    fail. *)
Definition print_table (fuel : nat) (grammar_str : text) : outcome Empty_set string :=
  grammar <- unwrap_result (from_grammar_str grammar_str) ;;
  indexed_grammar <- unwrap_result (E := lr_error ascii text) (indexed_build fuel grammar) ;;
  lr_table <- unwrap_result (E := lr_error ascii text) (table_build indexed_grammar fuel) ;;
  shown <- table_text lr_table ;;
  Ok (shown ++ String newline "").

(** print_lr_table.rs:3-19 *)
Definition main (fuel : nat) : outcome Empty_set string := print_table fuel example_text.

End Main.
