(** Model of the texts of errors: [Display] in lr_table/src/error.rs:14-25,
    117-150 and what the code puts into the errors.  Writing to a string does not
    fail, so the results of [write!] are omitted. *)
From Coq Require Import Arith Bool String Ascii List.
From Verif Require Import Base.Prelude Spec.Grammar Model.Error Model.TableText Model.Terminal.
Import ListNotations.
Open Scope string_scope.

(** Text in double quotes. *)
Definition quoted (s : string) : string := """" ++ s ++ """".

Section Texts.
Context {T L : Type}.
(** [ToString] of tokens and [Debug] of labels. *)
Variable show_token : T -> string.
Variable show_label : L -> string.

(** vocabulary.rs:68-76, which makes the lookahead of a conflict in
    lr_table.rs:169 and 207. *)
Definition show_aug (a : aug T) : string :=
  match a with
  | Token t => show_token t
  | Epsilon => epsilon_letter
  | EndOfStream => "$"
  end.

(** indexed_grammar.rs:29-33 *)
Definition show_rule_id (rule : nat) : string := "RuleId(" ++ decimal rule ++ ")".

(** error.rs:14-25; the message of [NotConnected] is made in
    indexed_grammar.rs:346-353. *)
Definition show_build_grammar_error (e : build_grammar_error L) : string :=
  match e with
  | EmptyGrammar => "grammar is empty"
  | RootProductionRepeated => "the root production has multiple rules"
  | RootProductionReferenced => "the root production is referenced by another rule"
  | NotConnected labels =>
      "The grammar is not fully connected: " ++ "Rules disconnected: " ++ join ", " (map show_label labels)
  end.

(** error.rs:117-150; the label of [UnrecognizedLabel] is made in
    indexed_grammar.rs:266. *)
Definition show_lr_error (e : lr_error T L) : string :=
  match e with
  | BuildGrammar error => "Build grammar error: " ++ show_build_grammar_error error
  | UnrecognizedLabel label => "Unrecognized label " ++ quoted (show_label label)
  | ShiftConflict lookahead => "Shift conflict for lookahead " ++ show_aug lookahead
  | ShiftReduceConflict rule lookahead =>
      "Shift/reduce conflict with rule " ++ show_rule_id rule ++ " and lookahead " ++ show_aug lookahead
  | ReduceConflict rule1 rule2 lookahead =>
      "Reduce conflict between rule " ++ show_rule_id rule1 ++ " and rule " ++ show_rule_id rule2 ++
      " with lookahead " ++ show_aug lookahead
  | UnresolvedStates => "Unresolved states while building the LR state map"
  | StateResolveConflict => "Conflict resolving states while building the LR state map"
  | Generic message => "Error: " ++ message
  end.
End Texts.

(** parser_generator_impl/src/annotated_grammar/terminal.rs:129-138 *)
Definition show_user_symbol (s : user_symbol) : string :=
  sname s ++
  match sparen s with
  | PGPattern pat => "(" ++ pat ++ ")"
  | PGWildcard => "(..)"
  | PGNone => ""
  end.

(** production_ref.rs:52-56 *)
Definition show_ref_name (label : string) : string := "<" ++ label ++ ">".
