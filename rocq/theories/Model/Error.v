(** Model of lr_table/src/error.rs: errors carry the data that the Rust code
    formats into strings. *)
From Coq Require Import String List.
From Verif Require Import Base.Prelude Spec.Grammar.

(** error.rs:7-12; the message of [NotConnected] is the list of labels it
    prints. *)
Inductive build_grammar_error (L : Type) :=
| EmptyGrammar
| RootProductionRepeated
| RootProductionReferenced
| NotConnected (labels : list L).
Arguments EmptyGrammar {L}.
Arguments RootProductionRepeated {L}.
Arguments RootProductionReferenced {L}.
Arguments NotConnected {L}.

(** error.rs:41-67 (variants the code constructs). *)
Inductive lr_error (T L : Type) :=
| BuildGrammar (e : build_grammar_error L)
| UnrecognizedLabel (l : L)
| ShiftConflict (lookahead : aug T)
| ShiftReduceConflict (rule : nat) (lookahead : aug T)
| ReduceConflict (rule1 rule2 : nat) (lookahead : aug T)
| UnresolvedStates
| StateResolveConflict
| Generic (message : string).
Arguments BuildGrammar {T L}.
Arguments UnrecognizedLabel {T L}.
Arguments ShiftConflict {T L}.
Arguments ShiftReduceConflict {T L}.
Arguments ReduceConflict {T L}.
Arguments UnresolvedStates {T L}.
Arguments StateResolveConflict {T L}.
Arguments Generic {T L}.
