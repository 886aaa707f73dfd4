(** What the notes of the messages of [grammar!] tell. *)
From Coq Require Import Arith Bool String Ascii List.
From Verif Require Import Base.Prelude Model.Error Model.TokenTree Model.Symbol Model.FrontEnd Model.Diagnostics.
From Verif Require Import Spec.Macro Spec.Diagnostics Spec.Notes Proofs.Macro Proofs.MacroExamples Proofs.Diagnostics Proofs.DiagnosticsExamples Proofs.Notes Proofs.NotesExamples.
Import ListNotations.
Open Scope string_scope.
Open Scope list_scope.

(** ** C72: the notes of a message tell the part of the input with the error

    The full statement: they are those of the part that was being read, and what they
    say is true.  The second half is false.  The notes are those of [notes_for], which
    tells them for what was read and the kind of problem; the rest of the message and
    its place are as [stated]. *)
Theorem C72_notes_tell_the_part_partial :
  forall (span : Type) (call_site : span) (join_spans : span -> span -> option span) (print : list ttree -> string) ts d,
  well_spaced (trees ts) ->
  sp_parse_declarations span call_site join_spans print (stream_new span (sp_tokenize_from_stream span join_spans ts)) = Err d ->
  exists w its p text ns, symbols_at join_spans ts (map inl w ++ its) /\ notes_for (types_at w) p ns /\
    stated its p text (dg_span span d) /\ dg_message span d = with_notes text ns.
Proof. exact (fun span call_site join_spans print ts d => @notes_tell_the_part span call_site join_spans print ts d). Qed.
Print Assumptions C72_notes_tell_the_part_partial.

Example C72_example : Forall (fun ts => well_spaced (trees (placed 1 ts))) noted_inputs /\
  map (fun ts => match report ts with Err d => dg_message place d | _ => "" end) noted_inputs =
  [with_notes "Unexpected end of input" [name_note];
   with_notes "Unexpected end of input" [keyword_note];
   with_notes "Unexpected end of input" [type_note; enum_note];
   with_notes "Unexpected end of input" [end_note];
   with_notes "Unexpected token ""?""" [end_note];
   with_notes "Expected "":"" to follow ""error_type"" keyword." [error_note];
   with_notes "Unexpected end of input" [type_note];
   "Expected `=>` to follow production name"].
Proof. exact (conj noted_spaced noted_reports). Qed.

(** name: P; terminal: Foo Bar; ? is said to end, although tokens follow that are no
    symbol. *)
Theorem C72_notes_are_true_refuted :
  exists (span : Type) (call_site : span) (join_spans : span -> span -> option span) (print : list ttree -> string) ts d text w bad its,
  well_spaced (trees ts) /\ symbols_at join_spans ts (map inl w ++ inr bad :: its) /\ stated (inr bad :: its) NoSymbol text (dg_span span d) /\
  sp_parse_declarations span call_site join_spans print (stream_new span (sp_tokenize_from_stream span join_spans ts)) = Err d /\
  dg_message span d = with_notes text ["Unexpected end of stream"].
Proof. exact strange_noted. Qed.
Print Assumptions C72_notes_are_true_refuted.
