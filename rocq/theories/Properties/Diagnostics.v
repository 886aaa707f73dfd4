(** What [grammar!] reports, and where. *)
From Coq Require Import Arith Bool String Ascii List.
From Verif Require Import Base.Prelude Spec.Grammar Model.Error Model.TokenTree Model.Symbol Model.FrontEnd Model.ErrorText Model.Diagnostics.
From Verif Require Import Spec.Macro Spec.Diagnostics Spec.Lookahead Proofs.MacroExamples Proofs.Diagnostics Proofs.Lookahead Proofs.DiagnosticsExamples.
Import ListNotations.
Open Scope string_scope.
Open Scope list_scope.

(** ** C47: errors in the input are reported where they are

    Whatever spans are: either the symbols of the input are of the right form, or
    an error is reported, and [located] tells where. *)
Theorem C47_errors_are_located :
  forall (span : Type) (call_site : span) (join_spans : span -> span -> option span) (print : list ttree -> string) ts,
  well_spaced (trees ts) ->
  exists its, symbols_at join_spans ts its /\
  match sp_parse_declarations span call_site join_spans print (stream_new span (sp_tokenize_from_stream span join_spans ts)) with
  | Ok _ => exists xs, its = map inl xs /\ matches a_file (types_at xs)
  | Err d => exists e, located call_site join_spans print its e d
  | _ => False
  end.
Proof. exact (fun span call_site join_spans print ts => @diagnostics_located span call_site join_spans print ts). Qed.
Print Assumptions C47_errors_are_located.

(** A correct input and several others. *)
Example C47_example : Forall (fun ts => well_spaced (trees (placed 1 ts))) inputs /\
  map (fun ts => match report ts with Ok _ => None | Err d => Some (dg_message place d, dg_span place d) | _ => Some ("", whole) end) inputs =
  [None;
   Some ("Unexpected token", (16, 18));
   Some ("Unexpected token ""?""", (16, 17));
   Some ("Epsilon may only appear in a rule by itself", (16, 17));
   Some ("Production rules for the same label have different return types", (14, 16));
   Some ("Expected ""terminal"" or ""enum_terminal"" option", (5, 6));
   Some ("Unexpected end of input", (8, 9))].
Proof. exact (conj inputs_spaced reports). Qed.

(** ** C48: the end of an input that is too short

    The full statement: the error is reported at the last symbol of the input.
    It is false, since [expect_symbol] does not record the span of what it reads
    (symbol_stream.rs:41-53).  The place is that of the last symbol that was looked
    at before it was read, as marked in [l_file], or the macro if there is none. *)
Theorem C48_end_of_input_partial :
  forall (span : Type) (call_site : span) (join_spans : span -> span -> option span) (print : list ttree -> string) ts d,
  well_spaced (trees ts) ->
  sp_parse_declarations span call_site join_spans print (stream_new span (sp_tokenize_from_stream span join_spans ts)) = Err d ->
  parse_declarations print (tokenize_from_stream (trees ts)) = Err UnexpectedEnd ->
  exists w us, symbols_at join_spans ts (map inl (map fst w)) /\ marked l_file (marks w ++ us) /\
    ~ matches a_file (types_at (map fst w)) /\ dg_span span d = last_looked call_site w.
Proof. exact (fun span call_site join_spans print ts d => @end_of_input_place span call_site join_spans print ts d). Qed.
Print Assumptions C48_end_of_input_partial.

Example C48_example : well_spaced (trees (placed 1 cut_off)) /\
  report cut_off = Err (mk_diag place "Unexpected end of input" (8, 9)) /\
  parse_declarations show (tokenize_from_stream (trees (placed 1 cut_off))) = Err UnexpectedEnd.
Proof. exact (conj (placed_spaced cut_off eq_refl) (conj cut_off_error cut_off_plain)). Qed.

(** name: P; terminal: Foo Bar; <A>: the error is reported at [Bar]. *)
Theorem C48_end_of_input_refuted :
  exists (span : Type) (call_site : span) (join_spans : span -> span -> option span) (print : list ttree -> string) ts d xs x,
  well_spaced (trees ts) /\
  sp_parse_declarations span call_site join_spans print (stream_new span (sp_tokenize_from_stream span join_spans ts)) = Err d /\
  parse_declarations print (tokenize_from_stream (trees ts)) = Err UnexpectedEnd /\
  symbols_at join_spans ts (map inl (xs ++ [x])) /\ dg_span span d <> span_of x /\ dg_span span d <> call_site.
Proof. exact cut_off_misplaced. Qed.
Print Assumptions C48_end_of_input_refuted.

(** ** C49: spans and messages change nothing else

    Both models accept the same inputs, with the same result, and the message
    that is reported is the text of the error, with notes.  Errors of crate
    lr_table are reported at the macro, with their own text. *)
Theorem C49_messages_tell_the_error :
  forall (span : Type) (call_site : span) (join_spans : span -> span -> option span) (print : list ttree -> string)
    (bm : BuildMode) fuel ts,
  match sp_parse_grammar span call_site join_spans print fuel (stream_new span (sp_tokenize_from_stream span join_spans ts)),
        parse_grammar print fuel (tokenize_from_stream (trees ts)) with
  | Ok r, Ok r' => r = r'
  | Err d, Err (GrammarError g) => grammar_text g (dg_message span d) /\ dg_span span d = call_site
  | Err d, Err e => noted (error_text e) (dg_message span d)
  | Panic w, Panic w' => w = w'
  | Diverge, Diverge => True
  | _, _ => False
  end.
Proof. exact (fun span call_site join_spans print => @grammar_same span call_site join_spans print). Qed.
Print Assumptions C49_messages_tell_the_error.

(** A grammar with a conflict. *)
Example C49_example : exists e,
  sp_parse_grammar (bm := true) place whole join_places show 50
    (stream_new place (sp_tokenize_from_stream place join_places (placed 1 conflict_input))) =
    Err (mk_diag place "Reduce conflict between rule RuleId(4) and rule RuleId(3) with lookahead $" whole) /\
  parse_grammar (bm := true) show 50 (tokenize_from_stream (trees (placed 1 conflict_input))) = Err (GrammarError e).
Proof. exact conflict_reported. Qed.
