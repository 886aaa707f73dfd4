(** Inputs of [grammar!] whose errors have notes. *)
From Coq Require Import Arith Bool String Ascii List Lia.
From Verif Require Import Base.Prelude Model.Error Model.TokenTree Model.Symbol Model.FrontEnd Model.Diagnostics.
From Verif Require Import Spec.Macro Spec.Diagnostics Spec.Notes Proofs.Macro Proofs.MacroExamples Proofs.Diagnostics Proofs.DiagnosticsExamples.
Import ListNotations.
Open Scope string_scope.
Open Scope list_scope.

(** name: P; terminal: Foo Bar; ? *)
Definition strange_end : list ttree := short_head ++ [TPunct "?" Alone].

Definition noted_inputs : list (list ttree) :=
  [[];
   option_of "name" [TIdent "P"];
   option_of "name" [TIdent "P"] ++ [TIdent "enum_terminal"; colon; TIdent "Foo"];
   short_head;
   strange_end;
   short_head ++ [TIdent "error_type"; semi];
   short_head ++ ref "A" ++ [colon; TIdent "T"];
   short_head ++ ref "A" ++ [colon; TIdent "T"; semi]].

Lemma noted_spaced : Forall (fun ts => well_spaced (trees (placed 1 ts))) noted_inputs.
Proof. repeat constructor; apply placed_spaced; reflexivity. Qed.

Lemma noted_reports : map (fun ts => match report ts with Err d => dg_message place d | _ => "" end) noted_inputs =
  [with_notes "Unexpected end of input" [name_note];
   with_notes "Unexpected end of input" [keyword_note];
   with_notes "Unexpected end of input" [type_note; enum_note];
   with_notes "Unexpected end of input" [end_note];
   with_notes "Unexpected token ""?""" [end_note];
   with_notes "Expected "":"" to follow ""error_type"" keyword." [error_note];
   with_notes "Unexpected end of input" [type_note];
   "Expected `=>` to follow production name"].
Proof. vm_compute. reflexivity. Qed.

Definition strange_symbols : list (symbol_at place) :=
  Eval vm_compute in item_symbols (sp_tokenize_from_stream place join_places (placed 1 strange_end)).

Lemma strange_noted :
  exists (span : Type) (call_site : span) (join_spans : span -> span -> option span) (print : list ttree -> string) ts d text w bad its,
  well_spaced (trees ts) /\ symbols_at join_spans ts (map inl w ++ inr bad :: its) /\ stated (inr bad :: its) NoSymbol text (dg_span span d) /\
  sp_parse_declarations span call_site join_spans print (stream_new span (sp_tokenize_from_stream span join_spans ts)) = Err d /\
  dg_message span d = with_notes text ["Unexpected end of stream"].
Proof.
  exists place, whole, join_places, show, (placed 1 strange_end).
  assert (E : sp_tokenize_from_stream place join_places (placed 1 strange_end) = map inl strange_symbols ++ [inr (mk_diag place "Unexpected token ""?""" (10, 11))]) by (vm_compute; reflexivity).
  exists (mk_diag place (with_notes "Unexpected token ""?""" [end_note]) (10, 11)). do 2 eexists. exists (mk_diag place "Unexpected token ""?""" (10, 11)), [].
  split; [apply placed_spaced; reflexivity|]. split; [rewrite <- E; apply (symbols_of_tokens whole); apply placed_spaced; reflexivity|].
  split; [right; do 2 eexists; split; [reflexivity|split; reflexivity]|]. split; vm_compute; reflexivity.
Qed.
