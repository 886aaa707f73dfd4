(** The names of labels leave no trace in what [grammar!] emits (C78). *)
From Coq Require Import Arith String List.
From Verif Require Import Base.Prelude Spec.Renaming Spec.LabelNames Spec.Values.
From Verif Require Import Model.TokenTree Model.Terminal Model.Constructor Model.CodeGen Model.Emit Model.Symbol Model.FrontEnd Model.Diagnostics Model.Expand.
From Verif Require Import Spec.Macro Spec.Diagnostics.
From Verif Require Import Proofs.GenExamples Proofs.MacroExamples Proofs.DiagnosticsExamples Proofs.ExpandExamples.
From Verif Require Import Proofs.LabelNames Proofs.LabelNamesExamples.
Import ListNotations.
Open Scope string_scope.
Open Scope list_scope.

(** Two inputs that declare the same, but for the names of labels in heads of rules, in
    nodes and in references: [grammar!] and [pub_grammar!] emit the same code for both,
    token by token, or report an error in both, or panic in both with the same message. *)
Theorem C78_labels_leave_no_trace :
  forall (span : Type) (call_site : span) join_spans print lex_error literal_ok (bm : BuildMode) ho (l : string -> string), orders_ok ho -> injective l ->
  forall ts ts' d d', parse_declarations print (tokenize_from_stream (trees ts)) = Ok d -> parse_declarations print (tokenize_from_stream (trees ts')) = Ok d' -> relabelled l d d' ->
  forall fuel macro, macro = Expand.grammar span call_site join_spans print lex_error literal_ok ho fuel \/ macro = pub_grammar span call_site join_spans print lex_error literal_ok ho fuel ->
  match macro ts, macro ts' with
  | Ok (Item _ em), Ok (Item _ em') => em' = em
  | Ok (CompileError _ _), Ok (CompileError _ _) => True
  | Panic w, Panic w' => w' = w
  | Diverge, Diverge => True
  | _, _ => False
  end.
Proof.
  exact (fun span cs js print lex lo bm ho l Ho Hl ts ts' d d' H H' Hr fuel macro Hm => @macro_relabelled bm print l Hl span cs js lex lo ho Ho ts ts' d d' H H' Hr fuel macro Hm).
Qed.
Print Assumptions C78_labels_leave_no_trace.

(** The calculator with [Rule] before the name of each label; its type [std::E], which
    has the name of a label, stays. *)
Example C78_example : forall bm : BuildMode, orders_ok forward /\ injective ruled /\
  parse_declarations show (tokenize_from_stream (trees (placed 1 calc_input))) = Ok calc_decls /\
  parse_declarations show (tokenize_from_stream (trees (placed 1 calc_ruled))) = Ok calc_ruled_decls /\ relabelled ruled calc_decls calc_ruled_decls /\
  nth_error (d_rules calc_ruled_decls) 2 = Some (mk_prule "RuleE" (Some [TIdent "u32"]) [PNProduction "RuleN"] (Some (Brace, [hash; TIdent "RuleN"]))) /\
  pub_expand bm calc_input = Ok (Item place calc_item) /\ pub_expand bm calc_ruled = Ok (Item place calc_item).
Proof. exact ruled_example. Qed.

(** If two labels get the same name, the code changes. *)
Example C78_injectivity_needed : forall bm : BuildMode, exists d d' em e,
  parse_declarations show (tokenize_from_stream (trees (placed 1 calc_input))) = Ok d /\
  parse_declarations show (tokenize_from_stream (trees (placed 1 calc_merged))) = Ok d' /\ relabelled merging d d' /\
  pub_expand bm calc_input = Ok (Item place em) /\ pub_expand bm calc_merged = Ok (CompileError place e).
Proof. exact merged_labels. Qed.
