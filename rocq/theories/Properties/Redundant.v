(** Grammars that say something twice are rejected (C79). *)
From Coq Require Import Arith String List.
From Verif Require Import Base.Prelude Spec.Grammar Spec.Validity Spec.Nullable Spec.Observers Spec.LR1 Spec.Redundant Model.Error.
From Verif Require Import Model.IndexedGrammar Model.FirstMap Model.LRTable Model.ParseSimulator.
From Verif Require Import Model.TokenTree Model.Terminal Model.Constructor Model.CodeGen Model.Emit Model.Symbol Model.FrontEnd Model.Diagnostics Model.Expand.
From Verif Require Import Spec.Macro Spec.Diagnostics Spec.Expansion Spec.Values Spec.MacroPanic.
From Verif Require Import Proofs.DiagnosticsExamples Proofs.MacroExamples Proofs.ExpandExamples Proofs.MacroRefute Proofs.Redundant Proofs.RedundantMacro.
Import ListNotations.
Open Scope string_scope.

(** In full, "a grammar with a rule written twice, or with a label that derives itself, is
    rejected" is false, by the FIRST bug twice, ... *)
Theorem C79_written_twice_refuted :
  forall bm : BuildMode, exists (g : Spec.Grammar.grammar string string) p, no_eos g /\ eps_trailing g /\ productive g /\ valid_grammar g /\
  (forall r, nth_error g 0 = Some r -> ~ uses r (symbol r)) /\ written_twice g /\ parser_new 50 g = Ok p.
Proof. exact twice_accepted. Qed.
Print Assumptions C79_written_twice_refuted.

Theorem C79_derives_itself_refuted :
  forall bm : BuildMode, exists (g : Spec.Grammar.grammar string string) p, no_eos g /\ eps_trailing g /\ productive g /\ valid_grammar g /\
  (forall r, nth_error g 0 = Some r -> ~ uses r (symbol r)) /\ derives_itself g /\ parser_new 50 g = Ok p.
Proof. exact cycle_accepted. Qed.
Print Assumptions C79_derives_itself_refuted.

(** ... and where nothing can follow the label because another label derives no word. *)
Theorem C79_unproductive_refuted :
  forall bm : BuildMode, exists (g : Spec.Grammar.grammar string string) p, no_eos g /\ eps_trailing g /\ first_complete g /\ valid_grammar g /\
  (forall r, nth_error g 0 = Some r -> ~ uses r (symbol r)) /\ written_twice g /\ parser_new 50 g = Ok p.
Proof. exact endless_accepted. Qed.
Print Assumptions C79_unproductive_refuted.

(** Without those two it is true, and so it is of any label that derives some word in two
    ways: no parser is built, ... *)
Theorem C79_rejected_partial :
  forall (bm : BuildMode) (T L : Type) (dT : EqDec T) (dL : EqDec L) (g : Spec.Grammar.grammar T L) fuel p,
  no_eos g -> eps_trailing g -> first_complete g -> productive g ->
  written_twice g \/ derives_itself g \/ two_ways g -> parser_new fuel g <> Ok p.
Proof. exact (fun bm T L dT dL g fuel p => @redundant_rejected bm T L dT dL g fuel p). Qed.
Print Assumptions C79_rejected_partial.

(** ... and an error is returned, unless the first rule mentions its own label (C04). *)
Theorem C79_reported_partial :
  forall (bm : BuildMode) (T L : Type) (dT : EqDec T) (dL : EqDec L) (g : Spec.Grammar.grammar T L),
  no_eos g -> eps_trailing g -> first_complete g -> productive g ->
  written_twice g \/ derives_itself g \/ two_ways g ->
  (forall r, nth_error g 0 = Some r -> ~ uses r (symbol r)) -> exists N, forall fuel, N < fuel -> exists e, parser_new fuel g = Err e.
Proof. exact (fun bm T L dT dL g => @redundant_error bm T L dT dL g). Qed.
Print Assumptions C79_reported_partial.

(** So with the macros, whatever the constructors of the rules. *)
Theorem C79_macro_partial :
  forall (span : Type) (call_site : span) join_spans print lex_error literal_ok (bm : BuildMode) ho, orders_ok ho ->
  forall ts d, parse_declarations print (tokenize_from_stream (trees ts)) = Ok d ->
  first_complete (source (d_rules d)) -> productive (source (d_rules d)) ->
  written_twice (source (d_rules d)) \/ derives_itself (source (d_rules d)) \/ two_ways (source (d_rules d)) ->
  (forall fuel em, Expand.grammar span call_site join_spans print lex_error literal_ok ho fuel ts <> Ok (Item span em) /\
     pub_grammar span call_site join_spans print lex_error literal_ok ho fuel ts <> Ok (Item span em)) /\
  (~ panic_cause d -> exists N, forall fuel, N < fuel -> exists e, Expand.grammar span call_site join_spans print lex_error literal_ok ho fuel ts = Ok (CompileError span e)).
Proof.
  exact (fun span cs js print lex lo bm ho Ho ts d => @redundant_input bm span cs js print lex lo ho Ho ts d).
Qed.
Print Assumptions C79_macro_partial.

(** A list whose second rule is repeated with an epsilon node at the end; expressions with
    a detour through another label and an optional token; conditionals with a dangling
    `else`. *)
Example C79_example_twice : forall bm : BuildMode,
  no_eos g_list /\ eps_trailing g_list /\ first_complete g_list /\ productive g_list /\ root_free g_list /\ written_twice g_list /\
  parser_new 50 g_list = Err (ReduceConflict 3 1 EndOfStream).
Proof. exact list_twice. Qed.

Example C79_example_itself : forall bm : BuildMode,
  no_eos g_round /\ eps_trailing g_round /\ first_complete g_round /\ productive g_round /\ root_free g_round /\ derives_itself g_round /\
  exists e, parser_new 50 g_round = Err e.
Proof. exact round_itself. Qed.

Example C79_example_two_ways : forall bm : BuildMode,
  no_eos g_else /\ eps_trailing g_else /\ first_complete g_else /\ productive g_else /\ root_free g_else /\ two_ways g_else /\
  exists e, parser_new 50 g_else = Err e.
Proof. exact else_two_ways. Qed.

Example C79_example_macro : forall bm : BuildMode,
  parse_declarations show (tokenize_from_stream (trees (placed 1 twice_input))) = Ok (decls_of twice_input) /\
  first_complete (source (d_rules (decls_of twice_input))) /\ productive (source (d_rules (decls_of twice_input))) /\
  written_twice (source (d_rules (decls_of twice_input))) /\ ~ panic_cause (decls_of twice_input) /\
  exists e, expand_at bm 50 (placed 1 twice_input) = Ok (CompileError place e).
Proof. exact twice_input_ok. Qed.
