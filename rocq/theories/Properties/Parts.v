(** Parts of accepted grammars are accepted (C81). *)
From Coq Require Import Arith String List.
From Verif Require Import Base.Prelude Spec.Grammar Spec.Validity Spec.Nullable Spec.Observers Spec.LR1 Spec.Parts Model.Error.
From Verif Require Import Model.IndexedGrammar Model.FirstMap Model.LRTable Model.ParseSimulator.
From Verif Require Import Model.TokenTree Model.Terminal Model.Constructor Model.CodeGen Model.Runtime Model.Rust Model.Emit Model.Symbol Model.FrontEnd Model.Diagnostics Model.Expand.
From Verif Require Import Spec.Values Spec.EmittedCode Spec.Meaning Spec.Reordering Spec.Macro Spec.Diagnostics Spec.Expansion.
From Verif Require Import Proofs.GenExamples Proofs.MacroExamples Proofs.DiagnosticsExamples Proofs.EmitExamples Proofs.ExpandExamples Proofs.MacroRefute.
From Verif Require Import Proofs.RedundantMacro Proofs.Parts Proofs.PartsExamples Proofs.PartsMacro Proofs.PartsMacroExamples.
Import ListNotations.
Open Scope string_scope.

(** In full, "if rules are dropped from an accepted grammar, and what is left is valid, it
    is accepted" is false, by the FIRST bug; ... *)
Theorem C81_fewer_rules_refuted :
  forall bm : BuildMode, exists (g g' : Spec.Grammar.grammar string string) p, no_eos g /\ eps_trailing g /\ productive g /\
  (forall r, nth_error g 0 = Some r -> ~ uses r (symbol r)) /\ parser_new 50 g = Ok p /\
  fewer_rules g' g /\ valid_grammar g' /\ (forall r, nth_error g' 0 = Some r -> ~ uses r (symbol r)) /\ exists e, parser_new 50 g' = Err e.
Proof. exact fewer_rejected. Qed.
Print Assumptions C81_fewer_rules_refuted.

(** ... so is "its rules for another label are accepted", by the FIRST bug, and where
    another label derives nothing. *)
Theorem C81_another_root_refuted :
  forall bm : BuildMode, exists (g g' : Spec.Grammar.grammar string string) p, no_eos g /\ eps_trailing g /\ productive g /\
  (forall r, nth_error g 0 = Some r -> ~ uses r (symbol r)) /\ parser_new 50 g = Ok p /\
  rules_for "X" g' g /\ valid_grammar g' /\ (forall r, nth_error g' 0 = Some r -> ~ uses r (symbol r)) /\ exists e, parser_new 50 g' = Err e.
Proof. exact twice_root_rejected. Qed.
Print Assumptions C81_another_root_refuted.

Theorem C81_another_root_unproductive_refuted :
  forall bm : BuildMode, exists (g g' : Spec.Grammar.grammar string string) p, no_eos g /\ eps_trailing g /\ first_complete g /\
  (forall r, nth_error g 0 = Some r -> ~ uses r (symbol r)) /\ parser_new 50 g = Ok p /\
  rules_for "X" g' g /\ valid_grammar g' /\ (forall r, nth_error g' 0 = Some r -> ~ uses r (symbol r)) /\ exists e, parser_new 50 g' = Err e.
Proof. exact endless_root_rejected. Qed.
Print Assumptions C81_another_root_unproductive_refuted.

(** The first is true if the FIRST sets of the whole grammar are complete, whatever those
    of the part are, ... *)
Theorem C81_fewer_rules_partial :
  forall (bm : BuildMode) (T L : Type) (dT : EqDec T) (dL : EqDec L) fuel (g g' : Spec.Grammar.grammar T L) p,
  eps_trailing g -> first_complete g -> parser_new fuel g = Ok p ->
  fewer_rules g' g -> valid_grammar g' -> (forall r, nth_error g' 0 = Some r -> ~ uses r (symbol r)) ->
  exists N, forall fuel, N < fuel -> exists p', parser_new fuel g' = Ok p'.
Proof. exact (fun bm T L dT dL fuel g g' p => @fewer_accepted bm T L dT dL fuel g g' p). Qed.
Print Assumptions C81_fewer_rules_partial.

(** ... and what the parser for fewer rules accepts, the other does, too. *)
Theorem C81_fewer_sentences_partial :
  forall (bm : BuildMode) (T L : Type) (dT : EqDec T) (dL : EqDec L) (E : Type) (g g' : Spec.Grammar.grammar T L) fuel fuel' fuel2 p p' w,
  no_eos g -> eps_trailing g -> first_complete g -> parser_new fuel g = Ok p ->
  fewer_rules g' g -> parser_new fuel' g' = Ok p' -> parse_stream (E := E) fuel2 p' w = Ok true ->
  exists N, forall fuel3, N < fuel3 -> parse_stream (E := E) fuel3 p w = Ok true.
Proof. exact (fun bm T L dT dL E g g' fuel fuel' fuel2 p p' w => @fewer_sentences bm T L dT dL E g g' fuel fuel' fuel2 p p' w). Qed.
Print Assumptions C81_fewer_sentences_partial.

(** The second is true if, moreover, every label derives some word, ... *)
Theorem C81_another_root_partial :
  forall (bm : BuildMode) (T L : Type) (dT : EqDec T) (dL : EqDec L) fuel (g g' : Spec.Grammar.grammar T L) p l,
  no_eos g -> eps_trailing g -> first_complete g -> productive g -> parser_new fuel g = Ok p ->
  (forall r, nth_error g 0 = Some r -> ~ uses r (symbol r)) ->
  rules_for l g' g -> valid_grammar g' -> (forall r, nth_error g' 0 = Some r -> ~ uses r (symbol r)) ->
  exists N, forall fuel, N < fuel -> exists p', parser_new fuel g' = Ok p'.
Proof. exact (fun bm T L dT dL fuel g g' p l => @for_accepted bm T L dT dL fuel g g' p l). Qed.
Print Assumptions C81_another_root_partial.

(** ... and what the parser for the label accepts is derived from it. *)
Theorem C81_another_root_sentences :
  forall (bm : BuildMode) (T L : Type) (dT : EqDec T) (dL : EqDec L) (E : Type) (g g' : Spec.Grammar.grammar T L) l fuel' fuel2 p' w,
  no_eos g -> eps_trailing g -> rules_for l g' g -> parser_new fuel' g' = Ok p' ->
  (forall r, nth_error g' 0 = Some r -> ~ uses r (symbol r)) ->
  parse_stream (E := E) fuel2 p' w = Ok true -> exists ts, derives g [Production l] w ts.
Proof. exact (fun bm T L dT dL E g g' l fuel' fuel2 p' w => @for_sentences bm T L dT dL E g g' l fuel' fuel2 p' w). Qed.
Print Assumptions C81_another_root_sentences.

(** With the macros: if alternatives are left out of an input that gives a parser, what is
    left gives a parser, if it is valid and its own constructors and terminals are good;
    ... *)
Theorem C81_macro_partial :
  forall (span : Type) (call_site : span) join_spans print lex_error literal_ok (bm : BuildMode) ho, orders_ok ho ->
  forall fuel ts ts' d d' em, parse_declarations print (tokenize_from_stream (trees ts)) = Ok d ->
  parse_declarations print (tokenize_from_stream (trees ts')) = Ok d' -> fewer_declared (d_rules d') (d_rules d) ->
  first_complete (source (d_rules d)) ->
  Expand.grammar span call_site join_spans print lex_error literal_ok ho fuel ts = Ok (Item span em) \/
  pub_grammar span call_site join_spans print lex_error literal_ok ho fuel ts = Ok (Item span em) ->
  valid_grammar (source (d_rules d')) -> root_unused (d_rules d') ->
  (forall r, In r (d_rules d') -> good_rule r) -> (forall s, terminal_in (d_rules d') s -> good_terminal literal_ok (d_terminal_type d') s) ->
  exists N, forall fuel', N < fuel' -> exists em',
    Expand.grammar span call_site join_spans print lex_error literal_ok ho fuel' ts' = Ok (Item span em').
Proof.
  exact (fun span cs js print lex lo bm ho Ho fuel ts ts' d d' em => @fewer_input bm span cs js print lex lo ho Ho fuel ts ts' d d' em).
Qed.
Print Assumptions C81_macro_partial.

(** ... and every value that the smaller parser returns is returned by the other, too. *)
Theorem C81_macro_numberings_exist :
  forall rs rs', fewer_declared rs' rs -> exists f, numbered_in f rs' rs.
Proof. exact fewer_numbered. Qed.
Print Assumptions C81_macro_numberings_exist.

Theorem C81_macro_values_partial :
  forall (span : Type) (call_site : span) join_spans print lex_error literal_ok (bm : BuildMode) ho ho', orders_ok ho -> orders_ok ho' ->
  forall fuel fuel' ts ts' em em' d d' f, reads_as print (trees ts) d -> reads_as print (trees ts') d' ->
  d_terminal_type d' = d_terminal_type d -> fewer_declared (d_rules d') (d_rules d) -> numbered_in f (d_rules d') (d_rules d) ->
  defaults_bound (d_rules d) -> hygienic_rules (d_rules d) ->
  first_complete (bm := bm) (source (d_rules d)) -> first_complete (bm := bm) (source (d_rules d')) ->
  Expand.grammar span call_site join_spans print lex_error literal_ok ho fuel ts = Ok (Item span em) \/
  pub_grammar span call_site join_spans print lex_error literal_ok ho fuel ts = Ok (Item span em) ->
  Expand.grammar span call_site join_spans print lex_error literal_ok ho' fuel' ts' = Ok (Item span em') \/
  pub_grammar span call_site join_spans print lex_error literal_ok ho' fuel' ts' = Ok (Item span em') ->
  exists C, forall (bmr : BuildMode) (E : Type) (R : rust) (SErr : Type) (into : SErr -> UErr R) bv, describes R SErr bv -> depends_on_named R SErr bv ->
  forall gi toks steps, gi_terminal_type gi = d_terminal_type d -> gi_rules gi = d_rules d -> unambiguous_tokens R gi toks -> C * S (List.length toks) <= steps ->
  forall v : val R,
  gives_value (renumber f R) (run_emitted (bm := bmr) (renumber f R) into (of_list toks) (fun i => bv (f i)) steps em' : Rust.result (E := E) (renumber f R)) v ->
  gives_value R (run_emitted (bm := bmr) R into (of_list toks) bv steps em : Rust.result (E := E) R) v.
Proof.
  exact (fun span cs js print lex lo bm ho ho' Ho Ho' fuel fuel' ts ts' em em' d d' f => @fewer_values bm span cs js print lex lo ho ho' Ho Ho' fuel fuel' ts ts' em em' d d' f).
Qed.
Print Assumptions C81_macro_values_partial.

(** Programs of assignments and expressions; without assignments and parentheses; and the
    rules for expressions alone. *)
Example C81_example : forall bm : BuildMode, exists p p' p2,
  no_eos g_prog /\ eps_trailing g_prog /\ first_complete g_prog /\ productive g_prog /\ root_free g_prog /\ parser_new 50 g_prog = Ok p /\
  fewer_rules g_prog_fewer g_prog /\ valid_grammar g_prog_fewer /\ root_free g_prog_fewer /\ parser_new 50 g_prog_fewer = Ok p' /\
  rules_for "E" g_expr g_prog /\ valid_grammar g_expr /\ root_free g_expr /\ parser_new 50 g_expr = Ok p2 /\
  parse_stream (E := Empty_set) 100 p ["n"; "+"; "n"; ";"; "n"; ";"] = Ok true /\ parse_stream (E := Empty_set) 100 p' ["n"; "+"; "n"; ";"; "n"; ";"] = Ok true /\
  parse_stream (E := Empty_set) 100 p2 ["n"; "+"; "("; "n"; ")"] = Ok true.
Proof. exact prog_parts. Qed.

(** The calculator, and the calculator without dots. *)
Example C81_example_macro : forall bm : BuildMode,
  orders_ok forward /\ reads_as show (trees (placed 1 calc_input)) calc_decls /\ defaults_bound (gi_rules calc) /\ hygienic_rules (gi_rules calc) /\
  gi_rules calc = d_rules calc_decls /\ first_complete (bm := bm) (source (d_rules calc_decls)) /\ pub_expand bm calc_input = Ok (Item place calc_item) /\
  unambiguous_tokens code_demo calc calc_tokens /\
  reads_as show (trees (placed 1 calc_fewer)) (decls_of calc_fewer) /\
  parse_declarations show (tokenize_from_stream (trees (placed 1 calc_fewer))) = Ok (decls_of calc_fewer) /\
  d_terminal_type (decls_of calc_fewer) = d_terminal_type calc_decls /\
  fewer_declared (d_rules (decls_of calc_fewer)) (d_rules calc_decls) /\ numbered_in fewer_numbers (d_rules (decls_of calc_fewer)) (d_rules calc_decls) /\
  first_complete (bm := bm) (source (d_rules (decls_of calc_fewer))) /\ valid_grammar (source (d_rules (decls_of calc_fewer))) /\ root_unused (d_rules (decls_of calc_fewer)) /\
  (forall r, In r (d_rules (decls_of calc_fewer)) -> good_rule r) /\
  (forall s, terminal_in (d_rules (decls_of calc_fewer)) s -> good_terminal all_literals (d_terminal_type (decls_of calc_fewer)) s) /\
  expand_at bm 50 (placed 1 calc_fewer) = Ok (Item place calc_fewer_item).
Proof.
  exact (fun bm => conj forward_ok (conj (proj2 calc_placed_reads) (conj calc_bound (conj calc_hygienic (conj calc_rules_eq
    (conj (proj1 (proj2 (proj2 (calc_conditions bm)))) (conj (calc_expands bm) (conj (proj1 (proj2 calc_tree_code)) (calc_fewer_ok bm))))))))).
Qed.

Example C81_example_runs : forall bm : BuildMode,
  gives_value code_demo (run_emitted (bm := bm) (E := unit) code_demo no_error' (of_list calc_tokens) sum_body 100 calc_item) (RUser 5) /\
  gives_value (renumber fewer_numbers code_demo)
    (run_emitted (bm := bm) (E := unit) (renumber fewer_numbers code_demo) no_error' (of_list calc_tokens) (fun i => sum_body (fewer_numbers i)) 100 calc_fewer_item) (RUser 5).
Proof. exact calc_fewer_run. Qed.
