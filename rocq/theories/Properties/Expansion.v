(** [grammar!] and [pub_grammar!] as a whole (C54 - C56): from the tokens of the
    input, with their spans, to the emitted item or a message at a place.  The
    specification is in [Spec.Expansion] (names, types, good rules), [Spec.Places]
    (where rules are written) and the files it refers to. *)
From Coq Require Import Arith Bool String Ascii NArith List.
From Verif Require Import Base.Prelude Spec.Grammar Spec.Validity Spec.Nullable Spec.LR1 Spec.Observers Model.Error Model.LRTable.
From Verif Require Import Model.TokenTree Model.Terminal Model.Constructor Model.CodeGen Model.Runtime Model.Symbol Model.FrontEnd.
From Verif Require Import Model.Diagnostics Model.CodeGenDiagnostics Model.Rust Model.Emit Model.Expand.
From Verif Require Import Spec.Values Spec.Macro Spec.MacroPanic Spec.Diagnostics Spec.CodeGenDiagnostics Spec.EmittedCode Spec.Places Spec.Expansion.
From Verif Require Import Proofs.GenExamples Proofs.MacroExamples Proofs.DiagnosticsExamples Proofs.EmitExamples Proofs.ExpandMain Proofs.ExpandExamples Proofs.MacroRefute.
Import ListNotations.
Open Scope string_scope.
Open Scope list_scope.

(** ** C54: the emitted item is the one that was asked for

    Its name and types are the declared ones, and it is public iff the macro is
    [pub_grammar!]. *)
Theorem C54_item_is_as_written :
  forall (span : Type) (call_site : span) (join_spans : span -> span -> option span) (print : list ttree -> string)
    (lex_error : string -> string) (literal_ok : string -> bool) (bm : BuildMode) ho, orders_ok ho ->
  forall fuel ts em, well_spaced (trees ts) ->
  (grammar span call_site join_spans print lex_error literal_ok ho fuel ts = Ok (Item span em) ->
   exists d, reads_as print (trees ts) d /\ d_rules d <> [] /\ as_written d em /\ em_public em = false) /\
  (pub_grammar span call_site join_spans print lex_error literal_ok ho fuel ts = Ok (Item span em) ->
   exists d, reads_as print (trees ts) d /\ d_rules d <> [] /\ as_written d em /\ em_public em = true).
Proof.
  exact (fun span call_site join_spans print lex_error literal_ok bm ho Ho =>
    macros_as_written call_site join_spans print lex_error literal_ok ho Ho).
Qed.
Print Assumptions C54_item_is_as_written.

(** Nothing else depends on which macro it is. *)
Theorem C54_visibility_only :
  forall (span : Type) (call_site : span) (join_spans : span -> span -> option span) (print : list ttree -> string)
    (lex_error : string -> string) (literal_ok : string -> bool) (bm : BuildMode) ho fuel ts,
  match grammar span call_site join_spans print lex_error literal_ok ho fuel ts,
        pub_grammar span call_site join_spans print lex_error literal_ok ho fuel ts with
  | Ok (Item _ em), Ok (Item _ em') => em' = mk_emitted true (em_struct em) (em_table_size em) (em_token em) (em_value em) (em_error em)
      (em_generics em) (em_param em) (em_enum em) (em_fns em) (em_body em)
  | Ok (CompileError _ d), Ok (CompileError _ d') => d' = d
  | Panic w, Panic w' => w = w'
  | Diverge, Diverge => True
  | _, _ => False
  end.
Proof.
  exact (fun span call_site join_spans print lex_error literal_ok bm ho =>
    macros_same call_site join_spans print lex_error literal_ok ho).
Qed.
Print Assumptions C54_visibility_only.

(** Running the item parses the grammar that was written: a value is returned only
    for a sentence, and is that of a parse tree; and for every sentence, the value
    or error of its constructors is returned.  In full, without the conditions of
    the second part and those on names, this is false (see below, C34 and C53). *)
Theorem C54_item_parses_partial :
  forall (span : Type) (call_site : span) (join_spans : span -> span -> option span) (print : list ttree -> string)
    (lex_error : string -> string) (literal_ok : string -> bool) (bm : BuildMode) ho, orders_ok ho ->
  forall fuel ts em d, reads_as print (trees ts) d -> defaults_bound (d_rules d) -> hygienic_rules (d_rules d) ->
  grammar span call_site join_spans print lex_error literal_ok ho fuel ts = Ok (Item span em) \/
  pub_grammar span call_site join_spans print lex_error literal_ok ho fuel ts = Ok (Item span em) ->
  exists gi, gi_terminal_type gi = d_terminal_type d /\ gi_rules gi = d_rules d /\
  forall (bmr : BuildMode) (E : Type) (R : rust) (SErr : Type) (into : SErr -> UErr R) bv, describes R SErr bv -> depends_on_named R SErr bv ->
  (forall input fuel' st v, run_emitted (bm := bmr) R into input bv fuel' em = (Ok (st, FVal R (VCon ["Ok"] [VVal v])) : Rust.result (E := E) R) ->
    exists toks t, (forall i, i <= List.length toks -> input i = of_list toks i) /\ parses_tokens R gi toks t /\ snd (Values.eval R gi t) = inl v) /\
  (forall toks t, first_complete (bm := bm) (source (d_rules d)) -> unambiguous_tokens R gi toks -> parses_tokens R gi toks t ->
    exists N, forall fuel', N < fuel' -> exists st, run_emitted (bm := bmr) R into (of_list toks) bv fuel' em =
      (Ok (st, FVal R (result_value (match snd (Values.eval R gi t) with inl v => inl v | inr e => inr (UserError R e) end))) : Rust.result (E := E) R)).
Proof.
  exact (fun span call_site join_spans print lex_error literal_ok bm ho Ho =>
    macros_parse call_site join_spans print lex_error literal_ok ho Ho).
Qed.
Print Assumptions C54_item_parses_partial.

(** In full, it is false: here the item rejects a sentence at its second token. *)
Theorem C54_item_parses_refuted :
  forall bm bmr : BuildMode, exists ts em d gi toks t,
  well_spaced (trees ts) /\ reads_as show (trees ts) d /\ defaults_bound (d_rules d) /\ hygienic_rules (d_rules d) /\ productive (source (d_rules d)) /\
  (forall fuel, 50 <= fuel -> grammar (bm := bm) place whole join_places show no_lex all_literals forward fuel ts = Ok (Item place em)) /\
  gi_terminal_type gi = d_terminal_type d /\ gi_rules gi = d_rules d /\ unambiguous_tokens code_demo gi toks /\ parses_tokens code_demo gi toks t /\
  exists st k, nth_error toks 1 = Some k /\ run_emitted (bm := bmr) (E := unit) code_demo no_error' (of_list toks) sum_body 100 em =
    Ok (st, FVal code_demo (result_value (inr (ParseError code_demo (Some k))))).
Proof. exact first_item_refutes. Qed.
Print Assumptions C54_item_parses_refuted.

(** A calculator, with an error type; and an input whose first rule has no type. *)
Example C54_example : forall bm : BuildMode,
  orders_ok forward /\ well_spaced (trees (placed 1 calc_input)) /\ reads_as show (trees (placed 1 calc_input)) calc_decls /\
  defaults_bound (d_rules calc_decls) /\ hygienic_rules (gi_rules calc) /\ gi_rules calc = d_rules calc_decls /\
  pub_expand bm calc_input = Ok (Item place calc_item) /\
  outcome_of (run_emitted (bm := bm) (E := unit) code_demo no_error' (of_list calc_tokens) sum_body 100 calc_item) = Some (VCon ["Ok"] [VVal (RUser 5)]).
Proof.
  exact (fun bm => conj forward_ok (conj (proj1 calc_placed_reads) (conj (proj2 calc_placed_reads) (conj calc_bound (conj calc_hygienic
    (conj calc_rules_eq (conj (calc_expands bm) (calc_item_runs bm)))))))).
Qed.

Example C54_example_untyped : forall bm : BuildMode, match expand bm list_input with
  | Ok (Item _ em) => (em_public em, em_struct em, em_token em, em_value em, em_error em) =
      (false, "Lst", [TIdent "char"], [TGroup Parenthesis []], [TIdent "Oops"])
  | _ => False
  end.
Proof. exact list_expands. Qed.

(** ** C55: what is wrong with the input is reported where it is

    A message is about the symbols of the input ([located], C47), or these have
    rules, with their places, and either the grammar is rejected or a rule or
    terminal is bad ([reportable], C50). *)
Theorem C55_reports_are_right :
  forall (span : Type) (call_site : span) (join_spans : span -> span -> option span) (print : list ttree -> string)
    (lex_error : string -> string) (literal_ok : string -> bool) (bm : BuildMode) ho, orders_ok ho ->
  forall fuel ts d, well_spaced (trees ts) ->
  grammar span call_site join_spans print lex_error literal_ok ho fuel ts = Ok (CompileError span d) \/
  pub_grammar span call_site join_spans print lex_error literal_ok ho fuel ts = Ok (CompileError span d) ->
  exists its, symbols_at join_spans ts its /\
  ((exists e, located call_site join_spans print its e d) \/
   exists xs rules, its = map inl xs /\ rules_written join_spans print rules xs /\
   ((exists g, parse_grammar print fuel (tokenize_from_stream (trees ts)) = Err (GrammarError g) /\
       grammar_text g (dg_message span d) /\ dg_span span d = call_site) \/
    (exists n et gi, parse_grammar print fuel (tokenize_from_stream (trees ts)) = Ok (n, et, gi) /\
       gi_rules gi = map (sr_rule span) rules /\ reportable call_site lex_error literal_ok gi rules d))).
Proof.
  exact (fun span call_site join_spans print lex_error literal_ok bm ho Ho =>
    macros_report call_site join_spans print lex_error literal_ok ho Ho).
Qed.
Print Assumptions C55_reports_are_right.

(** So the place is the macro as a whole, or that of tokens of the input. *)
Theorem C55_reports_point_into_the_input :
  forall (span : Type) (call_site : span) (join_spans : span -> span -> option span) (print : list ttree -> string)
    (lex_error : string -> string) (literal_ok : string -> bool) (bm : BuildMode) ho, orders_ok ho ->
  forall fuel ts d, well_spaced (trees ts) ->
  grammar span call_site join_spans print lex_error literal_ok ho fuel ts = Ok (CompileError span d) \/
  pub_grammar span call_site join_spans print lex_error literal_ok ho fuel ts = Ok (CompileError span d) ->
  dg_span span d = call_site \/ place_in join_spans ts (dg_span span d).
Proof.
  exact (fun span call_site join_spans print lex_error literal_ok bm ho Ho =>
    macros_place call_site join_spans print lex_error literal_ok ho Ho).
Qed.
Print Assumptions C55_reports_point_into_the_input.

(** Messages of all kinds.  The last ones are at tokens in blocks. *)
Example C55_example : forall bm : BuildMode,
  Forall (fun ts => well_spaced (trees (placed 1 ts))) wrong_inputs /\
  map (fun ts => told (expand bm ts)) wrong_inputs =
  [Some ("Unexpected token ""?""", (16, 17));
   Some ("Unrecognized label ""<A>""", whole);
   Some ("Reduce conflict between rule RuleId(4) and rule RuleId(3) with lookahead $", whole);
   Some ("Must provide a constructor for rules with more than 1 node", (25, 27));
   Some ("Unrecognized production label: not found in rule", (15, 18));
   Some ("Index is out of range of rules, expected within [0, 1)", (15, 19))].
Proof. exact (fun bm => conj wrong_spaced (wrong_reports bm)). Qed.

(** ** C56: when the macro emits an item

    It returns, or panics for one of two reasons. *)
Theorem C56_macro_returns :
  forall (span : Type) (call_site : span) (join_spans : span -> span -> option span) (print : list ttree -> string)
    (lex_error : string -> string) (literal_ok : string -> bool) (bm : BuildMode) ho, orders_ok ho ->
  forall ts, exists N, forall fuel, N < fuel ->
  (exists x, grammar span call_site join_spans print lex_error literal_ok ho fuel ts = Ok x) \/
  exists w d, grammar span call_site join_spans print lex_error literal_ok ho fuel ts = Panic w /\
    parse_declarations print (tokenize_from_stream (trees ts)) = Ok d /\ panic_cause d.
Proof.
  exact (fun span call_site join_spans print lex_error literal_ok bm ho Ho =>
    macros_return call_site join_spans print lex_error literal_ok ho Ho).
Qed.
Print Assumptions C56_macro_returns.

(** With good rules and terminals, an item should be emitted iff the grammar is
    valid and LR(1).  As in C07, both directions are false. *)
Theorem C56_item_means_lr1_refuted :
  forall bm : BuildMode, exists ts d em, well_spaced (trees ts) /\ reads_as show (trees ts) d /\ root_unused (d_rules d) /\ productive (source (d_rules d)) /\
  (forall r, In r (d_rules d) -> good_rule r) /\ (forall s, terminal_in (d_rules d) s -> good_terminal all_literals (d_terminal_type d) s) /\
  (forall fuel, 50 <= fuel -> grammar place whole join_places show no_lex all_literals forward fuel ts = Ok (Item place em)) /\
  ~ lr1_grammar (source (d_rules d)).
Proof. exact ambiguous_item. Qed.
Print Assumptions C56_item_means_lr1_refuted.

Theorem C56_lr1_means_item_refuted :
  forall bm : BuildMode, exists ts d e, well_spaced (trees ts) /\ reads_as show (trees ts) d /\ root_unused (d_rules d) /\
  first_complete (source (d_rules d)) /\ valid_grammar (source (d_rules d)) /\ lr1_grammar (source (d_rules d)) /\
  (forall r, In r (d_rules d) -> good_rule r) /\ (forall s, terminal_in (d_rules d) s -> good_terminal all_literals (d_terminal_type d) s) /\
  (forall fuel, 50 <= fuel -> grammar place whole join_places show no_lex all_literals forward fuel ts = Ok (CompileError place e)).
Proof. exact unproductive_item. Qed.
Print Assumptions C56_lr1_means_item_refuted.

(** It holds if FIRST sets are complete and every label derives some word.
    Missing: other grammars, and those whose first rule mentions its own label. *)
Theorem C56_item_iff_lr1_partial :
  forall (span : Type) (call_site : span) (join_spans : span -> span -> option span) (print : list ttree -> string)
    (lex_error : string -> string) (literal_ok : string -> bool) (bm : BuildMode) ho, orders_ok ho ->
  forall ts d, parse_declarations print (tokenize_from_stream (trees ts)) = Ok d ->
  root_unused (d_rules d) -> first_complete (source (d_rules d)) -> productive (source (d_rules d)) ->
  (forall r, In r (d_rules d) -> good_rule r) -> (forall s, terminal_in (d_rules d) s -> good_terminal literal_ok (d_terminal_type d) s) ->
  exists N, forall fuel, N < fuel ->
  ((exists em, grammar span call_site join_spans print lex_error literal_ok ho fuel ts = Ok (Item span em)) <->
   valid_grammar (source (d_rules d)) /\ lr1_grammar (source (d_rules d))) /\
  ((exists e, grammar span call_site join_spans print lex_error literal_ok ho fuel ts = Ok (CompileError span e)) <->
   ~ (valid_grammar (source (d_rules d)) /\ lr1_grammar (source (d_rules d)))).
Proof.
  exact (fun span call_site join_spans print lex_error literal_ok bm ho Ho =>
    macros_accept call_site join_spans print lex_error literal_ok ho Ho).
Qed.
Print Assumptions C56_item_iff_lr1_partial.

Example C56_example : forall bm : BuildMode, orders_ok forward /\
  (parse_declarations show (tokenize_from_stream (trees (placed 1 calc_input))) = Ok calc_decls /\
   root_unused (d_rules calc_decls) /\ first_complete (bm := bm) (source (d_rules calc_decls)) /\ productive (source (d_rules calc_decls))) /\
  (forall r, In r (d_rules calc_decls) -> good_rule r) /\
  (forall s, terminal_in (d_rules calc_decls) s -> good_terminal all_literals (d_terminal_type calc_decls) s).
Proof. exact (fun bm => conj forward_ok (conj (calc_conditions bm) calc_good)). Qed.

(** Both panics occur. *)
Example C56_panics : forall bm : BuildMode, (exists w, expand bm self_input = Panic w) /\ (exists w, expand bm char_input = Panic w).
Proof. exact panics. Qed.
