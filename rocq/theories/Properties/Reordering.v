(** The order of the declarations after the first does not matter to the parsers that
    [grammar!] makes (C76). *)
From Coq Require Import Arith String List Permutation.
From Verif Require Import Base.Prelude Spec.Grammar Spec.Observers Spec.Nullable Spec.Values Spec.EmittedCode Spec.Meaning Spec.Reordering.
From Verif Require Import Model.TokenTree Model.Terminal Model.Constructor Model.CodeGen Model.Runtime Model.Rust Model.Emit.
From Verif Require Import Model.Symbol Model.FrontEnd Model.Diagnostics Model.Expand.
From Verif Require Import Spec.Macro Spec.Diagnostics Spec.Expansion.
From Verif Require Import Proofs.GenExamples Proofs.MacroExamples Proofs.DiagnosticsExamples Proofs.EmitExamples Proofs.ExpandExamples Proofs.MacroRefute.
From Verif Require Import Proofs.ReorderedValues Proofs.ReorderedExamples.
Import ListNotations.
Open Scope string_scope.
Open Scope list_scope.

(** Rules in another order can be numbered as the theorems below require. *)
Theorem C76_numberings_exist :
  forall rs rs', reordered_rules rs rs' -> exists f, numbering f rs rs'.
Proof. exact rules_numbering. Qed.
Print Assumptions C76_numberings_exist.

(** What an input means, which constructors fail on it, and which tokens begin a
    sentence, does not depend on the order of the rules after the first, if the
    constructors stay with their rules. *)
Theorem C76_same_meanings :
  forall (R : rust) f gi gi', gi_terminal_type gi = gi_terminal_type gi' -> reordered_rules (gi_rules gi) (gi_rules gi') -> numbering f (gi_rules gi) (gi_rules gi') ->
  forall toks : list (tok R),
  (forall v : val R, input_means R gi toks v <-> input_means (renumber f R) gi' toks v) /\
  (forall u : UErr R, constructor_fails R gi toks u <-> constructor_fails (renumber f R) gi' toks u) /\
  (begins_sentence R gi toks <-> begins_sentence (renumber f R) gi' toks).
Proof.
  exact (fun R f gi gi' Ht Hr Hf toks =>
    conj (input_both R f gi gi' Ht Hr Hf toks) (conj (ctor_both R f gi gi' Ht Hr Hf toks) (begins_both R f gi gi' Ht Hr toks))).
Qed.
Print Assumptions C76_same_meanings.

(** So the parsers should return the same.  But the parser for
    [<S> => <A> <A>; <A> => <B> C; <B> => !;] rejects [C C], which the one for
    [<S> => <A> <A>; <B> => !; <A> => <B> C;] accepts, ... *)
Theorem C76_same_results_refuted :
  forall (bm bmr : BuildMode), exists ts ts' em em' d d' f gi toks k v,
  well_spaced (trees ts) /\ well_spaced (trees ts') /\ reads_as show (trees ts) d /\ reads_as show (trees ts') d' /\
  d_terminal_type d = d_terminal_type d' /\ reordered_rules (d_rules d) (d_rules d') /\ numbering f (d_rules d) (d_rules d') /\
  defaults_bound (d_rules d) /\ hygienic_rules (d_rules d) /\ productive (source (d_rules d)) /\
  (forall fuel, 50 <= fuel -> expand_at bm fuel ts = Ok (Item place em) /\ expand_at bm fuel ts' = Ok (Item place em')) /\
  describes code_demo string sum_body /\ depends_on_named code_demo string sum_body /\
  gi_terminal_type gi = d_terminal_type d /\ gi_rules gi = d_rules d /\ unambiguous_tokens code_demo gi toks /\
  gives_error code_demo (run_emitted (bm := bmr) (E := unit) code_demo no_error' (of_list toks) sum_body 100 em) (ParseError code_demo k) /\
  gives_value (renumber f code_demo) (run_emitted (bm := bmr) (E := unit) (renumber f code_demo) no_error' (of_list toks) (fun i => sum_body (f i)) 100 em') v.
Proof. exact reordered_first. Qed.
Print Assumptions C76_same_results_refuted.

(** ... and of two orders of the rules of an ambiguous grammar one gives a parser, the
    other a message. *)
Theorem C76_same_grammars_refuted :
  forall bm : BuildMode, exists ts ts' d d' em e,
  parse_declarations show (tokenize_from_stream (trees ts)) = Ok d /\ parse_declarations show (tokenize_from_stream (trees ts')) = Ok d' /\
  d_terminal_type d = d_terminal_type d' /\ reordered_rules (d_rules d) (d_rules d') /\ root_unused (d_rules d) /\ productive (source (d_rules d)) /\
  (forall r, In r (d_rules d) -> good_rule r) /\ (forall s, terminal_in (d_rules d) s -> good_terminal all_literals (d_terminal_type d) s) /\
  forall fuel, 50 <= fuel -> expand_at bm fuel ts = Ok (Item place em) /\ expand_at bm fuel ts' = Ok (CompileError place e).
Proof. exact reordered_ambiguous. Qed.
Print Assumptions C76_same_grammars_refuted.

(** What holds if the FIRST sets of both orders are complete: the parsers return the
    same value or the same error (the latter for grammars all of whose labels derive
    something). *)
Theorem C76_same_results_partial :
  forall (span : Type) (call_site : span) join_spans print lex_error literal_ok (bm : BuildMode) ho ho', orders_ok ho -> orders_ok ho' ->
  forall fuel fuel' ts ts' em em' d d' f, reads_as print (trees ts) d -> reads_as print (trees ts') d' ->
  d_terminal_type d = d_terminal_type d' -> reordered_rules (d_rules d) (d_rules d') -> numbering f (d_rules d) (d_rules d') ->
  defaults_bound (d_rules d) -> hygienic_rules (d_rules d) ->
  first_complete (bm := bm) (source (d_rules d)) -> first_complete (bm := bm) (source (d_rules d')) ->
  Expand.grammar span call_site join_spans print lex_error literal_ok ho fuel ts = Ok (Item span em) \/
  pub_grammar span call_site join_spans print lex_error literal_ok ho fuel ts = Ok (Item span em) ->
  Expand.grammar span call_site join_spans print lex_error literal_ok ho' fuel' ts' = Ok (Item span em') \/
  pub_grammar span call_site join_spans print lex_error literal_ok ho' fuel' ts' = Ok (Item span em') ->
  exists C, forall (bmr : BuildMode) (E : Type) (R : rust) (SErr : Type) (into : SErr -> UErr R) bv, describes R SErr bv -> depends_on_named R SErr bv ->
  forall gi toks steps, gi_terminal_type gi = d_terminal_type d -> gi_rules gi = d_rules d -> unambiguous_tokens R gi toks -> C * S (List.length toks) <= steps ->
  let m := run_emitted (bm := bmr) R into (of_list toks) bv steps em : Rust.result (E := E) R in
  let m' := run_emitted (bm := bmr) (renumber f R) into (of_list toks) (fun i => bv (f i)) steps em' : Rust.result (E := E) (renumber f R) in
  (exists v : val R, gives_value R m v /\ gives_value (renumber f R) m' v) \/
  (exists e e', gives_error R m e /\ gives_error (renumber f R) m' e' /\ (productive (source (d_rules d)) -> same_error f R e e')).
Proof.
  exact (fun span cs js print lex lo bm ho ho' Ho Ho' fuel fuel' ts ts' em em' d d' f =>
    @reordered_runs span cs js print lex lo bm ho ho' Ho Ho' fuel fuel' ts ts' em em' d d' f).
Qed.
Print Assumptions C76_same_results_partial.

(** ... and one order gives a parser if and only if the other does. *)
Theorem C76_same_grammars_partial :
  forall (span : Type) (call_site : span) join_spans print lex_error literal_ok (bm : BuildMode) ho ho', orders_ok ho -> orders_ok ho' ->
  forall ts ts' d d', parse_declarations print (tokenize_from_stream (trees ts)) = Ok d -> parse_declarations print (tokenize_from_stream (trees ts')) = Ok d' ->
  d_terminal_type d = d_terminal_type d' -> reordered_rules (d_rules d) (d_rules d') ->
  root_unused (d_rules d) -> first_complete (source (d_rules d)) -> first_complete (source (d_rules d')) -> productive (source (d_rules d)) ->
  (forall r, In r (d_rules d) -> good_rule r) -> (forall s, terminal_in (d_rules d) s -> good_terminal literal_ok (d_terminal_type d) s) ->
  exists N, forall fuel, N < fuel ->
  ((exists em, Expand.grammar span call_site join_spans print lex_error literal_ok ho fuel ts = Ok (Item span em)) <->
   (exists em', Expand.grammar span call_site join_spans print lex_error literal_ok ho' fuel ts' = Ok (Item span em'))) /\
  ((exists e, Expand.grammar span call_site join_spans print lex_error literal_ok ho fuel ts = Ok (CompileError span e)) <->
   (exists e', Expand.grammar span call_site join_spans print lex_error literal_ok ho' fuel ts' = Ok (CompileError span e'))).
Proof.
  exact (fun span cs js print lex lo bm ho ho' Ho Ho' ts ts' d d' => @reordered_items span cs js print lex lo bm ho ho' Ho Ho' ts ts' d d').
Qed.
Print Assumptions C76_same_grammars_partial.

(** The calculator and its declarations in another order meet the conditions. *)
Example C76_example : forall bm : BuildMode,
  orders_ok forward /\ reads_as show (trees (placed 1 calc_input)) calc_decls /\ defaults_bound (gi_rules calc) /\ hygienic_rules (gi_rules calc) /\
  gi_rules calc = d_rules calc_decls /\ first_complete (bm := bm) (source (d_rules calc_decls)) /\ productive (source (d_rules calc_decls)) /\
  pub_expand bm calc_input = Ok (Item place calc_item) /\ unambiguous_tokens code_demo calc calc_tokens /\
  reads_as show (trees (placed 1 calc_swapped)) (decls_of calc_swapped) /\ d_terminal_type calc_decls = d_terminal_type (decls_of calc_swapped) /\
  reordered_rules (d_rules calc_decls) (d_rules (decls_of calc_swapped)) /\ numbering calc_numbers (d_rules calc_decls) (d_rules (decls_of calc_swapped)) /\
  first_complete (bm := bm) (source (d_rules (decls_of calc_swapped))) /\ expand_at bm 50 (placed 1 calc_swapped) = Ok (Item place calc_swapped_item).
Proof.
  exact (fun bm => conj forward_ok (conj (proj2 calc_placed_reads) (conj calc_bound (conj calc_hygienic (conj calc_rules_eq
    (conj (proj1 (proj2 (proj2 (calc_conditions bm)))) (conj (proj2 (proj2 (proj2 (calc_conditions bm)))) (conj (calc_expands bm) (conj (proj1 (proj2 calc_tree_code)) (calc_swapped_ok bm)))))))))).
Qed.

Example C76_example_runs : forall bm : BuildMode,
  gives_value code_demo (run_emitted (bm := bm) (E := unit) code_demo no_error' (of_list calc_tokens) sum_body 100 calc_item) (RUser 5) /\
  gives_value (renumber calc_numbers code_demo)
    (run_emitted (bm := bm) (E := unit) (renumber calc_numbers code_demo) no_error' (of_list calc_tokens) (fun i => sum_body (calc_numbers i)) 100 calc_swapped_item) (RUser 5).
Proof. exact calc_both_run. Qed.
