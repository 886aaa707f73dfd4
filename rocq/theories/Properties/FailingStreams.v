(** Streams that fail (C68): which error an emitted parser returns if its stream of
    tokens ends with an error. *)
From Coq Require Import Arith String List.
From Verif Require Import Base.Prelude Spec.Grammar Spec.Observers Spec.Nullable Spec.Values Spec.EmittedCode Spec.Meaning Spec.FailingStreams.
From Verif Require Import Model.TokenTree Model.Terminal Model.Constructor Model.CodeGen Model.Runtime Model.Rust Model.Emit.
From Verif Require Import Model.Symbol Model.FrontEnd Model.Diagnostics Model.Expand.
From Verif Require Import Spec.Macro Spec.Diagnostics Spec.Expansion.
From Verif Require Import Proofs.GenExamples Proofs.MacroExamples Proofs.DiagnosticsExamples Proofs.EmitExamples Proofs.ExpandExamples Proofs.MacroRefute.
From Verif Require Import Proofs.FailStreams Proofs.MeaningExamples Proofs.FailStreamsExamples.
Import ListNotations.
Open Scope string_scope.
Open Scope list_scope.

(** The stream gives the tokens [toks], then the error [e], and then anything.  The
    item that [grammar!] or [pub_grammar!] makes of declarations [d] returns an error in
    linearly many steps: that of the constructor that fails before all tokens have been
    looked at, if there is one; else it shows the first token that no sentence has
    there; and if [toks] begin a sentence, it is [e], converted to the type of errors.
    (Which error it is, is stated for [productive] grammars.)  What is missing is the
    same as in C63: this holds if the FIRST sets are right, if no default constructor
    lacks its argument, and if constructors do not name local variables of the emitted
    code. *)
Theorem C68_errors_of_failing_streams_partial :
  forall (span : Type) (call_site : span) join_spans print lex_error literal_ok (bm : BuildMode) ho, orders_ok ho ->
  forall fuel ts em d, reads_as print (trees ts) d -> defaults_bound (d_rules d) -> hygienic_rules (d_rules d) ->
  first_complete (bm := bm) (source (d_rules d)) ->
  Expand.grammar span call_site join_spans print lex_error literal_ok ho fuel ts = Ok (Item span em) \/
  pub_grammar span call_site join_spans print lex_error literal_ok ho fuel ts = Ok (Item span em) ->
  exists gi C, gi_terminal_type gi = d_terminal_type d /\ gi_rules gi = d_rules d /\
  forall (bmr : BuildMode) (E : Type) (R : rust) (SErr : Type) (into : SErr -> UErr R) bv, describes R SErr bv -> depends_on_named R SErr bv ->
  forall toks e rest fuel', unambiguous_tokens R gi toks -> C * S (List.length toks) <= fuel' ->
  let m := run_emitted (bm := bmr) R into (of_list_then toks e rest) bv fuel' em : Rust.result (E := E) R in
  (exists err, (productive (source (gi_rules gi)) -> right_stream_error R gi toks (into e) err) /\ gives_error R m err) /\
  (forall u, fails_within R gi toks u -> gives_error R m (UserError R u)).
Proof.
  exact (fun span cs js print lex lo bm ho Ho fuel ts em d => @macros_streams span cs js print lex lo bm ho Ho fuel ts em d).
Qed.
Print Assumptions C68_errors_of_failing_streams_partial.

(** Without the condition on FIRST sets: the parser for
    [<S> => <A> <A>; <A> => <B> C; <B> => !;] stops at the second of the tokens [C C],
    although they are a sentence, and does not see the error after them. *)
Theorem C68_errors_of_failing_streams_refuted :
  forall (bm bmr : BuildMode), exists ts em d gi toks,
  well_spaced (trees ts) /\ reads_as show (trees ts) d /\ defaults_bound (d_rules d) /\ hygienic_rules (d_rules d) /\ productive (source (d_rules d)) /\
  (forall fuel, 50 <= fuel -> expand_at bm fuel ts = Ok (Item place em)) /\
  gi_terminal_type gi = d_terminal_type d /\ gi_rules gi = d_rules d /\
  describes code_demo string sum_body /\ depends_on_named code_demo string sum_body /\ unambiguous_tokens code_demo gi toks /\ (exists t, parses_tokens code_demo gi toks t) /\
  exists err, gives_error code_demo (run_emitted (bm := bmr) (E := unit) code_demo no_error' (of_list_then toks "io" (of_list [])) sum_body 100 em) err /\
    ~ right_stream_error code_demo gi toks "io" err.
Proof. exact first_streams. Qed.
Print Assumptions C68_errors_of_failing_streams_refuted.

(** A grammar that meets all conditions: sums of numbers, with an error if a sum is
    too big.  The three cases of the theorem, for streams that end with ["io"]. *)
Example C68_example (bm : BuildMode) :
  orders_ok forward /\ reads_as show (trees (placed 1 calc_input)) calc_decls /\ defaults_bound (d_rules calc_decls) /\
  hygienic_rules (gi_rules calc) /\ gi_rules calc = d_rules calc_decls /\ first_complete (bm := bm) (source (d_rules calc_decls)) /\
  pub_expand bm calc_input = Ok (Item place calc_item) /\
  describes code_demo string sum_body /\ depends_on_named code_demo string sum_body /\ productive (source (gi_rules calc)) /\
  unambiguous_tokens code_demo calc [Num 9; Plus; Num 3; Plus; Plus] /\ fails_within code_demo calc [Num 9; Plus; Num 3; Plus; Plus] "overflow" /\
  let run toks := outcome_of (run_emitted (bm := bm) (E := unit) code_demo no_error' (of_list_then toks "io" (of_list [])) sum_body 100 calc_item) in
  run [Num 9; Plus; Num 3; Plus; Plus] = Some (result_value (inr (UserError code_demo "overflow"))) /\
  run [Num 9; Plus] = Some (result_value (inr (UserError code_demo "io"))) /\
  run [Num 9; Plus; Num 3] = Some (result_value (inr (UserError code_demo "io"))) /\
  run [Num 9; Plus; Plus] = Some (result_value (inr (ParseError code_demo (Some Plus)))).
Proof.
  exact (conj forward_ok (conj (proj2 calc_placed_reads) (conj calc_bound (conj calc_hygienic (conj calc_rules_eq (conj (proj1 (proj2 (proj2 (calc_conditions bm))))
    (conj (calc_expands bm) (conj demo_describes (conj demo_depends (conj calc_productive (conj calc_five (conj calc_fails_within (calc_streams bm))))))))))))).
Qed.
