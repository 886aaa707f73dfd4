(** What a list of tokens means in a grammar with constructors, and that the code
    emitted by the macros computes it (C63).  The specification, [Spec.Meaning], has
    no parse trees and no tables: each rule is read as an inference rule. *)
From Coq Require Import Arith String List.
From Verif Require Import Base.Prelude Spec.Grammar Spec.Observers Spec.Nullable Spec.Values Spec.EmittedCode Spec.Meaning.
From Verif Require Import Model.TokenTree Model.Terminal Model.Constructor Model.CodeGen Model.Runtime Model.Rust Model.Emit.
From Verif Require Import Model.Symbol Model.FrontEnd Model.Diagnostics Model.Expand.
From Verif Require Import Spec.Macro Spec.Diagnostics Spec.Expansion.
From Verif Require Import Proofs.GenExamples Proofs.MacroExamples Proofs.DiagnosticsExamples Proofs.EmitExamples Proofs.ExpandExamples Proofs.MacroRefute.
From Verif Require Import Proofs.Meaning Proofs.MeaningMain Proofs.MeaningExamples.
Import ListNotations.
Open Scope string_scope.
Open Scope list_scope.

(** The meanings of an input are the values of its parse trees, which the theorems
    on generated parsers (C20 - C29) are about. *)
Theorem C63_meanings_are_values_of_trees :
  forall (R : rust) gi toks v, input_means R gi toks v <-> exists t, parses_tokens R gi toks t /\ snd (Values.eval R gi t) = inl v.
Proof. exact meaning_iff. Qed.
Print Assumptions C63_meanings_are_values_of_trees.

(** For a grammar of which a parser is generated, an input means at most one thing.
    What is missing: this holds if the computed FIRST sets are right
    ([first_complete]); if not, ambiguous grammars are accepted (see below). *)
Theorem C63_meaning_is_unique_partial :
  forall (bmg : BuildMode) literal_ok gi p, generated (bm := bmg) literal_ok gi p -> first_complete (bm := bmg) (source (gi_rules gi)) ->
  forall (R : rust) toks v v', unambiguous_tokens R gi toks -> input_means R gi toks v -> input_means R gi toks v' -> v = v'.
Proof. exact (fun bmg literal_ok gi p Hg Hf R toks v v' => @meaning_unique bmg literal_ok gi p Hg Hf R toks v v'). Qed.
Print Assumptions C63_meaning_is_unique_partial.

(** The item that [grammar!] or [pub_grammar!] makes of declarations [d] is a parser
    which, in linearly many steps, returns the meaning of an input, if it has one; and
    otherwise an error.  The error is that of the first constructor that fails on tokens
    which, with the next one, still begin a sentence; if there is none, it shows the
    first token that no sentence has there.  (Which error it is, is stated for grammars
    all of whose nonterminals derive something, [productive].)  What is missing: this holds if the FIRST sets are right, if no
    default constructor lacks its argument ([defaults_bound], cf. C34), and if bodies
    of constructors do not name local variables of the emitted code
    ([hygienic_rules], cf. C53). *)
Theorem C63_items_compute_meanings_partial :
  forall (span : Type) (call_site : span) join_spans print lex_error literal_ok (bm : BuildMode) ho, orders_ok ho ->
  forall fuel ts em d, reads_as print (trees ts) d -> defaults_bound (d_rules d) -> hygienic_rules (d_rules d) ->
  first_complete (bm := bm) (source (d_rules d)) ->
  Expand.grammar span call_site join_spans print lex_error literal_ok ho fuel ts = Ok (Item span em) \/
  pub_grammar span call_site join_spans print lex_error literal_ok ho fuel ts = Ok (Item span em) ->
  exists gi C, gi_terminal_type gi = d_terminal_type d /\ gi_rules gi = d_rules d /\
  forall (bmr : BuildMode) (E : Type) (R : rust) (SErr : Type) (into : SErr -> UErr R) bv, describes R SErr bv -> depends_on_named R SErr bv ->
  forall toks fuel', unambiguous_tokens R gi toks -> C * S (List.length toks) <= fuel' ->
  let m := run_emitted (bm := bmr) R into (of_list toks) bv fuel' em : Rust.result (E := E) R in
  ((exists v, input_means R gi toks v /\ gives_value R m v) \/
  ((forall v, ~ input_means R gi toks v) /\ exists e, (productive (source (gi_rules gi)) -> right_error R gi toks e) /\ gives_error R m e)) /\
  (forall u, constructor_fails R gi toks u -> gives_error R m (UserError R u)).
Proof.
  exact (fun span cs js print lex lo bm ho Ho fuel ts em d => @macros_mean span cs js print lex lo bm ho Ho fuel ts em d).
Qed.
Print Assumptions C63_items_compute_meanings_partial.

(** Without the condition on FIRST sets: the parser for
    [<S> => <A> <A>; <A> => <B> C; <B> => !;] rejects [C C], which has a meaning, ... *)
Theorem C63_items_compute_meanings_refuted :
  forall (bm bmr : BuildMode), exists ts em d gi toks v,
  well_spaced (trees ts) /\ reads_as show (trees ts) d /\ defaults_bound (d_rules d) /\ hygienic_rules (d_rules d) /\ productive (source (d_rules d)) /\
  (forall fuel, 50 <= fuel -> expand_at bm fuel ts = Ok (Item place em)) /\
  gi_terminal_type gi = d_terminal_type d /\ gi_rules gi = d_rules d /\
  describes code_demo string sum_body /\ depends_on_named code_demo string sum_body /\ unambiguous_tokens code_demo gi toks /\ input_means code_demo gi toks v /\
  exists k, nth_error toks 1 = Some k /\
    gives_error code_demo (run_emitted (bm := bmr) (E := unit) code_demo no_error' (of_list toks) sum_body 100 em) (ParseError code_demo (Some k)).
Proof. exact first_meaningless. Qed.
Print Assumptions C63_items_compute_meanings_refuted.

(** ... and a grammar in which an input means 3 and also 6 is accepted. *)
Theorem C63_meaning_is_unique_refuted :
  forall (bm : BuildMode), exists ts em d gi toks v v',
  well_spaced (trees ts) /\ reads_as show (trees ts) d /\ defaults_bound (d_rules d) /\ hygienic_rules (d_rules d) /\
  (forall fuel, 50 <= fuel -> expand_at bm fuel ts = Ok (Item place em)) /\
  gi_terminal_type gi = d_terminal_type d /\ gi_rules gi = d_rules d /\
  unambiguous_tokens code_demo gi toks /\ input_means code_demo gi toks v /\ input_means code_demo gi toks v' /\ v <> v'.
Proof. exact two_meanings. Qed.
Print Assumptions C63_meaning_is_unique_refuted.

(** A grammar that meets all conditions, and the meaning of a list of tokens. *)
Example C63_example (bm : BuildMode) :
  orders_ok forward /\ reads_as show (trees (placed 1 calc_input)) calc_decls /\ defaults_bound (d_rules calc_decls) /\
  hygienic_rules (gi_rules calc) /\ gi_rules calc = d_rules calc_decls /\ first_complete (bm := bm) (source (d_rules calc_decls)) /\
  pub_expand bm calc_input = Ok (Item place calc_item) /\
  describes code_demo string sum_body /\ depends_on_named code_demo string sum_body /\
  unambiguous_tokens code_demo calc calc_tokens /\ input_means code_demo calc calc_tokens (RUser 5).
Proof.
  exact (conj forward_ok (conj (proj2 calc_placed_reads) (conj calc_bound (conj calc_hygienic (conj calc_rules_eq (conj (proj1 (proj2 (proj2 (calc_conditions bm))))
    (conj (calc_expands bm) (conj demo_describes (conj demo_depends (conj (proj1 (proj2 calc_tree_code)) calc_means)))))))))).
Qed.

(** A list of tokens on which a constructor fails, although no sentence begins like
    it: the error of the constructor is reported, not the last token. *)
Example C63_example_error :
  productive (source (gi_rules calc)) /\ unambiguous_tokens code_demo calc [Num 9; Plus; Num 3; Plus; Plus] /\
  constructor_fails code_demo calc [Num 9; Plus; Num 3; Plus; Plus] "overflow".
Proof. exact (conj calc_productive (conj calc_five calc_sum_fails)). Qed.
