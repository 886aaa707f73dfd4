(** Tokens that stand for several terminals (C70).  C22 and C63 are about inputs
    whose tokens match one terminal each; here every stream is covered.  What the
    words mean is in [Spec.Overlaps]. *)
From Coq Require Import Arith Bool String List.
From Verif Require Import Base.Prelude Spec.Grammar Spec.Validity Spec.Observers Spec.Nullable Spec.Values Spec.EmittedCode Spec.Overlaps.
From Verif Require Import Model.TokenTree Model.Terminal Model.Constructor Model.CodeGen Model.Runtime Model.Rust Model.Emit.
From Verif Require Import Model.Symbol Model.FrontEnd Model.Diagnostics Model.Expand Spec.Macro Spec.Diagnostics Spec.Expansion.
From Verif Require Import Proofs.GenExamples Proofs.GenMain Proofs.MacroMain Proofs.Overlaps Proofs.OverlapsMain Proofs.OverlapsExamples.
Import ListNotations.
Open Scope string_scope.
Open Scope list_scope.

(** In full, false: with incomplete FIRST sets (see C02, C20) a parser rejects a
    sentence without doubtful tokens, and there is no explanation of that. *)
Theorem C70_results_are_explained_refuted :
  forall bmg bm : BuildMode, exists gi p (R : rust) ts d st t, generated (bm := bmg) all_literals gi p /\
  productive (source (gi_rules gi)) /\ parses_tokens R gi ts d /\ decided R gi (leaves d) /\
  (forall fuel, 60 <= fuel -> parse_fallible (bm := bm) (E := unit) (SErr := UErr R) R (fun e => e) (of_list ts) fuel p = Ok (st, inr (ParseError R (Some t)))) /\
  forall ds, ~ explains (bm := bm) R gi (fun e : UErr R => e) (of_list ts) ds (inr (ParseError R (Some t))).
Proof. exact decided_rejected. Qed.
Print Assumptions C70_results_are_explained_refuted.

(** Whatever terminals the tokens of the stream stand for, the result of a parser is
    that of one reading of the tokens; a debug build reports the first token that is
    doubtful, and only such tokens.  Missing: grammars with incomplete FIRST sets or
    unproductive nonterminals. *)
Theorem C70_results_are_explained_partial :
  forall (bmg : BuildMode) literal_ok gi p, generated (bm := bmg) literal_ok gi p ->
  first_complete (bm := bmg) (source (gi_rules gi)) -> productive (source (gi_rules gi)) ->
  forall (bm : BuildMode) (E : Type) (R : rust) (SErr : Type) (into : SErr -> UErr R) input fuel st r,
  parse_fallible (E := E) R into input fuel p = Ok (st, r) -> exists ds, explains R gi into input ds r.
Proof. exact generated_explained. Qed.
Print Assumptions C70_results_are_explained_partial.

(** A sentence that can be read without ever meeting a doubtful token is read so, and
    its value returned, in both builds. *)
Theorem C70_decided_sentences_are_evaluated_partial :
  forall (bmg : BuildMode) literal_ok gi p, generated (bm := bmg) literal_ok gi p ->
  first_complete (bm := bmg) (source (gi_rules gi)) -> productive (source (gi_rules gi)) ->
  forall (bm : BuildMode) (E : Type) (R : rust) (SErr : Type) (into : SErr -> UErr R) ts d,
  parses_tokens R gi ts d -> decided R gi (leaves d) ->
  exists N st, (forall fuel, N < fuel -> parse_fallible (E := E) R into (of_list ts) fuel p =
      Ok (st, match snd (Values.eval R gi d) with inl v => inl v | inr e => inr (UserError R e) end)) /\
    st_log R st = fst (Values.eval R gi d).
Proof. exact decided_sentences. Qed.
Print Assumptions C70_decided_sentences_are_evaluated_partial.

(** That covers the inputs of C22. *)
Theorem C70_unambiguous_sentences_are_decided :
  forall R gi ts d, unambiguous_tokens R gi ts -> parses_tokens R gi ts d -> decided R gi (leaves d).
Proof. exact unambiguous_decided. Qed.
Print Assumptions C70_unambiguous_sentences_are_decided.

(** The same for the code that the macros emit. *)
Theorem C70_items_are_explained_partial :
  forall (span : Type) (call_site : span) (join_spans : span -> span -> option span) (print : list ttree -> string) (lex_error : string -> string)
    (literal_ok : string -> bool) (bm : BuildMode) (ho : hash_orders), orders_ok ho ->
  forall fuel ts em d, reads_as print (trees ts) d -> defaults_bound (d_rules d) -> hygienic_rules (d_rules d) ->
  first_complete (bm := bm) (source (d_rules d)) -> productive (source (d_rules d)) ->
  Expand.grammar span call_site join_spans print lex_error literal_ok ho fuel ts = Ok (Item span em) \/
  pub_grammar span call_site join_spans print lex_error literal_ok ho fuel ts = Ok (Item span em) ->
  exists gi C, gi_terminal_type gi = d_terminal_type d /\ gi_rules gi = d_rules d /\
  forall (bmr : BuildMode) (E : Type) (R : rust) (SErr : Type) (into : SErr -> UErr R) bv, describes R SErr bv -> depends_on_named R SErr bv ->
  let m input fuel' := run_emitted (bm := bmr) R into input bv fuel' em : Rust.result (E := E) R in
  (forall input n fuel', (forall k, input n <> Some (inl k)) -> C * S n <= fuel' ->
    exists r ds, explains (bm := bmr) R gi into input ds r /\ gives R (m input fuel') r) /\
  (forall toks t fuel', parses_tokens R gi toks t -> decided R gi (leaves t) -> C * S (List.length toks) <= fuel' ->
    gives R (m (of_list toks) fuel') (match snd (Values.eval R gi t) with inl v => inl v | inr e => inr (UserError R e) end)).
Proof. exact (fun span cs js print le lo bm ho Ho fuel ts em d => macros_explained cs js print le lo (bm := bm) ho Ho fuel ts em d). Qed.
Print Assumptions C70_items_are_explained_partial.

(** [Num(1) Num(1)] is a sentence of [Num(1) Num(_)], where both tokens match both
    terminals; none is doubtful. *)
Example C70_example_decided : (forall bm : BuildMode, generated (bm := bm) all_literals decided_gi decided_p /\ first_complete (bm := bm) (source (gi_rules decided_gi))) /\
  productive (source (gi_rules decided_gi)) /\ decided demo decided_gi (leaves decided_tree) /\
  parses_tokens demo decided_gi decided_tokens decided_tree /\ sym_matches demo decided_gi one (Num 1) = true /\ sym_matches demo decided_gi num (Num 1) = true /\
  snd (Values.eval demo decided_gi decided_tree) = inl (RUser 2).
Proof. exact (conj (fun bm => conj (decided_generated bm) (decided_first bm)) (conj decided_productive (conj decided_is_decided decided_parses))). Qed.

(** In [overlap_gi], [Num(1)] is doubtful at the start. *)
Example C70_example_doubtful : (forall bm : BuildMode, generated (bm := bm) all_literals overlap_gi overlap_p /\ first_complete (bm := bm) (source (gi_rules overlap_gi))) /\
  productive (source (gi_rules overlap_gi)) /\ doubtful demo overlap_gi [] (Num 1) /\ looks_for_doubt (bm := true) overlap_gi /\
  exists st, parse_fallible (bm := true) (E := unit) (SErr := UErr demo) demo (fun e => e) (of_list overlap_tokens) 60 overlap_p =
    Ok (st, inr (OverlappingTokenMatchers demo (Num 1))) /\ map fst (st_log demo st) = [] /\ s_calls demo (st_stream demo st) = 1.
Proof.
  exact (conj (fun bm => conj (overlap_generated bm) (overlap_first bm)) (conj overlap_productive (conj overlap_doubtful_ex (conj (conj eq_refl (ex_intro _ _ eq_refl)) overlap_reported)))).
Qed.
