(** C57: how many steps parsing takes.  [fuel] bounds the rounds of the main loop,
    in each of which the parser shifts one token or reduces by one rule. *)
From Coq Require Import Arith String List.
From Verif Require Import Base.Prelude Spec.Grammar Spec.Validity Spec.Nullable Spec.Observers Model.Error.
From Verif Require Import Model.IndexedGrammar Model.LRTable Model.ParseSimulator.
From Verif Require Import Model.TokenTree Model.Terminal Model.Constructor Model.CodeGen Model.Runtime Spec.Values.
From Verif Require Import Proofs.RecognitionFinal Proofs.Refutations Proofs.LR1Final Proofs.GenFinal Proofs.GenMain Proofs.GenExamples Proofs.StepsFinal.
From Verif Require Import Model.Rust Model.Emit Spec.EmittedCode Proofs.EmitExamples.
Import ListNotations.
Open Scope string_scope.

(** The simulator: one constant for all inputs, sentences or not. *)
Theorem C57_recognition_is_linear :
  forall (bm : BuildMode) (T L : Type) (dT : EqDec T) (dL : EqDec L) (g : grammar T L) fuel p,
  no_eos g -> eps_trailing g -> parser_new fuel g = Ok p ->
  exists C, forall (E : Type) (w : list T) fuel', C * S (length w) <= fuel' -> exists b, parse_stream (E := E) fuel' p w = Ok b.
Proof. exact (fun bm T L dT dL g fuel p => @recog_linear bm T L dT dL fuel g p). Qed.
Print Assumptions C57_recognition_is_linear.

Example C57_recognition_example : no_eos arith /\ eps_trailing arith /\
  exists p, parser_new (bm := true) 50 arith = Ok p /\
    parse_stream (bm := true) (E := unit) 50 p ["n"; "+"; "("; "n"; ")"] = Ok true /\
    parse_stream (bm := true) (E := unit) 50 p ["n"; "+"; ")"] = Ok false.
Proof.
  split; [apply no_eos_ok; reflexivity|]. split; [apply eps_trailing_ok; reflexivity|].
  apply runs_2. vm_compute. reflexivity.
Qed.

(** Generated parsers.  In full, false: where FIRST sets are incomplete (C14) and
    a token matches several terminals, no multiple of the length is enough. *)
Theorem C57_generated_is_linear_refuted :
  forall bmg bm : BuildMode, exists gi p (R : rust) ts, generated (bm := bmg) all_literals gi p /\
  forall C, parse_fallible (bm := bm) (E := unit) (SErr := UErr R) R (fun e => e) (of_list ts) (C * S (length ts)) p = Diverge.
Proof. exact forever_not_linear. Qed.
Print Assumptions C57_generated_is_linear_refuted.

(** Missing from the full statement: those parsers and tokens, as in C41.  The
    constant is the grammar's: it serves all interpretations [R] of the types and
    constructors, all streams and both builds of the parser.  [n] is a place at
    which the stream has ended, or failed. *)
Theorem C57_generated_is_linear_partial :
  forall (bmg : BuildMode) literal_ok gi p, generated (bm := bmg) literal_ok gi p ->
  exists C, forall (bm : BuildMode) (E : Type) (R : rust) (SErr : Type) (into : SErr -> UErr R) input n,
  (forall k, input n <> Some (inl k)) ->
  first_complete (bm := bmg) (source (gi_rules gi)) \/
  (debug_assertions (BuildMode := bm) = true /\ exists ty, gi_terminal_type gi = TTEnum ty) \/
  (forall i k, input i = Some (inl k) -> unambiguous_tokens R gi [k]) ->
  forall fuel, C * S n <= fuel -> exists st r, parse_fallible (E := E) R into input fuel p = Ok (st, r).
Proof. exact generated_linear. Qed.
Print Assumptions C57_generated_is_linear_partial.

(** The same of the emitted code, for constructors as in C52. *)
Theorem C57_emitted_is_linear_partial :
  forall (bmg : BuildMode) literal_ok gi p, generated (bm := bmg) literal_ok gi p -> hygienic_rules (gi_rules gi) ->
  exists C, forall (bm : BuildMode) (E : Type) (R : rust) (SErr : Type) (into : SErr -> UErr R) input bv n,
  describes R SErr bv -> depends_on_named R SErr bv -> (forall k, input n <> Some (inl k)) ->
  first_complete (bm := bmg) (source (gi_rules gi)) \/
  (debug_assertions (BuildMode := bm) = true /\ exists ty, gi_terminal_type gi = TTEnum ty) \/
  (forall i k, input i = Some (inl k) -> unambiguous_tokens R gi [k]) ->
  forall vis name ety rt fuel, C * S n <= fuel ->
  exists st r, run_emitted R into input bv fuel (emit vis name ety (gi_terminal_type gi) rt p) = (Ok (st, FVal R (result_value r)) : result (E := E) R).
Proof. exact emitted_linear. Qed.
Print Assumptions C57_emitted_is_linear_partial.

Example C57_emitted_example : hygienic_rules (gi_rules calc) /\ describes code_demo string sum_body /\ depends_on_named code_demo string sum_body.
Proof. exact (conj calc_hygienic (conj demo_describes demo_depends)). Qed.

Example C57_generated_example :
  generated (bm := true) all_literals calc calc_p /\ first_complete (bm := true) (source (gi_rules calc)) /\
  (forall k, of_list (S := nat) calc_tokens (length calc_tokens) <> Some (inl k)) /\
  exists st, run true calc_p (of_list calc_tokens) = Ok (st, inl (RUser 5)).
Proof.
  refine (conj (calc_generated true) (conj (calc_first true) (conj _ _))); [intros k Hk; vm_compute in Hk; discriminate|].
  destruct calc_value as (st & Hst & _). exists st. exact Hst.
Qed.
