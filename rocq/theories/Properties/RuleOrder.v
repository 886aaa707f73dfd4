(** When FIRST sets are complete, and what the order of the rules has to do with it
    (C73, C74).  The notions are those of [Spec.Early]. *)
From Coq Require Import String List Permutation.
From Verif Require Import Base.Prelude Spec.Grammar Spec.Validity Spec.Nullable Spec.Observers Spec.LR1 Spec.Early Model.Error.
From Verif Require Import Model.BitSet Model.Vocabulary Model.IndexedGrammar Model.FirstMap Model.LRTable Model.ParseSimulator.
From Verif Require Import Proofs.Refutations Proofs.EarlyFinal Proofs.Reordered Proofs.OrderExamples.
Import ListNotations.
Open Scope string_scope.

(** C73.  The table computed for a grammar misses nothing iff it obeys the rules of
    the grammar, one step at a time. *)
Theorem C73_complete_iff_obeys :
  forall (bm : BuildMode) (T L : Type) (dT : EqDec T) (dL : EqDec L) fuel (g : grammar T L) ig F,
  indexed_build fuel g = Ok ig -> first_build (E := lr_error T L) fuel ig = Ok F ->
  ((forall l, (forall a, begins g [Production l] a -> first_has ig F l a) /\ (vanishes g [Production l] -> first_has ig F l Epsilon)) <->
   obeys g (first_has ig F)).
Proof. exact (fun bm T L dT dL fuel g ig F => @complete_iff_obeys bm T L dT dL fuel g ig F). Qed.
Print Assumptions C73_complete_iff_obeys.

(** It misses nothing if the labels that can vanish are spelled out before they are
    needed.  [direct_epsilon] of C14 is a special case. *)
Theorem C73_early_grammars_complete :
  forall (bm : BuildMode) (T L : Type) (dT : EqDec T) (dL : EqDec L) (g : grammar T L), early_epsilon g -> first_complete g.
Proof. exact (fun bm T L dT dL g => @early_first_complete bm T L dT dL g). Qed.
Print Assumptions C73_early_grammars_complete.

Theorem C73_direct_is_early :
  forall (T L : Type) (g : grammar T L), direct_epsilon g -> early_epsilon g.
Proof. exact (fun T L g => @direct_early T L g). Qed.
Print Assumptions C73_direct_is_early.

(** What "before" comes from: labels are numbered in the order of their first
    rules. *)
Theorem C73_labels_in_order :
  forall (bm : BuildMode) (T L : Type) (dT : EqDec T) (dL : EqDec L) fuel (g : grammar T L) ig k l,
  indexed_build fuel g = Ok ig ->
  (orig_production_label (E := unit) ig k = Ok l <-> nth_error (distinct (map symbol g)) k = Some l).
Proof. exact (fun bm T L dT dL fuel g ig k l => @labels_numbered bm T L dT dL fuel g ig k l). Qed.
Print Assumptions C73_labels_in_order.

(** A grammar in this class and not in that of C14: its table, and two of its
    sentences. *)
Example C73_example : early_epsilon chain /\ ~ direct_epsilon chain /\
  (exists ig F, indexed_build (bm := true) 50 chain = Ok ig /\ first_build (bm := true) (E := lr_error string string) 50 ig = Ok F /\
     first_has (bm := true) ig F "A" (Token "c") /\ first_has (bm := true) ig F "A" Epsilon) /\
  distinct (map symbol chain) = ["S"; "C"; "B"; "A"] /\
  exists p, parser_new (bm := true) 50 chain = Ok p /\
    parse_stream (bm := true) (E := unit) 50 p ["x"] = Ok true /\ parse_stream (bm := true) (E := unit) 50 p ["c"; "x"] = Ok true.
Proof.
  split; [exact chain_early|]. split; [exact chain_not_direct|]. split; [|split; [reflexivity|exact (chain_accepts true)]].
  destruct (chain_table true) as (ig & F & H1 & H2 & H3 & H4 & _). exists ig, F. auto.
Qed.

(** C74.  "Only the first rule is special: the order of the others does not matter."
    In full this is false: by the FIRST bug, exchanging two rules changes what is
    accepted, ... *)
Theorem C74_same_inputs_refuted :
  forall bm : BuildMode, exists (g g' : grammar string string) p p' w, reordered g g' /\ no_eos g /\ eps_trailing g /\ productive g /\
  (forall r, nth_error g 0 = Some r -> ~ uses r (symbol r)) /\ parser_new 50 g = Ok p /\ parser_new 50 g' = Ok p' /\
  forall fuel, 50 <= fuel -> parse_stream (E := unit) fuel p w = Ok false /\ parse_stream (E := unit) fuel p' w = Ok true.
Proof. exact order_verdicts. Qed.
Print Assumptions C74_same_inputs_refuted.

(** ... and whether there is a parser at all. *)
Theorem C74_same_grammars_refuted :
  forall bm : BuildMode, exists (g g' : grammar string string) p e, reordered g g' /\ no_eos g /\ eps_trailing g /\ productive g /\
  (forall r, nth_error g 0 = Some r -> ~ uses r (symbol r)) /\ parser_new 50 g = Ok p /\ parser_new 50 g' = Err e.
Proof. exact order_acceptance. Qed.
Print Assumptions C74_same_grammars_refuted.

(** It holds if the FIRST sets of both orders are complete (C73). *)
Theorem C74_same_grammars_partial :
  forall (bm : BuildMode) (T L : Type) (dT : EqDec T) (dL : EqDec L) (g g' : grammar T L),
  reordered g g' -> eps_trailing g -> first_complete g -> first_complete g' ->
  (forall r, nth_error g 0 = Some r -> ~ uses r (symbol r)) ->
  exists N, forall fuel, N < fuel -> ((exists p, parser_new fuel g = Ok p) <-> (exists p, parser_new fuel g' = Ok p)).
Proof. exact (fun bm T L dT dL g g' => @same_acceptance bm T L dT dL g g'). Qed.
Print Assumptions C74_same_grammars_partial.

Theorem C74_same_inputs_partial :
  forall (bm : BuildMode) (T L E : Type) (dT : EqDec T) (dL : EqDec L) (g g' : grammar T L) fuel p p' (w : list T),
  reordered g g' -> no_eos g -> eps_trailing g -> first_complete g -> first_complete g' ->
  parser_new fuel g = Ok p -> parser_new fuel g' = Ok p' ->
  exists N b, forall fuel', N < fuel' -> parse_stream (E := E) fuel' p w = Ok b /\ parse_stream (E := E) fuel' p' w = Ok b.
Proof. exact (fun bm T L E dT dL g g' fuel p p' w => @same_verdicts bm T L dT dL E g g' fuel p p' w). Qed.
Print Assumptions C74_same_inputs_partial.

Example C74_example : reordered chain chain' /\ no_eos chain /\ eps_trailing chain /\ first_complete (bm := true) chain /\ first_complete (bm := true) chain' /\
  (forall r, nth_error chain 0 = Some r -> ~ uses r (symbol r)) /\ exists p, parser_new (bm := true) 50 chain = Ok p.
Proof.
  split; [exact chain_reordered|]. split; [apply no_eos_ok; reflexivity|]. split; [apply eps_trailing_ok; reflexivity|].
  split; [apply early_first_complete, chain_early|]. split; [apply early_first_complete, chain_early'|]. split.
  - intros r Hr. injection Hr as <-. intros [Hx|[Hx|[]]]; discriminate.
  - destruct (chain_accepts true) as (p & Hp & _). exists p. auto.
Qed.
