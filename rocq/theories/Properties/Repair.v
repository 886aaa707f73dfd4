(** What the incompleteness of the FIRST sets is due to (C82). *)
From Coq Require Import Arith String List.
From Verif Require Import Base.Prelude Spec.Grammar Spec.Validity Spec.Nullable Spec.Observers Spec.LR1 Spec.Repair Model.Error.
From Verif Require Import Model.IndexedGrammar Model.FirstMap Model.LRTable Model.ParseSimulator.
From Verif Require Import Proofs.Refutations Proofs.Repair Proofs.RepairExamples.
Import ListNotations.

(** The functions ending in [_repaired] (Spec.Repair) differ from those of the model in one
    statement, line 49 of first_map.rs.  With it, the FIRST sets are exact for every grammar
    that is accepted by the validation: building them ends, and they have what a label can
    begin with, and whether it can vanish. *)
Theorem C82_first_exact :
  forall (bm : BuildMode) (T L : Type) (dT : EqDec T) (dL : EqDec L) fuel0 (g : grammar T L) ig, indexed_build fuel0 g = Ok ig ->
  exists N F, (forall E fuel, N < fuel -> first_build_repaired (E := E) fuel ig = Ok F) /\
    forall l, (first_has ig F l Epsilon <-> vanishes g [Production l]) /\
      forall a, a <> Epsilon -> (first_has ig F l a <-> begins g [Production l] a).
Proof. exact (fun bm T L dT dL => @repaired_first_exact bm T L dT dL). Qed.
Print Assumptions C82_first_exact.

(** They are those of the code as it is exactly if those are complete, ... *)
Theorem C82_first_same :
  forall (bm : BuildMode) (T L : Type) (dT : EqDec T) (dL : EqDec L) fuel0 (g : grammar T L) ig, indexed_build fuel0 g = Ok ig ->
  exists N, forall fuel, N < fuel ->
    (first_build_repaired (E := lr_error T L) fuel ig = first_build fuel ig <-> first_complete g).
Proof. exact (fun bm T L dT dL => @repaired_first_same bm T L dT dL). Qed.
Print Assumptions C82_first_same.

(** ... and then the parsers, and the errors, are the same. *)
Theorem C82_parser_same :
  forall (bm : BuildMode) (T L : Type) (dT : EqDec T) (dL : EqDec L) (g : grammar T L), first_complete g ->
  exists N, forall fuel, N < fuel -> parser_new_repaired fuel g = parser_new fuel g.
Proof. exact (fun bm T L dT dL => @repaired_same bm T L dT dL). Qed.
Print Assumptions C82_parser_same.

(** With it, the grammars accepted are the LR(1) grammars (C07), ... *)
Theorem C82_accepted_iff_lr1 :
  forall (bm : BuildMode) (T L : Type) (dT : EqDec T) (dL : EqDec L) (g : grammar T L), eps_trailing g -> productive g ->
  (forall r, nth_error g 0 = Some r -> ~ uses r (symbol r)) ->
  exists N, forall fuel, N < fuel -> ((exists p, parser_new_repaired fuel g = Ok p) <-> valid_grammar g /\ lr1_grammar g).
Proof. exact (fun bm T L dT dL => @repaired_accepted_iff_lr1 bm T L dT dL). Qed.
Print Assumptions C82_accepted_iff_lr1.

(** ... also where some label derives nothing, up to what that costs (C07, C08), ... *)
Theorem C82_accepted_iff :
  forall (bm : BuildMode) (T L : Type) (dT : EqDec T) (dL : EqDec L) (g : grammar T L), eps_trailing g ->
  (forall r, nth_error g 0 = Some r -> ~ uses r (symbol r)) ->
  exists N, forall fuel, N < fuel -> ((exists p, parser_new_repaired fuel g = Ok p) <-> valid_grammar g /\ conflict_free g).
Proof. exact (fun bm T L dT dL => @repaired_accepted_iff bm T L dT dL). Qed.
Print Assumptions C82_accepted_iff.

(** ... building ends, and panics only as it does already (C04), ... *)
Theorem C82_total :
  forall (bm : BuildMode) (T L : Type) (dT : EqDec T) (dL : EqDec L) (g : grammar T L), exists N, forall fuel, N < fuel ->
  match parser_new_repaired fuel g with
  | Diverge => False
  | Panic _ => exists r, nth_error g 0 = Some r /\ uses r (symbol r)
  | _ => True
  end.
Proof. exact (fun bm T L dT dL => @repaired_total bm T L dT dL). Qed.
Print Assumptions C82_total.

(** ... the errors are those of the validation, or real conflicts, ... *)
Theorem C82_errors :
  forall (bm : BuildMode) (T L : Type) (dT : EqDec T) (dL : EqDec L) fuel (g : grammar T L) e,
  eps_trailing g -> parser_new_repaired fuel g = Err e ->
  indexed_build fuel g = Err e \/ exists ig, indexed_build fuel g = Ok ig /\ genuine ig (may_reduce g) (may_shift g) e.
Proof. exact (fun bm T L dT dL => @repaired_errors bm T L dT dL). Qed.
Print Assumptions C82_errors.

(** ... no grammar is accepted that was not, ... *)
Theorem C82_accepts_no_more :
  forall (bm : BuildMode) (T L : Type) (dT : EqDec T) (dL : EqDec L) fuel (g : grammar T L) p, eps_trailing g ->
  (forall r, nth_error g 0 = Some r -> ~ uses r (symbol r)) -> parser_new_repaired fuel g = Ok p ->
  exists N, forall fuel, N < fuel -> exists p', parser_new fuel g = Ok p'.
Proof. exact (fun bm T L dT dL => @repaired_accepts_fewer bm T L dT dL). Qed.
Print Assumptions C82_accepts_no_more.

(** ... the parsers accept exactly the sentences (C01, C02, C03), ... *)
Theorem C82_recognises :
  forall (bm : BuildMode) (T L : Type) (dT : EqDec T) (dL : EqDec L) fuel (g : grammar T L) p,
  no_eos g -> eps_trailing g -> parser_new_repaired fuel g = Ok p -> forall E w,
  exists n b, (forall fuel', parse_stream (E := E) fuel' p w = if Nat.ltb n fuel' then Ok b else Diverge) /\ (b = true <-> language g w).
Proof. exact (fun bm T L dT dL => @repaired_recognises bm T L dT dL). Qed.
Print Assumptions C82_recognises.

(** ... and the grammars accepted are unambiguous (C06). *)
Theorem C82_unambiguous :
  forall (bm : BuildMode) (T L : Type) (dT : EqDec T) (dL : EqDec L) fuel (g : grammar T L) p w t1 t2,
  no_eos g -> eps_trailing g -> parser_new_repaired fuel g = Ok p -> parses g w t1 -> parses g w t2 -> t1 = t2.
Proof. exact (fun bm T L dT dL => @repaired_unambiguous bm T L dT dL). Qed.
Print Assumptions C82_unambiguous.

(** A grammar for which the code as it is builds a parser that rejects a sentence, and the
    repaired code one that accepts it; an ambiguous one, accepted as it is, with a conflict
    reported when repaired; and one with nullable labels for which nothing changes. *)
Example C82_example_sentence :
  forall bm : BuildMode, exists (g : grammar string string) w p p', no_eos g /\ eps_trailing g /\ productive g /\
  (forall r, nth_error g 0 = Some r -> ~ uses r (symbol r)) /\ language g w /\
  parser_new 50 g = Ok p /\ parse_stream (E := unit) 50 p w = Ok false /\
  parser_new_repaired 50 g = Ok p' /\ parse_stream (E := unit) 50 p' w = Ok true.
Proof. exact repair_needed. Qed.

Example C82_example_ambiguous :
  forall bm : BuildMode, exists (g : grammar string string) w t1 t2 p e, no_eos g /\ eps_trailing g /\
  parses g w t1 /\ parses g w t2 /\ t1 <> t2 /\ parser_new 50 g = Ok p /\ parser_new_repaired 50 g = Err e /\
  exists ig, indexed_build 50 g = Ok ig /\ genuine ig (may_reduce g) (may_shift g) e.
Proof. exact repair_rejects. Qed.

Example C82_example_kept :
  forall bm : BuildMode, first_complete opt_list /\ exists p, parser_new 50 opt_list = Ok p /\ parser_new_repaired 50 opt_list = Ok p.
Proof. exact repair_keeps. Qed.
