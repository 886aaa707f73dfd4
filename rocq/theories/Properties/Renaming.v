(** The names of tokens and labels do not matter (C77). *)
From Coq Require Import Arith String List.
From Verif Require Import Base.Prelude Spec.Grammar Spec.Renaming Model.Error.
From Verif Require Import Model.IndexedGrammar Model.LRTable Model.ParseSimulator.
From Verif Require Import Proofs.Renaming Proofs.RenamingExamples.
Import ListNotations.
Open Scope string_scope.

(** If no two names become one, building a parser for the renamed grammar gives the same
    table, or the same error with the new names, in the same number of steps.  The
    parsers treat tokens and renamed tokens in the same way, step by step. *)
Theorem C77_names_do_not_matter :
  forall (bm : BuildMode) (T L T' L' : Type) (dT : EqDec T) (dL : EqDec L) (dT' : EqDec T') (dL' : EqDec L') (t : T -> T') (l : L -> L'),
  injective t -> injective l -> forall fuel (g : grammar T L),
  match parser_new fuel g, parser_new fuel (rename_grammar t l g) with
  | Ok p, Ok p' =>
      plr_table p' = plr_table p /\ rules (pgrammar p') = rules (pgrammar p) /\
      (forall k, orig_production_label (E := unit) (pgrammar p') k = bind (orig_production_label (pgrammar p) k) (fun x => Ok (l x))) /\
      (forall (E : Type) fuel' w, parse_stream (E := E) fuel' p' (map t w) = parse_stream fuel' p w)
  | Err e, Err e' => e' = rename_error t l e
  | Panic w, Panic w' => w' = w
  | Diverge, Diverge => True
  | _, _ => False
  end.
Proof. exact (fun bm T L T' L' dT dL dT' dL' t l Ht Hl fuel g => @renaming bm T L T' L' dT dL dT' dL' t l Ht Hl fuel g). Qed.
Print Assumptions C77_names_do_not_matter.

(** A grammar with another name for all that it names, and what its parsers do. *)
Example C77_example : forall bm : BuildMode, injective primed /\ injective quoted /\
  rename_grammar primed quoted named_g = quoted_g /\
  exists p p', parser_new 50 named_g = Ok p /\ parser_new 50 quoted_g = Ok p' /\
  parse_stream (E := unit) 50 p ["x"; "x"; "y"] = Ok true /\ parse_stream (E := unit) 50 p' ["x'"; "x'"; "y'"] = Ok true.
Proof. exact quoted_example. Qed.

(** A conflict of [amb_g] is reported with the new names. *)
Example C77_example_error : forall bm : BuildMode, exists e, parser_new 50 amb_g = Err e /\ e = ShiftReduceConflict 1 (Token "x") /\
  parser_new 50 (rename_grammar primed quoted amb_g) = Err (ShiftReduceConflict 1 (Token "x'")).
Proof. exact quoted_error. Qed.

(** If two tokens become one, more is changed than names. *)
Example C77_injectivity_needed : forall bm : BuildMode, exists p e,
  parser_new 50 two_g = Ok p /\ parser_new 50 (rename_grammar (fun _ => "x") quoted two_g) = Err e.
Proof. exact merged_example. Qed.
