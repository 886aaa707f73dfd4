(** Accepted grammars between tokens are accepted (C83). *)
From Coq Require Import Arith String List.
From Verif Require Import Base.Prelude Spec.Grammar Spec.Validity Spec.Nullable Spec.Observers Spec.LR1 Spec.Frame Spec.Repair Model.Error.
From Verif Require Import Model.IndexedGrammar Model.FirstMap Model.LRTable Model.ParseSimulator.
From Verif Require Import Proofs.RedundantMacro Proofs.Frame Proofs.FrameRepair Proofs.FrameExamples.
Import ListNotations.
Open Scope string_scope.

(** In full, "an accepted grammar between tokens, of which the one after it is new, is
    accepted" is false, by the FIRST bug; ... *)
Theorem C83_framed_refuted :
  forall bm : BuildMode, exists (g g' : grammar string string) p, no_eos g /\ eps_trailing g /\ productive g /\
  (forall r, nth_error g 0 = Some r -> ~ uses r (symbol r)) /\ parser_new 50 g = Ok p /\
  framed "R" ["("] [")"] g' g /\ new_label "R" g /\ closed_by_new [")"] g /\ exists e, parser_new 50 g' = Err e.
Proof. exact framed_rejected. Qed.
Print Assumptions C83_framed_refuted.

(** ... it is true if the FIRST sets of the grammar are complete, ... *)
Theorem C83_framed_partial :
  forall (bm : BuildMode) (T L : Type) (dT : EqDec T) (dL : EqDec L) fuel (g g' : grammar T L) p s u v,
  no_eos g -> eps_trailing g -> first_complete g -> (forall r, nth_error g 0 = Some r -> ~ uses r (symbol r)) ->
  parser_new fuel g = Ok p -> framed s u v g' g -> new_label s g -> closed_by_new v g ->
  exists N, forall fuel', N < fuel' -> exists p', parser_new fuel' g' = Ok p'.
Proof. exact (fun bm T L dT dL fuel g g' p s u v => @framed_accepted bm T L dT dL fuel g g' p s u v). Qed.
Print Assumptions C83_framed_partial.

(** ... and not if the token after the grammar is used in it. *)
Theorem C83_used_token_refuted :
  forall bm : BuildMode, exists (g g' : grammar string string) p, no_eos g /\ eps_trailing g /\ first_complete g /\ productive g /\
  (forall r, nth_error g 0 = Some r -> ~ uses r (symbol r)) /\ parser_new 50 g = Ok p /\
  framed "R" [] ["b"] g' g /\ new_label "R" g /\ exists e, parser_new 50 g' = Err e.
Proof. exact used_token_rejected. Qed.
Print Assumptions C83_used_token_refuted.

(** The other way, the tokens may be any: what is accepted between tokens is accepted by
    itself, if the FIRST sets of the larger grammar are complete. *)
Theorem C83_unframed_partial :
  forall (bm : BuildMode) (T L : Type) (dT : EqDec T) (dL : EqDec L) fuel' (g g' : grammar T L) p' s u v,
  no_eos g -> eps_trailing g -> first_complete g' ->
  (forall root rest, g = root :: rest -> ~ uses root (symbol root) /\ Forall (root_clean (symbol root)) rest) ->
  framed s u v g' g -> new_label s g -> parser_new fuel' g' = Ok p' ->
  exists N, forall fuel, N < fuel -> exists p, parser_new fuel g = Ok p.
Proof. exact (fun bm T L dT dL fuel' g g' p' s u v => @unframed_accepted bm T L dT dL fuel' g g' p' s u v). Qed.
Print Assumptions C83_unframed_partial.

(** The parser accepts exactly what the other does, between the tokens; without complete
    FIRST sets, this, too, is false. *)
Theorem C83_sentences_refuted :
  forall bm : BuildMode, exists (g g' : grammar string string) p p' w, no_eos g /\ eps_trailing g /\ productive g /\
  (forall r, nth_error g 0 = Some r -> ~ uses r (symbol r)) /\ parser_new 50 g = Ok p /\
  framed "R" ["("] [")"] g' g /\ new_label "R" g /\ closed_by_new [")"] g /\ parser_new 50 g' = Ok p' /\
  parse_stream (E := Empty_set) 50 p' (["("] ++ w ++ [")"]) = Ok true /\ parse_stream (E := Empty_set) 50 p w = Ok false.
Proof. exact framed_word_fails. Qed.
Print Assumptions C83_sentences_refuted.

Theorem C83_sentences_partial :
  forall (bm : BuildMode) (T L : Type) (dT : EqDec T) (dL : EqDec L) (E : Type) (g g' : grammar T L) s u v fuel fuel' fuel2 p p' w',
  no_eos g -> eps_trailing g -> first_complete g ->
  parser_new fuel g = Ok p -> framed s u v g' g -> new_label s g -> parser_new fuel' g' = Ok p' -> parse_stream (E := E) fuel2 p' w' = Ok true ->
  exists w, w' = (u ++ w ++ v)%list /\ exists N, forall fuel3, N < fuel3 -> parse_stream (E := E) fuel3 p w = Ok true.
Proof. exact (fun bm T L dT dL E g g' s u v fuel fuel' fuel2 p p' w' => @framed_word bm T L dT dL E g g' s u v fuel fuel' fuel2 p p' w'). Qed.
Print Assumptions C83_sentences_partial.

Theorem C83_sentences_back_partial :
  forall (bm : BuildMode) (T L : Type) (dT : EqDec T) (dL : EqDec L) (E : Type) (g g' : grammar T L) s u v fuel fuel' fuel2 p p' w,
  no_eos g -> eps_trailing g -> first_complete g' ->
  parser_new fuel g = Ok p -> framed s u v g' g -> new_label s g -> parser_new fuel' g' = Ok p' -> parse_stream (E := E) fuel2 p w = Ok true ->
  exists N, forall fuel3, N < fuel3 -> parse_stream (E := E) fuel3 p' (u ++ w ++ v)%list = Ok true.
Proof. exact (fun bm T L dT dL E g g' s u v fuel fuel' fuel2 p p' w => @unframed_word bm T L dT dL E g g' s u v fuel fuel' fuel2 p p' w). Qed.
Print Assumptions C83_sentences_back_partial.

(** If line 49 of first_map.rs noted that something changed (C82), no condition on FIRST sets
    would be needed. *)
Theorem C83_repaired :
  forall (bm : BuildMode) (T L : Type) (dT : EqDec T) (dL : EqDec L) (g g' : grammar T L) s u v,
  no_eos g -> eps_trailing g ->
  (forall root rest, g = root :: rest -> ~ uses root (symbol root) /\ Forall (root_clean (symbol root)) rest) ->
  framed s u v g' g -> new_label s g -> closed_by_new v g ->
  exists N, forall fuel, N < fuel -> ((exists p, parser_new_repaired fuel g = Ok p) <-> exists p', parser_new_repaired fuel g' = Ok p').
Proof. exact (fun bm T L dT dL g g' s u v => @repaired_framed bm T L dT dL g g' s u v). Qed.
Print Assumptions C83_repaired.

(** Sums, and "main {" sums "} ( )". *)
Example C83_example : forall bm : BuildMode, exists p p',
  no_eos g_sum /\ eps_trailing g_sum /\ first_complete g_sum /\ root_free g_sum /\
  (forall root rest, g_sum = root :: rest -> ~ uses root (symbol root) /\ Forall (root_clean (symbol root)) rest) /\
  parser_new 50 g_sum = Ok p /\ framed "R" ["main"; "{"] ["}"; "("; ")"] g_main g_sum /\ new_label "R" g_sum /\ closed_by_new ["}"; "("; ")"] g_sum /\
  first_complete g_main /\ parser_new 50 g_main = Ok p' /\
  parse_stream (E := Empty_set) 100 p ["n"; "+"; "("; "n"; ")"] = Ok true /\
  parse_stream (E := Empty_set) 100 p' ["main"; "{"; "n"; "+"; "("; "n"; ")"; "}"; "("; ")"] = Ok true /\
  parse_stream (E := Empty_set) 100 p' ["n"; "+"; "n"] = Ok false.
Proof. exact sum_framed. Qed.
