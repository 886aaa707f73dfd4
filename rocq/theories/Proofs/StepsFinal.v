(** The number of steps of both parsers, for grammars as the user writes them. *)
From Coq Require Import Arith Bool String NArith List Lia.
From Verif Require Import Base.Prelude Spec.Grammar Spec.Validity Spec.Nullable Spec.Observers Spec.States Model.Error.
From Verif Require Import Model.IndexedGrammar Model.LRTable Model.ParseSimulator.
From Verif Require Import Model.TokenTree Model.Terminal Model.Constructor Model.CodeGen Model.Runtime Spec.Values.
From Verif Require Import Proofs.IndexedProofs Proofs.IndexedBuild Proofs.IndexedMain Proofs.IndexedFinal Proofs.ParserFinal Proofs.RecognitionFinal Proofs.LR1Proofs Proofs.Linear.
From Verif Require Import Proofs.GenTable Proofs.GenCode Proofs.GenRun Proofs.GenPath Proofs.GenEnds Proofs.GenMain Proofs.GenLinear Proofs.GenExamples.
From Verif Require Import Model.Rust Model.Emit Spec.EmittedCode Proofs.EmitMain.
Import ListNotations.

Section Simulator.
Context {bm : BuildMode} {T L : Type} `{EqDec T} `{EqDec L}.

Theorem recog_linear fuel (g : grammar T L) p : no_eos g -> eps_trailing g -> parser_new fuel g = Ok p ->
  exists C, forall E w fuel', C * S (length w) <= fuel' -> exists b, @parse_stream bm T L _ E fuel' p w = Ok b.
Proof.
  intros He Ht Hp. apply parser_new_built in Hp as (Hix & Hv & F & ks & acts & gts & HF & (fuel0 & HFc) & Hok).
  pose proof (no_eos_ig _ _ Hix He) as He'. pose proof (eps_trailing_ig _ _ Hix Ht) as Ht'.
  pose proof (ix_wf _ _ Hix) as Hwf. rewrite (parser_eta p).
  exact (parse_stream_linear (pgrammar p) Hwf He' Ht' F HF _ _ _ _ Hok).
Qed.
End Simulator.

Theorem generated_linear (bmg : BuildMode) literal_ok gi p : generated (bm := bmg) literal_ok gi p ->
  exists C, forall (bm : BuildMode) (E : Type) (R : rust) (SErr : Type) (into : SErr -> UErr R) input n,
  (forall k, input n <> Some (inl k)) ->
  first_complete (bm := bmg) (source (gi_rules gi)) \/
  (debug_assertions (BuildMode := bm) = true /\ exists ty, gi_terminal_type gi = TTEnum ty) \/
  (forall i k, input i = Some (inl k) -> unambiguous_tokens R gi [k]) ->
  forall fuel, C * S n <= fuel -> exists st r, parse_fallible (E := E) R into input fuel p = Ok (st, r).
Proof.
  intros Hgen. destruct (generated_setup literal_ok gi p Hgen) as (F & ks & acts & gts & Hsu & Hfc & Hd & Hp).
  destruct (above_bound (gi_grammar gi) (ix_wf _ _ (su_ix _ _ _ _ _ Hsu)) (su_eps _ _ _ _ _ Hsu) F (su_first _ _ _ _ _ Hsu) _ ks acts gts (su_ok _ _ _ _ _ Hsu) (lookaheads gi)) as (K & HK).
  exists (S (S K * (K + 3))). intros bm E R SErr into input n Hn Hc fuel Hf.
  apply (run_linear (E := E) literal_ok R gi F ks acts gts Hsu p (Hp _ p Hgen) Hd into input) with (M := n) (K := K); auto.
  destruct Hc as [Hfi|[(Hdb & Hty)|Hu]]; [left; auto|right..].
  - intros stk o Hno Hcl. apply (single_clear R gi acts). intros (k & -> & Ho). exact (Hcl Hdb Hty k eq_refl Ho).
  - intros stk o Hno _. destruct o as [k|]; [|apply single_none]. apply (single_unambiguous R gi F ks acts gts Hsu [k]); [eapply Hu; exact Hno|].
    intros k' Hk. injection Hk as <-. simpl. auto.
Qed.

Theorem forever_not_linear (bmg bm : BuildMode) : exists gi p (R : rust) ts, generated (bm := bmg) all_literals gi p /\
  forall C, parse_fallible (bm := bm) (E := unit) (SErr := UErr R) R (fun e => e) (of_list ts) (C * S (length ts)) p = Diverge.
Proof.
  destruct (runs_forever bmg bm) as (gi & p & R & ts & d & Hg & _ & Hr). exists gi, p, R, ts. split; [exact Hg|]. intros C. apply Hr.
Qed.

(** The emitted code. *)
Theorem emitted_linear (bmg : BuildMode) literal_ok gi p : generated (bm := bmg) literal_ok gi p -> hygienic_rules (gi_rules gi) ->
  exists C, forall (bm : BuildMode) (E : Type) (R : rust) (SErr : Type) (into : SErr -> UErr R) input bv n,
  describes R SErr bv -> depends_on_named R SErr bv -> (forall k, input n <> Some (inl k)) ->
  first_complete (bm := bmg) (source (gi_rules gi)) \/
  (debug_assertions (BuildMode := bm) = true /\ exists ty, gi_terminal_type gi = TTEnum ty) \/
  (forall i k, input i = Some (inl k) -> unambiguous_tokens R gi [k]) ->
  forall vis name ety rt fuel, C * S n <= fuel ->
  exists st r, run_emitted R into input bv fuel (emit vis name ety (gi_terminal_type gi) rt p) = (Ok (st, FVal R (result_value r)) : result (E := E) R).
Proof.
  intros Hg Hh. destruct (generated_linear bmg literal_ok gi p Hg) as (C & HC). exists C. intros bm E R SErr into input bv n H1 H2 Hn Hc vis name ety rt fuel Hf.
  destruct (HC bm E R SErr into input n Hn Hc fuel Hf) as (st & r & Hr).
  pose proof (@emitted_runs bmg literal_ok gi p bm E R SErr into input bv Hg H1 H2 Hh vis name ety rt fuel) as Hs.
  unfold same_run in Hs. rewrite Hr in Hs. destruct Hs as (stack & Hs). eauto.
Qed.
