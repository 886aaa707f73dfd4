(** Grammars between tokens, if FIRST sets were complete (C82). *)
From Coq Require Import Arith List Lia.
From Verif Require Import Base.Prelude Spec.Grammar Spec.Validity Spec.Observers Spec.LR1 Spec.Frame Spec.Repair Model.Error.
From Verif Require Import Model.IndexedGrammar Model.FirstMap Model.LRTable Model.ParseSimulator.
From Verif Require Import Proofs.Frame Proofs.Repair.
Import ListNotations.

Section Repaired.
Context {bm : BuildMode} {T L : Type} `{EqDec T} `{EqDec L}.

Lemma repaired_framed (g g' : grammar T L) s u v : no_eos g -> eps_trailing g ->
  (forall root rest, g = root :: rest -> ~ uses root (symbol root) /\ Forall (root_clean (symbol root)) rest) ->
  framed s u v g' g -> new_label s g -> closed_by_new v g ->
  exists N, forall fuel, N < fuel -> ((exists p, parser_new_repaired fuel g = Ok p) <-> exists p', parser_new_repaired fuel g' = Ok p').
Proof.
  intros Hn He Hu Hf Hs Hv. pose proof (frame_eps _ _ _ _ _ Hf He) as He'. pose proof (frame_root _ _ _ _ _ Hf Hs) as Hu'.
  assert (Hu0 : forall r, nth_error g 0 = Some r -> ~ uses r (symbol r)) by (intros r Hr; destruct g as [|r1 rest]; [discriminate|]; injection Hr as ->; now destruct (Hu _ _ eq_refl)).
  destruct (repaired_accepted_iff g He Hu0) as (N1 & H1). destruct (repaired_accepted_iff g' He' Hu') as (N2 & H2).
  exists (N1 + N2). intros fuel Hfuel. rewrite H1, H2 by lia. destruct Hf as (root & rest & -> & ->). destruct (Hu _ _ eq_refl) as (Hself & Hcl). split; intros (Hvg & Hc); split.
  - now apply framed_valid.
  - apply framed_free; auto.
  - eapply unframed_valid; eauto.
  - eapply unframed_free; eauto.
Qed.
End Repaired.
