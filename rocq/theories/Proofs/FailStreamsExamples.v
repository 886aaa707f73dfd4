(** Examples on streams that fail (C68). *)
From Coq Require Import Arith Bool String NArith List Lia.
From Verif Require Import Base.Prelude Spec.Grammar Spec.Nullable Spec.Observers Model.Error.
From Verif Require Import Model.TokenTree Model.Terminal Model.Constructor Model.CodeGen Model.Runtime Model.Symbol Model.FrontEnd.
From Verif Require Import Model.Diagnostics Model.Rust Model.Emit Model.Expand.
From Verif Require Import Spec.Values Spec.Substitution Spec.Macro Spec.Diagnostics Spec.EmittedCode Spec.Expansion Spec.Meaning Spec.FailingStreams.
From Verif Require Import Proofs.Fuel Proofs.GenExamples Proofs.Macro Proofs.MacroMain Proofs.MacroExamples Proofs.DiagnosticsExamples Proofs.EmitExamples Proofs.ExpandExamples Proofs.MacroRefute Proofs.Meaning Proofs.MeaningExamples.
Import ListNotations.
Open Scope string_scope.
Open Scope list_scope.

(** [C C] is a sentence, yet the item for [first_input] stops at the second token, and
    does not see the error that comes next. *)
Lemma first_streams (bm bmr : BuildMode) : exists ts em d gi toks,
  well_spaced (trees ts) /\ reads_as show (trees ts) d /\ defaults_bound (d_rules d) /\ hygienic_rules (d_rules d) /\ productive (source (d_rules d)) /\
  (forall fuel, 50 <= fuel -> expand_at bm fuel ts = Ok (Item place em)) /\
  gi_terminal_type gi = d_terminal_type d /\ gi_rules gi = d_rules d /\
  describes code_demo string sum_body /\ depends_on_named code_demo string sum_body /\ unambiguous_tokens code_demo gi toks /\ (exists t, parses_tokens code_demo gi toks t) /\
  exists err, gives_error code_demo (run_emitted (bm := bmr) (E := unit) code_demo no_error' (of_list_then toks "io" (of_list [])) sum_body 100 em) err /\
    ~ right_stream_error code_demo gi toks "io" err.
Proof.
  assert (Hd : d_rules (decls_of first_input) = first_rules) by (vm_compute; reflexivity).
  destruct (reads_ok first_input eq_refl) as (W & Rd & _); [vm_compute; reflexivity|].
  assert (Hp : parses_tokens code_demo first_gi [tC; tC] first_tree) by (apply (parses_ok code_demo first_gi first_tree); vm_compute; reflexivity).
  exists (placed 1 first_input), first_item, (decls_of first_input), first_gi, [tC; tC].
  rewrite placed_trees. split; [exact W|]. split; [exact Rd|]. rewrite Hd. split; [apply bound_b_ok; vm_compute; reflexivity|].
  split. { intros r d ts x t [<-|[<-|[<-|[]]]]; discriminate. }
  split. { apply (productive_ok' _ (fun i => nth i [tmap fst first_tree; Node 1 [Node 2 []; Leaf (variant "C")]; Node 2 []] (Node 0 [])) 20). vm_compute. reflexivity. }
  split. { intros fuel Hf. unfold expand_at. eapply le_ok; [apply grammar_le; exact Hf|]. destruct bm; vm_compute; reflexivity. }
  split; [vm_compute; reflexivity|]. split; [vm_compute; reflexivity|]. split; [exact demo_describes|]. split; [exact demo_depends|].
  split; [apply unambiguous_ok; vm_compute; reflexivity|]. split; [eauto|].
  exists (ParseError code_demo (Some tC)). split; [apply outcome_of_ok; destruct bmr; vm_compute; reflexivity|].
  intros [(u & He & _)|(_ & [(n & k & Hn & _ & _ & H)|(He & _)])]; try discriminate.
  destruct n as [|[|n]]; [exact (H (parses_begins code_demo first_gi [tC] [tC] _ Hp))|exact (H (parses_begins code_demo first_gi [tC; tC] [] _ Hp))|]. destruct n; discriminate.
Qed.

(** In [9 + 3 + +], the first sum is too big; [9 +] begins a sentence, [9 + +] does not. *)
Lemma calc_fails_within : fails_within code_demo calc [Num 9; Plus; Num 3; Plus; Plus] "overflow".
Proof. destruct calc_sum_at as (rest & H). exists 3, rest. split; [cbn; lia|exact H]. Qed.

Lemma calc_streams (bm : BuildMode) :
  let run toks := outcome_of (run_emitted (bm := bm) (E := unit) code_demo no_error' (of_list_then toks "io" (of_list [])) sum_body 100 calc_item) in
  run [Num 9; Plus; Num 3; Plus; Plus] = Some (result_value (inr (UserError code_demo "overflow"))) /\
  run [Num 9; Plus] = Some (result_value (inr (UserError code_demo "io"))) /\
  run [Num 9; Plus; Num 3] = Some (result_value (inr (UserError code_demo "io"))) /\
  run [Num 9; Plus; Plus] = Some (result_value (inr (ParseError code_demo (Some Plus)))).
Proof. destruct bm; vm_compute; auto. Qed.
