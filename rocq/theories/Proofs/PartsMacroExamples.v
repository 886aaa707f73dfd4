(** Part of the calculator. *)
From Coq Require Import Arith Bool String Ascii NArith List Lia Permutation.
From Verif Require Import Base.Prelude Spec.Grammar Spec.Validity Spec.Nullable Spec.Observers Spec.LR1 Spec.Parts Spec.Values Spec.EmittedCode Spec.Meaning Spec.Reordering Model.Error.
From Verif Require Import Model.IndexedGrammar Model.LRTable Model.ParseSimulator.
From Verif Require Import Model.TokenTree Model.Terminal Model.Constructor Model.CodeGen Model.Runtime Model.Rust Model.Emit.
From Verif Require Import Model.Symbol Model.FrontEnd Model.Diagnostics Model.Expand.
From Verif Require Import Spec.Macro Spec.Diagnostics Spec.Expansion.
From Verif Require Import Proofs.GenExamples Proofs.MacroExamples Proofs.DiagnosticsExamples Proofs.EmitExamples Proofs.ExpandMain Proofs.ExpandExamples Proofs.MacroRefute Proofs.LR1Refute Proofs.LR1Final Proofs.Refutations Proofs.Fuel Proofs.MeaningExamples.
From Verif Require Import Proofs.MeaningMain Proofs.TestGrammars Proofs.TestExamples Proofs.ReorderedValues Proofs.ReorderedExamples Proofs.IndexedFinal Proofs.RedundantMacro Proofs.PartsMacro.
Import ListNotations.
Open Scope string_scope.
Open Scope list_scope.

(** The calculator without dots:
    <S>: u32 => <E>;
    <O> => !;
    <N>: u32 => Num(..) { #0 } | Zero <O> { 0 };
    <E>: u32 => <E> Plus <N> { #0 + #N } | <N> { #N }; *)
Definition calc_fewer : list ttree :=
  calc_head ++ option_of "error_type" [TIdent "std"; TPunct ":" Joint; TPunct ":" Alone; TIdent "E"] ++
  ref "S" ++ colon :: TIdent "u32" :: arrow ++ ref "E" ++ [semi] ++
  ref "O" ++ arrow ++ [TPunct "!" Alone; semi] ++
  ref "N" ++ colon :: TIdent "u32" :: arrow ++ [TIdent "Num"; TGroup Parenthesis [TPunct "." Joint; TPunct "." Alone]; TGroup Brace [hash; TLiteral "0"]; bar; TIdent "Zero"] ++
    ref "O" ++ [TGroup Brace [TLiteral "0"]; semi] ++
  ref "E" ++ colon :: TIdent "u32" :: arrow ++ ref "E" ++ [TIdent "Plus"] ++ ref "N" ++
    [TGroup Brace [hash; TLiteral "0"; TPunct "+" Alone; hash; TIdent "N"]; bar] ++ ref "N" ++ [TGroup Brace [hash; TIdent "N"]; semi].
Definition fewer_numbers (i : nat) : nat := nth i [0; 5; 3; 4; 1; 2] 7.
Definition calc_fewer_item : emitted :=
  match expand_at true 50 (placed 1 calc_fewer) with Ok (Item _ em) => em | _ => first_item end.

Lemma calc_fewer_ok (bm : BuildMode) :
  reads_as show (trees (placed 1 calc_fewer)) (decls_of calc_fewer) /\
  parse_declarations show (tokenize_from_stream (trees (placed 1 calc_fewer))) = Ok (decls_of calc_fewer) /\
  d_terminal_type (decls_of calc_fewer) = d_terminal_type calc_decls /\
  fewer_declared (d_rules (decls_of calc_fewer)) (d_rules calc_decls) /\ numbered_in fewer_numbers (d_rules (decls_of calc_fewer)) (d_rules calc_decls) /\
  first_complete (bm := bm) (source (d_rules (decls_of calc_fewer))) /\ valid_grammar (source (d_rules (decls_of calc_fewer))) /\ root_unused (d_rules (decls_of calc_fewer)) /\
  (forall r, In r (d_rules (decls_of calc_fewer)) -> good_rule r) /\
  (forall s, terminal_in (d_rules (decls_of calc_fewer)) s -> good_terminal all_literals (d_terminal_type (decls_of calc_fewer)) s) /\
  expand_at bm 50 (placed 1 calc_fewer) = Ok (Item place calc_fewer_item).
Proof.
  destruct (reads_ok calc_fewer eq_refl) as (W' & Rd' & P'); [vm_compute; reflexivity|]. rewrite placed_trees. split; [exact Rd'|].
  split; [vm_compute; reflexivity|]. split; [vm_compute; reflexivity|].
  assert (Hd : d_rules calc_decls = calc_rules) by reflexivity.
  assert (Hd' : d_rules (decls_of calc_fewer) = map (fun i => nth (fewer_numbers i) calc_rules (mk_prule "" None [] None)) (seq 0 6)) by (vm_compute; reflexivity).
  assert (F : fewer_declared (d_rules (decls_of calc_fewer)) (d_rules calc_decls)).
  { rewrite Hd, Hd'. eexists _, _, _, [nth 6 calc_rules (mk_prule "" None [] None)]. split; [reflexivity|]. split; [reflexivity|]. cbn [map seq fewer_numbers nth calc_rules app].
    match goal with |- Permutation [?a; ?b; ?c; ?d; ?e; ?f] _ => change (Permutation ([a; b] ++ [c; d] ++ [e] ++ [f]) (([e] ++ [c; d] ++ [a; b]) ++ [f])) end.
    rewrite !app_assoc. apply Permutation_app_tail. rewrite <- app_assoc. rewrite (Permutation_app_comm [_; _] _). apply (Permutation_app_tail _ (l := [_; _] ++ [_]) (l' := [_] ++ [_; _])).
    apply Permutation_app_comm. }
  split; [exact F|].
  split.
  { rewrite Hd, Hd'. split; [reflexivity|]. intros [|[|[|[|[|[|i]]]]]] r Hr; try exact Hr. destruct i; discriminate. }
  split; [apply direct_first_complete, (direct_b_ok _ ["O"]); vm_compute; reflexivity|].
  assert (V : valid_grammar (source (d_rules (decls_of calc_fewer)))).
  { destruct (indexed_build 50 (source (d_rules (decls_of calc_fewer)))) as [ig| | |] eqn:I; [now apply build_indexes in I|destruct bm; vm_compute in I; discriminate..]. }
  split; [exact V|]. split.
  { rewrite Hd'. intros r Hr. injection Hr as <-. cbn. intros [H|[]]. discriminate. }
  destruct calc_good as (G1 & G2). split; [intros r Hr; apply G1; eapply fewer_in_rules; eauto|].
  split; [intros s Hs; apply (fewer_terminal _ _ _ F) in Hs; exact (G2 s Hs)|]. destruct bm; vm_compute; reflexivity.
Qed.

Lemma calc_fewer_run (bm : BuildMode) :
  gives_value code_demo (run_emitted (bm := bm) (E := unit) code_demo no_error' (of_list calc_tokens) sum_body 100 calc_item) (RUser 5) /\
  gives_value (renumber fewer_numbers code_demo)
    (run_emitted (bm := bm) (E := unit) (renumber fewer_numbers code_demo) no_error' (of_list calc_tokens) (fun i => sum_body (fewer_numbers i)) 100 calc_fewer_item) (RUser 5).
Proof. split; apply returned_ok; destruct bm; vm_compute; reflexivity. Qed.
