(** The macros make items of the grammars of the tests in all orders of hash maps. *)
From Coq Require Import Arith Bool String Ascii NArith List Lia.
From Verif Require Import Base.Prelude Spec.Grammar Spec.Validity Spec.Nullable Spec.LR1 Spec.Observers Model.Error Model.LRTable Model.IndexedGrammar.
From Verif Require Import Model.TokenTree Model.Terminal Model.Constructor Model.CodeGen Model.Runtime Model.Symbol Model.FrontEnd.
From Verif Require Import Model.Diagnostics Model.CodeGenDiagnostics Model.Rust Model.Emit Model.Expand Model.TestGrammars.
From Verif Require Import Spec.Values Spec.Substitution Spec.Macro Spec.MacroPanic Spec.Diagnostics Spec.EmittedCode Spec.EmittedNames Spec.Expansion Spec.Meaning Spec.TestLanguages.
From Verif Require Import Proofs.Fuel Proofs.Refutations Proofs.LR1Final Proofs.GenExamples Proofs.MacroMain Proofs.MacroExamples Proofs.DiagnosticsExamples Proofs.EmitExamples Proofs.ExpandMain Proofs.ExpandExamples Proofs.MacroRefute Proofs.MeaningMain Proofs.TestGrammars Proofs.TestExamples.
Import ListNotations.
Open Scope string_scope.
Open Scope list_scope.

Definition known_literal (input : list ttree) (text : string) : bool :=
  existsb (fun t => match t with TLiteral s => String.eqb s text | _ => false end) input.
Definition terminals_b (input : list ttree) (d : declarations) : bool :=
  match d_terminal_type d with
  | TTRaw _ => forallb (fun s => (match sparen s with PGNone => true | _ => false end) && known_literal input (sname s)) (terminals (d_rules d))
  | TTEnum _ => forallb good_name_b (terminals (d_rules d))
  end.
Definition acceptable_b (input : list ttree) (nullable : list string) (d : declarations) : bool :=
  usable_b (d_rules d) nullable && unused_b (d_rules d) && forallb good_rule_b (d_rules d) && terminals_b input d.

Lemma terminals_b_ok input d lo : terminals_b input d = true -> (forall text, In (TLiteral text) input -> lo text = true) ->
  forall s, terminal_in (d_rules d) s -> good_terminal lo (d_terminal_type d) s.
Proof.
  unfold terminals_b. intros F Hl s Hs. destruct (d_terminal_type d) as [ty|ty]; [|eapply good_terminals_ok; eauto].
  apply terminals_ok in Hs. rewrite forallb_forall in F. specialize (F s Hs). apply andb_true_iff in F. destruct F as (F1 & F2). split.
  - destruct (sparen s); try discriminate. reflexivity.
  - apply Hl. unfold known_literal in F2. apply existsb_exists in F2. destruct F2 as (t & Hin & Ht). destruct t; try discriminate.
    apply String.eqb_eq in Ht. now subst.
Qed.

Section Accepted.
Variable input : list ttree.
Variable nullable : list string.
Hypothesis Hparsed : parsed_b input = true.
Hypothesis Hacc : acceptable_b input nullable (decls_of input) = true.

Lemma accepted_always (bm : BuildMode) : item bm input <> None -> always_made bm input.
Proof.
  intros Hi span cs js print le lo ho ts Ho Ets Hlo.
  unfold parsed_b in Hparsed. apply andb_true_iff in Hparsed as (W & P). destruct (reads_ok input W P) as (_ & Rd & Pd).
  unfold acceptable_b in Hacc. apply andb_true_iff in Hacc as (A & A4). apply andb_true_iff in A as (A & A3). apply andb_true_iff in A as (A1 & A2).
  unfold usable_b in A1. apply andb_true_iff in A1 as (U1 & U4). apply andb_true_iff in U1 as (U1 & U3). apply andb_true_iff in U1 as (U1 & U2). apply andb_true_iff in U1 as (U0 & U1).
  assert (Fc := direct_first_complete (bm := bm) _ (direct_b_ok _ nullable U3)). assert (Pr := productive_b_ok _ U4).
  assert (Ru := unused_ok _ A2). assert (Gr := good_rules_ok _ A3).
  assert (V : valid_grammar (source (d_rules (decls_of input))) /\ lr1_grammar (source (d_rules (decls_of input)))).
  { destruct (macros_accept (bm := bm) whole join_places show no_lex all_literals forward forward_ok (placed 1 input) (decls_of input)) as (N & HN); auto.
    - rewrite placed_trees. exact Pd.
    - intros s Hs. apply (terminals_b_ok input); auto.
    - apply (proj1 (HN (S (max N 500)) ltac:(lia))). unfold item, made in Hi.
      destruct (Expand.grammar (bm := bm) place whole join_places show no_lex all_literals forward 500 (placed 1 input)) as [[em|]| | |] eqn:E; try congruence.
      exists em. eapply le_ok; [apply grammar_le|exact E]. lia. }
  assert (Rd' : reads_as print (trees ts) (decls_of input)) by (rewrite Ets; exact (reads_print show print _ _ U0 Rd)).
  destruct (read_complete print _ _ Rd') as (d' & P' & (_ & S2 & _ & S4 & _)).
  destruct (macros_accept (bm := bm) cs js print le lo ho Ho ts d') as (N & HN); auto; try (rewrite <- S4; assumption).
  { intros s. rewrite <- S4, <- S2. now apply (terminals_b_ok input). }
  exists N. intros fuel Hf. destruct (HN fuel Hf) as ((_ & HN') & _). rewrite S4 in V. destruct (HN' V) as (em & Hem).
  pose proof (macros_same cs js print le lo ho fuel ts) as Hs. rewrite Hem in Hs.
  destruct (Expand.pub_grammar (bm := bm) span cs js print le lo ho fuel ts) as [[em'|]| | |] eqn:E; try contradiction. eauto.
Qed.
End Accepted.

(** All grammars of the tests but those with patterns, where the text of a pattern
    is that of [print]. *)
Definition plain_inputs : list (list ttree * list string) :=
  [(test_simple_input, []); (large_or_input, []); (brainfck_input, ["instruction_list"; "root"]); (fallible_input_stream_input, []); (auto_into_input, []);
   (error_messages_input, []); (fallible_ctor_input, []); (into_error_input, []); (sanity_simple_input, []); (add_mul_input, []); (get_req_input, []); (non_lalr_input, [])].
Lemma plain_inputs_ok : forallb (fun e => parsed_b (fst e) && acceptable_b (fst e) (snd e) (decls_of (fst e))) plain_inputs = true.
Proof. vm_compute. reflexivity. Qed.
Lemma tests_always_made bm input : In input (map fst plain_inputs) -> always_made bm input.
Proof.
  intros Hin. apply in_map_iff in Hin. destruct Hin as ((i & ns) & E & Hin). cbn in E. subst i. pose proof plain_inputs_ok as H. rewrite forallb_forall in H.
  specialize (H _ Hin). apply andb_true_iff in H. cbn [fst snd] in H. destruct H as (H1 & H2). apply (accepted_always input ns H1 H2).
  assert (F : forallb (fun e => match item bm (fst e) with Some _ => true | None => false end) plain_inputs = true) by (destruct bm; vm_compute; reflexivity).
  rewrite forallb_forall in F. specialize (F _ Hin). cbn [fst] in F. destruct (item bm input); discriminate.
Qed.
