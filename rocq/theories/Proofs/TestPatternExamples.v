(** Inputs of the parsers of the tests with patterns (C71). *)
From Coq Require Import Arith Bool String Ascii NArith List Lia.
From Verif Require Import Base.Prelude Model.TokenTree Model.Terminal Model.Constructor Model.CodeGen Model.Runtime Model.Rust Model.Emit Model.Expand.
From Verif Require Import Model.TestGrammars Spec.Values Spec.EmittedCode Spec.Meaning Spec.Diagnostics Spec.TestLanguages Spec.TestPatterns.
From Verif Require Import Proofs.GenExamples Proofs.MacroExamples Proofs.DiagnosticsExamples Proofs.ExpandExamples Proofs.TestGrammars Proofs.TestExamples.
Import ListNotations.
Open Scope string_scope.
Open Scope list_scope.

Lemma show_tells_apart input : input = token_pattern_input \/ input = disjoint_input -> tells_apart show input.
Proof.
  intros Hi p q Hp Hq H.
  assert (A : Forall (fun p => Forall (fun q => show p = show q -> p = q) (written_patterns input)) (written_patterns input)).
  { destruct Hi as [->| ->]; repeat constructor; vm_compute; (discriminate || reflexivity). }
  rewrite Forall_forall in A. pose proof (A p Hp) as B. rewrite Forall_forall in B. exact (B q Hq H).
Qed.

Lemma shown bm input : input = token_pattern_input \/ input = disjoint_input -> exists em, item_printed bm show input em.
Proof.
  intros Hi. assert (H : exists em, item bm input = Some em).
  { destruct (item bm input) as [em|] eqn:E; [eauto|]. exfalso.
    assert (F : In input all_inputs) by (destruct Hi as [->| ->]; cbn; tauto).
    assert (H : forallb (fun i => match item bm i with Some _ => true | None => false end) all_inputs = true) by (destruct bm; vm_compute; reflexivity).
    rewrite forallb_forall in H. specialize (H input F). rewrite E in H. discriminate. }
  destruct H as (em & H). exists em. unfold item in H. destruct (made bm input) as [[em'|]| | |] eqn:E; try discriminate. injection H as ->.
  exists place, whole, join_places, no_lex, all_literals, forward, 500, (placed 1 input). split; [apply forward_ok|]. split; [apply placed_trees|]. left. exact E.
Qed.

Definition main_fields : list java_field :=
  [FKeyword Public; FKeyword Static; FKeyword Void; FIdent "main" Alone; FOperator Eq Joint; FOperator Eq Alone; FLiteral "123"; FOperator Semicolon Alone].
Definition wrong_order : list java_field := [FKeyword Static; FKeyword Public; FKeyword Void; FIdent "main" Alone; FOperator Eq Alone; FLiteral "123"].
Definition joint_name : list java_field :=
  [FKeyword Public; FKeyword Static; FKeyword Void; FIdent "main" Joint; FOperator Eq Joint; FOperator Eq Alone; FLiteral "123"; FOperator Semicolon Alone].
Definition javas (l : list (list java_field)) : list (list (tok (java_rust show) + Empty_set)) := map (fun fs => good (map (java_tok show) fs)) l.
Definition ranges (l : list (list (N * N))) : list (list (tok (range_rust show) + Empty_set)) := map (fun fs => good (map (range_tok show) fs)) l.

Lemma main_declared : declares_main main_fields "main" "123".
Proof. reflexivity. Qed.
Lemma main_results bm : results (java_rust show) main_readings token_pattern_input bm (javas [main_fields; wrong_order; joint_name; firstn 7 main_fields; main_fields ++ main_fields]) =
  ok (java_rust show) (RUser ("main", "123")) :: map (fun o => err (java_rust show) (ParseError (java_rust show) (option_map (java_tok show) o)))
    [Some (FKeyword Static); Some (FIdent "main" Joint); None; Some (FKeyword Public)].
Proof. destruct bm; vm_compute; reflexivity. Qed.
Lemma range_results (bm : BuildMode) : results (range_rust show) [] disjoint_input bm (ranges [[(0, 100)]; [(8, 99)]; [(11, 100)]; [(9, 100)]; [(12, 100)]; [(0, 0); (9, 100)]; []]%N) =
  let yes := ok (range_rust show) RUnit in let no := fun o => err (range_rust show) (ParseError (range_rust show) (option_map (range_tok show) o)) in
  [yes; yes; yes; if debug_assertions then err (range_rust show) (OverlappingTokenMatchers (range_rust show) (range_tok show (9, 100)%N)) else yes;
   no (Some (12, 100)%N); no (Some (9, 100)%N); no None].
Proof. destruct bm; vm_compute; reflexivity. Qed.
Lemma patterns_of_tokens : both_patterns (9, 100)%N /\ some_pattern (11, 100)%N /\ ~ both_patterns (11, 100)%N /\ ~ some_pattern (12, 100)%N.
Proof. unfold both_patterns, some_pattern, first_pattern, second_pattern. cbn. repeat split; lia. Qed.

Lemma pattern_examples (bm : BuildMode) :
  tells_apart show token_pattern_input /\ tells_apart show disjoint_input /\
  (exists em, item_printed bm show token_pattern_input em) /\ (exists em, item_printed bm show disjoint_input em) /\
  declares_main main_fields "main" "123" /\
  results (java_rust show) main_readings token_pattern_input bm (javas [main_fields; wrong_order; joint_name; firstn 7 main_fields; main_fields ++ main_fields]) =
    ok (java_rust show) (RUser ("main", "123")) :: map (fun o => err (java_rust show) (ParseError (java_rust show) (option_map (java_tok show) o)))
      [Some (FKeyword Static); Some (FIdent "main" Joint); None; Some (FKeyword Public)] /\
  (both_patterns (9, 100)%N /\ some_pattern (11, 100)%N /\ ~ both_patterns (11, 100)%N /\ ~ some_pattern (12, 100)%N) /\
  results (range_rust show) [] disjoint_input bm (ranges [[(0, 100)]; [(8, 99)]; [(11, 100)]; [(9, 100)]; [(12, 100)]; [(0, 0); (9, 100)]; []]%N) =
    let yes := ok (range_rust show) RUnit in let no := fun o => err (range_rust show) (ParseError (range_rust show) (option_map (range_tok show) o)) in
    [yes; yes; yes; if debug_assertions then err (range_rust show) (OverlappingTokenMatchers (range_rust show) (range_tok show (9, 100)%N)) else yes;
     no (Some (12, 100)%N); no (Some (9, 100)%N); no None].
Proof.
  repeat (split; [first [apply show_tells_apart; tauto|apply shown; tauto|exact main_declared|exact (main_results bm)|exact patterns_of_tokens]|]). exact (range_results bm).
Qed.
