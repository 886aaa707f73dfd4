(** The grammars of the tests in /repo/tests with patterns (C71).  The macros know a
    pattern by its printed text only, hence [tells_apart]; what is to be computed is in
    [Spec.TestPatterns], without grammars. *)
From Coq Require Import Arith Bool String Ascii NArith List.
From Verif Require Import Base.Prelude Model.TokenTree Model.Terminal Model.Constructor Model.CodeGen Model.Runtime Model.Rust Model.Emit.
From Verif Require Import Model.TestGrammars Spec.Values Spec.EmittedCode Spec.Meaning Spec.TestLanguages Spec.TestPatterns.
From Verif Require Import Proofs.MacroExamples Proofs.TestExamples Proofs.TestPatterns Proofs.TestPatternsMain Proofs.TestPatternsJava Proofs.TestPatternExamples.
Import ListNotations.
Open Scope string_scope.
Open Scope list_scope.

Theorem C71_grammars_are_accepted :
  forall (bm : BuildMode) print input, In input [token_pattern_input; disjoint_input] -> tells_apart print input ->
  always_printed bm print input.
Proof. exact patterns_accepted. Qed.
Print Assumptions C71_grammars_are_accepted.

(** tests/token_pattern.rs *)
Theorem C71_token_pattern :
  forall (bm : BuildMode) print em, tells_apart print token_pattern_input -> item_printed bm print token_pattern_input em ->
  exists n, forall (bmr : BuildMode) (E SErr : Type) (into : SErr -> Empty_set) fs fuel, n * S (List.length fs) <= fuel ->
  let m := run_emitted (bm := bmr) (java_rust print) into (of_list (map (java_tok print) fs)) (read_body main_readings) fuel em : Rust.result (E := E) (java_rust print) in
  (forall name value, declares_main fs name value -> gives_value (java_rust print) m (RUser (name, value))) /\
  ((forall name value, ~ declares_main fs name value) ->
    exists o, first_wrong (fun fs => exists name value, declares_main fs name value) fs o /\
      gives_error (java_rust print) m (ParseError (java_rust print) (option_map (java_tok print) o))).
Proof. exact token_pattern_runs. Qed.
Print Assumptions C71_token_pattern.

(** tests/disjoint_token_pattern.rs: one token that one of the patterns matches, and
    nothing else.  A token that both match is an error if the parser was built with
    debug assertions, and is accepted if not. *)
Theorem C71_disjoint_patterns :
  forall (bm : BuildMode) print em, tells_apart print disjoint_input -> item_printed bm print disjoint_input em ->
  exists n, forall (bmr : BuildMode) (E SErr : Type) (into : SErr -> Empty_set) fs fuel, n * S (List.length fs) <= fuel ->
  let m := run_emitted (bm := bmr) (range_rust print) into (of_list (map (range_tok print) fs)) (read_body []) fuel em : Rust.result (E := E) (range_rust print) in
  match fs with
  | [] => gives_error (range_rust print) m (ParseError (range_rust print) None)
  | f :: fs' =>
      (~ some_pattern f -> gives_error (range_rust print) m (ParseError (range_rust print) (Some (range_tok print f)))) /\
      (both_patterns f -> debug_assertions (BuildMode := bmr) = true -> gives_error (range_rust print) m (OverlappingTokenMatchers (range_rust print) (range_tok print f))) /\
      (some_pattern f -> ~ both_patterns f \/ debug_assertions (BuildMode := bmr) = false ->
        match fs' with
        | [] => gives_value (range_rust print) m RUnit
        | f' :: _ => gives_error (range_rust print) m (ParseError (range_rust print) (Some (range_tok print f')))
        end)
  end.
Proof. exact disjoint_runs. Qed.
Print Assumptions C71_disjoint_patterns.

(** The tests themselves, and some inputs that they do not have. *)
Example C71_example (bm : BuildMode) :
  tells_apart show token_pattern_input /\ tells_apart show disjoint_input /\
  (exists em, item_printed bm show token_pattern_input em) /\ (exists em, item_printed bm show disjoint_input em) /\
  declares_main main_fields "main" "123" /\
  results (java_rust show) main_readings token_pattern_input bm (javas [main_fields; wrong_order; joint_name; firstn 7 main_fields; main_fields ++ main_fields]) =
    ok (java_rust show) (RUser ("main", "123")) :: map (fun o => err (java_rust show) (ParseError (java_rust show) (option_map (java_tok show) o)))
      [Some (FKeyword Static); Some (FIdent "main" Joint); None; Some (FKeyword Public)] /\
  (both_patterns (9, 100)%N /\ some_pattern (11, 100)%N /\ ~ both_patterns (11, 100)%N /\ ~ some_pattern (12, 100)%N) /\
  results (range_rust show) [] disjoint_input bm (ranges [[(0, 100)]; [(8, 99)]; [(11, 100)]; [(9, 100)]; [(12, 100)]; [(0, 0); (9, 100)]; []]%N) =
    let yes := ok (range_rust show) RUnit in let no := fun o => err (range_rust show) (ParseError (range_rust show) (option_map (range_tok show) o)) in
    [yes; yes; yes; if debug_assertions then err (range_rust show) (OverlappingTokenMatchers (range_rust show) (range_tok show (9, 100)%N)) else yes;
     no (Some (12, 100)%N); no (Some (9, 100)%N); no None].
Proof. exact (pattern_examples bm). Qed.
