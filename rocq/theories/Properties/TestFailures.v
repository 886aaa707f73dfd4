(** More grammars of the tests in /repo/tests (C69): those whose constructors or
    streams fail, and the smallest ones; together with C64 - C66 these are all grammars
    of the tests without patterns.  As there, the statements are about {i all} inputs;
    what is to be computed is in [Spec.TestFailures], without grammars. *)
From Coq Require Import Arith Bool String Ascii NArith List.
From Verif Require Import Base.Prelude Model.TokenTree Model.Terminal Model.Constructor Model.CodeGen Model.Runtime Model.Rust Model.Emit.
From Verif Require Import Model.TestGrammars Spec.Values Spec.EmittedCode Spec.Meaning Spec.TestLanguages Spec.TestFailures.
From Verif Require Import Proofs.TestFailMain Proofs.TestExamples Proofs.TestFailExamples Proofs.TestAccepted.
Import ListNotations.
Open Scope string_scope.
Open Scope list_scope.

Theorem C69_grammars_are_accepted :
  forall (bm : BuildMode) input, In input [sanity_simple_input; auto_into_input; fallible_ctor_input; into_error_input; add_mul_input; fallible_input_stream_input] ->
  always_made bm input.
Proof. exact (fun bm input H => tests_always_made bm input ltac:(cbn in H |- *; tauto)). Qed.
Print Assumptions C69_grammars_are_accepted.

(** tests/sanity_tests.rs, TestSimple: only ["a"]. *)
Theorem C69_simple :
  forall (bm : BuildMode) em, item_of bm sanity_simple_input em ->
  exists n, forall (bmr : BuildMode) (E SErr : Type) (into : SErr -> Empty_set) text fuel, n * S (List.length text) <= fuel ->
  let m := run_emitted (bm := bmr) u32_rust into (of_list (map (fun c : N => TRaw c) text)) (read_body u32_readings) fuel em : Rust.result (E := E) u32_rust in
  (text = chars "a" -> gives_value u32_rust m RUnit) /\
  (text <> chars "a" -> gives_error u32_rust m (ParseError u32_rust (option_map (fun c : N => TRaw c) (unexpected (chars "a") text)))).
Proof. exact simple_runs. Qed.
Print Assumptions C69_simple.

(** tests/auto_into.rs: ["a"] and ["b"]; their values are converted to the type of
    the rules that have no constructor. *)
Theorem C69_auto_into :
  forall (bm : BuildMode) em, item_of bm auto_into_input em ->
  exists n, forall (bmr : BuildMode) (E SErr : Type) (into : SErr -> string) text fuel, n * S (List.length text) <= fuel ->
  let m := run_emitted (bm := bmr) into_rust into (of_list (map (fun c : N => TRaw c) text)) (read_body into_readings) fuel em : Rust.result (E := E) into_rust in
  (text = chars "a" -> gives_value into_rust m (RUser (VAOrB (VA 1)))) /\
  (text = chars "b" -> gives_value into_rust m (RUser (VAOrB (VB 2)))) /\
  (~ one_of (chars "ab") text -> gives_error into_rust m (ParseError into_rust (option_map (fun c : N => TRaw c) (unexpected (chars "ab") text)))).
Proof. exact into_runs. Qed.
Print Assumptions C69_auto_into.

(** tests/fallible_ctor.rs: after ["y"] or ["z"] the conversion of [A(100)] fails, if
    the input ends there; otherwise the next character is reported first. *)
Theorem C69_fallible_ctor :
  forall (bm : BuildMode) em, item_of bm fallible_ctor_input em ->
  exists n, forall (bmr : BuildMode) (E SErr : Type) (into : SErr -> string) text fuel, n * S (List.length text) <= fuel ->
  let m := run_emitted (bm := bmr) container_rust into (of_list (map (fun c : N => TRaw c) text)) (read_body into_readings) fuel em : Rust.result (E := E) container_rust in
  (one_of (chars "ab") text -> gives_value container_rust m (RUser (VContainer 1))) /\
  (one_of (chars "yz") text -> gives_error container_rust m (UserError container_rust too_big)) /\
  (~ one_of (chars "azby") text -> gives_error container_rust m (ParseError container_rust (option_map (fun c : N => TRaw c) (unexpected (chars "azby") text)))).
Proof. exact ctor_runs. Qed.
Print Assumptions C69_fallible_ctor.

(** tests/into_error_type.rs: the same, also with an error of another type, which is
    converted. *)
Theorem C69_into_error_type :
  forall (bm : BuildMode) em, item_of bm into_error_input em ->
  exists n, forall (bmr : BuildMode) (E SErr : Type) (into : SErr -> string) text fuel, n * S (List.length text) <= fuel ->
  let m := run_emitted (bm := bmr) container_rust into (of_list (map (fun c : N => TRaw c) text)) (read_body into_readings) fuel em : Rust.result (E := E) container_rust in
  (one_of (chars "abc") text -> gives_value container_rust m (RUser (VContainer 1))) /\
  (one_of (chars "xyz") text -> gives_error container_rust m (UserError container_rust too_big)) /\
  (~ one_of (chars "azbycx") text -> gives_error container_rust m (ParseError container_rust (option_map (fun c : N => TRaw c) (unexpected (chars "azbycx") text)))).
Proof. exact error_runs. Qed.
Print Assumptions C69_into_error_type.

(** tests/sanity_tests.rs, AddMul: sums of products of 2 and 3. *)
Theorem C69_add_mul :
  forall (bm : BuildMode) em, item_of bm add_mul_input em ->
  exists n, forall (bmr : BuildMode) (E SErr : Type) (into : SErr -> Empty_set) text fuel, n * S (List.length text) <= fuel ->
  let m := run_emitted (bm := bmr) u32_rust into (of_list (map (fun c : N => TRaw c) text)) (read_body u32_readings) fuel em : Rust.result (E := E) u32_rust in
  (forall k, adds_and_multiplies text k -> gives_value u32_rust m (RUser k)) /\
  ((forall k, ~ adds_and_multiplies text k) -> exists o, first_wrong (fun text => exists k, adds_and_multiplies text k) text o /\
     gives_error u32_rust m (ParseError u32_rust (option_map (fun c : N => TRaw c) o))).
Proof. exact add_mul_runs. Qed.
Print Assumptions C69_add_mul.

(** tests/fallible_input_stream.rs, for streams that do not fail ... *)
Theorem C69_input_stream :
  forall (bm : BuildMode) em, item_of bm fallible_input_stream_input em ->
  exists n, forall (bmr : BuildMode) (E SErr : Type) (into : SErr -> string) text fuel, n * S (List.length text) <= fuel ->
  let m := run_emitted (bm := bmr) u32_fallible into (of_list (map (fun c : N => TRaw c) text)) (read_body u32_readings) fuel em : Rust.result (E := E) u32_fallible in
  match add_digits text with
  | Sum k => gives_value u32_fallible m (RUser k)
  | Unexpected o => gives_error u32_fallible m (ParseError u32_fallible (option_map (fun c : N => TRaw c) o))
  end.
Proof. exact stream_runs. Qed.
Print Assumptions C69_input_stream.

(** ... and for those that fail with [e] after [text]: a wrong character of [text] is
    reported, and otherwise [e]. *)
Theorem C69_failing_input_stream :
  forall (bm : BuildMode) em, item_of bm fallible_input_stream_input em ->
  exists n, forall (bmr : BuildMode) (E SErr : Type) (into : SErr -> string) text e rest fuel, n * S (List.length text) <= fuel ->
  let m := run_emitted (bm := bmr) u32_fallible into (of_list_then (map (fun c : N => TRaw c) text) e rest) (read_body u32_readings) fuel em : Rust.result (E := E) u32_fallible in
  match add_digits text with
  | Unexpected (Some c) => gives_error u32_fallible m (ParseError u32_fallible (Some (TRaw c)))
  | _ => gives_error u32_fallible m (UserError u32_fallible (into e))
  end.
Proof. exact failing_stream_runs. Qed.
Print Assumptions C69_failing_input_stream.

(** The tests themselves, and some inputs that they do not have. *)
Example C69_example (bm : BuildMode) :
  (exists em, item_of bm fallible_ctor_input em) /\ adds_and_multiplies (chars "2+2*3") 8%N /\
  results u32_rust u32_readings add_mul_input bm (texts ["2"; "2+3"; "2*3"; "2*2+3"; "2+2*3"]) = map (fun n => ok u32_rust (RUser n)) [2; 5; 6; 7; 8]%N /\
  one_of (chars "yz") (chars "z") /\ ~ one_of (chars "azby") (chars "zz") /\
  results container_rust into_readings fallible_ctor_input bm (texts ["a"; "z"; "zz"; ""; "q"]) =
    [ok container_rust (RUser (VContainer 1)); err container_rust (UserError container_rust too_big); err container_rust (ParseError container_rust (Some (TRaw 122%N)));
     err container_rust (ParseError container_rust None); err container_rust (ParseError container_rust (Some (TRaw 113%N)))] /\
  add_digits (chars "3+2") = Sum 5 /\ add_digits (chars "3+") = Unexpected None /\ add_digits (chars "3-") = Unexpected (Some 45%N) /\
  results u32_fallible u32_readings fallible_input_stream_input bm
    [[inl (TRaw 51%N); inl (TRaw 43%N); inr "MyError"]; [inl (TRaw 51%N); inl (TRaw 45%N); inr "MyError"]; [inl (TRaw 51%N); inl (TRaw 43%N); inl (TRaw 50%N)]] =
    [err u32_fallible (UserError u32_fallible "MyError"); err u32_fallible (ParseError u32_fallible (Some (TRaw 45%N))); ok u32_fallible (RUser 5%N)].
Proof. exact (conj (all_accepted bm _ in_inputs) (fail_examples bm)). Qed.
