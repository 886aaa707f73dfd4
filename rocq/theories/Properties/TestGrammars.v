(** The grammars of the tests in /repo/tests (C64 - C66): what the parsers that the
    macro makes of them compute for {i all} inputs.  The token trees of the grammars
    and the meaning of the constructors in them are in [Model.TestGrammars]; what is
    to be computed is in [Spec.TestLanguages], without grammars.  [item_of bm input
    em]: the macro makes [em] of [input].  There are no conditions on FIRST sets
    here: those of these grammars are right.  [always_made bm input]: it makes an
    item of [input] in every order of hash maps. *)
From Coq Require Import Arith Bool String Ascii NArith List.
From Verif Require Import Base.Prelude Model.TokenTree Model.Terminal Model.Constructor Model.CodeGen Model.Runtime Model.Rust Model.Emit.
From Verif Require Import Model.TestGrammars Spec.Values Spec.EmittedCode Spec.Meaning Spec.TestLanguages.
From Verif Require Import Proofs.TestMain Proofs.TestExamples Proofs.TestAccepted.
Import ListNotations.
Open Scope string_scope.
Open Scope list_scope.

(** All of the 14 grammars are accepted, in debug and in release mode. *)
Example C64_grammars_are_accepted : forall (bm : BuildMode) input, In input all_inputs -> exists em, item_of bm input em.
Proof. exact all_accepted. Qed.

(** ** C64: tests/brainfck.rs.  The parser returns the program if its brackets match;
    and otherwise reports the first bracket that closes none, or the end. *)
Theorem C64_brainfck_is_accepted :
  forall (bm : BuildMode) input, In input [brainfck_input] -> always_made bm input.
Proof. exact (fun bm input H => tests_always_made bm input ltac:(cbn in H |- *; tauto)). Qed.
Print Assumptions C64_brainfck_is_accepted.

Theorem C64_brainfck :
  forall (bm : BuildMode) em, item_of bm brainfck_input em ->
  exists n, forall (bmr : BuildMode) (E SErr : Type) (into : SErr -> Empty_set) code fuel, n * S (List.length code) <= fuel ->
  let m := run_emitted (bm := bmr) code_rust into (of_list (map bf_tok code)) (read_body code_readings) fuel em : Rust.result (E := E) code_rust in
  (brackets_match 0 code -> gives_value code_rust m (bf_val code)) /\
  (~ brackets_match 0 code -> gives_error code_rust m (ParseError code_rust (option_map bf_tok (unmatched 0 code)))).
Proof. exact brainfck_runs. Qed.
Print Assumptions C64_brainfck.

Example C64_example (bm : BuildMode) :
  Forall (brackets_match 0) programs /\
  results code_rust code_readings brainfck_input bm (map (fun c => good (map bf_tok c)) programs) = map (fun c => ok code_rust (bf_val c)) programs /\
  ~ brackets_match 0 (code_of "+[-]]>") /\ unmatched 0 (code_of "+[-]]>") = Some CloseBracket /\ ~ brackets_match 0 (code_of "[[-]") /\ unmatched 0 (code_of "[[-]") = None.
Proof. exact (conj programs_match (conj (brainfck bm) mismatches)). Qed.

(** ** C65: tests/test_simple.rs and tests/error_messages.rs.  The first parser
    evaluates sums of products of decimal numbers (modulo 2^32, as in release
    builds), and no other texts; ... *)
Theorem C65_grammars_are_accepted :
  forall (bm : BuildMode) input, In input [test_simple_input; error_messages_input] -> always_made bm input.
Proof. exact (fun bm input H => tests_always_made bm input ltac:(cbn in H |- *; tauto)). Qed.
Print Assumptions C65_grammars_are_accepted.

Theorem C65_calculator :
  forall (bm : BuildMode) em, item_of bm test_simple_input em ->
  exists n, forall (bmr : BuildMode) (E SErr : Type) (into : SErr -> Empty_set) text fuel, n * S (List.length text) <= fuel ->
  let m := run_emitted (bm := bmr) u32_rust into (of_list (map (fun c : N => TRaw c) text)) (read_body u32_readings) fuel em : Rust.result (E := E) u32_rust in
  (forall k, calculates text k -> gives_value u32_rust m (RUser k)) /\
  ((forall k, ~ calculates text k) -> exists o, first_wrong (fun text => exists k, calculates text k) text o /\
     gives_error u32_rust m (ParseError u32_rust (option_map (fun c : N => TRaw c) o))).
Proof. exact calculator_runs. Qed.
Print Assumptions C65_calculator.

(** ... the second accepts one or more tokens of the same kind, and otherwise its
    error shows the first token of another kind. *)
Theorem C65_error_messages :
  forall (bm : BuildMode) em, item_of bm error_messages_input em ->
  exists n, forall (bmr : BuildMode) (E SErr : Type) (into : SErr -> Empty_set) ts fuel, n * S (List.length ts) <= fuel ->
  let m := run_emitted (bm := bmr) place_rust into (of_list (map ab_tok ts)) (read_body []) fuel em : Rust.result (E := E) place_rust in
  (all_alike ts -> gives_value place_rust m RUnit) /\
  (~ all_alike ts -> gives_error place_rust m (ParseError place_rust (option_map ab_tok (unlike ts)))).
Proof. exact alike_runs. Qed.
Print Assumptions C65_error_messages.

Example C65_example (bm : BuildMode) :
  calculates (chars "21*42+1000") 1882%N /\
  results u32_rust u32_readings test_simple_input bm (texts ["21*42+1000"]) = [ok u32_rust (RUser 1882%N)] /\
  results place_rust [] error_messages_input bm (map to_token_stream ["ab"; "aaaabaa"; "aaaca"]) =
    map (fun t => err place_rust (ParseError place_rust (Some (ab_tok t)))) [B 1; B 4; C 3].
Proof. exact (conj calculates_1882 (conj (test_simple bm) (error_messages bm))). Qed.

(** ** C66: tests/sanity_tests.rs (GetReq and TestNonLALR) and
    tests/test_large_or.rs.  A request is "GET " or "HEAD ", and a colon with a
    name. *)
Theorem C66_grammars_are_accepted :
  forall (bm : BuildMode) input, In input [get_req_input; non_lalr_input; large_or_input] -> always_made bm input.
Proof. exact (fun bm input H => tests_always_made bm input ltac:(cbn in H |- *; tauto)). Qed.
Print Assumptions C66_grammars_are_accepted.

Theorem C66_requests :
  forall (bm : BuildMode) em, item_of bm get_req_input em ->
  exists n, forall (bmr : BuildMode) (E SErr : Type) (into : SErr -> Empty_set) text fuel, n * S (List.length text) <= fuel ->
  let m := run_emitted (bm := bmr) req_rust into (of_list (map (fun c : N => TRaw c) text)) (read_body req_readings) fuel em : Rust.result (E := E) req_rust in
  (forall t uri, request text t uri -> gives_value req_rust m (RUser (VReq t uri))) /\
  ((forall t uri, ~ request text t uri) -> exists o, first_wrong (fun text => exists t uri, request text t uri) text o /\
     gives_error req_rust m (ParseError req_rust (option_map (fun c : N => TRaw c) o))).
Proof. exact requests_run. Qed.
Print Assumptions C66_requests.

(** The second grammar has four words; parsers with less lookahead information
    would confuse them. *)
Theorem C66_non_lalr :
  forall (bm : BuildMode) em, item_of bm non_lalr_input em ->
  exists n, forall (bmr : BuildMode) (E SErr : Type) (into : SErr -> Empty_set) text fuel, n * S (List.length text) <= fuel ->
  let m := run_emitted (bm := bmr) path_rust into (of_list (map (fun c : N => TRaw c) text)) (read_body path_readings) fuel em : Rust.result (E := E) path_rust in
  (forall w c, In (w, c) non_lalr_words -> text = chars w -> gives_value path_rust m (RUser c)) /\
  ((forall w c, In (w, c) non_lalr_words -> text <> chars w) ->
   exists o, first_wrong (fun text => exists w c, In (w, c) non_lalr_words /\ text = chars w) text o /\
     gives_error path_rust m (ParseError path_rust (option_map (fun c : N => TRaw c) o))).
Proof. exact paths_run. Qed.
Print Assumptions C66_non_lalr.

(** The third accepts a single letter, and returns it. *)
Theorem C66_letters :
  forall (bm : BuildMode) em, item_of bm large_or_input em ->
  exists n, forall (bmr : BuildMode) (E SErr : Type) (into : SErr -> Empty_set) text fuel, n * S (List.length text) <= fuel ->
  let m := run_emitted (bm := bmr) u32_rust into (of_list (map (fun c : N => TRaw c) text)) (read_body u32_readings) fuel em : Rust.result (E := E) u32_rust in
  (forall c, letter c -> text = [c] -> gives_value u32_rust m (RTok (TRaw c))) /\
  ((forall c, letter c -> text <> [c]) ->
   exists o, first_wrong (fun text => exists c, letter c /\ text = [c]) text o /\
     gives_error u32_rust m (ParseError u32_rust (option_map (fun c : N => TRaw c) o))).
Proof. exact letters_run. Qed.
Print Assumptions C66_letters.

Example C66_example (bm : BuildMode) :
  request (chars "GET :abcdefgh") Get (chars ":abcdefgh") /\
  results req_rust req_readings get_req_input bm (texts ["GET :abcdefgh"]) = [ok req_rust (RUser (VReq Get (chars ":abcdefgh")))] /\
  results path_rust path_readings non_lalr_input bm (texts ["da"; "bdc"; "dc"; "bda"]) = map (fun c => ok path_rust (RUser c)) ["C1"; "C2"; "C3"; "C4"].
Proof. exact (conj abcdefgh (conj (parse_uri bm) (non_lalr bm))). Qed.
