(** The expectations of the tests in /repo/tests, for the items that the modelled
    macro makes of their grammars.  (The interpreter of tests/brainfck.rs is not
    modelled; the programs of that test are read.) *)
From Coq Require Import Arith Bool String Ascii NArith List Lia.
From Verif Require Import Base.Prelude Model.Error Model.TokenTree Model.Terminal Model.Constructor Model.CodeGen Model.Runtime Model.Symbol Model.FrontEnd.
From Verif Require Import Model.Diagnostics Model.Rust Model.Emit Model.Expand Model.TestGrammars Spec.Values Spec.Diagnostics Spec.EmittedCode Spec.Meaning Spec.TestLanguages.
From Verif Require Import Proofs.GenExamples Proofs.MacroExamples Proofs.DiagnosticsExamples Proofs.ExpandExamples Proofs.TestGrammars.
Import ListNotations.
Open Scope string_scope.
Open Scope list_scope.

Definition made (bm : BuildMode) (input : list ttree) :=
  Expand.grammar (bm := bm) place whole join_places show no_lex all_literals forward 500 (placed 1 input).
Definition item (bm : BuildMode) (input : list ttree) : option emitted := match made bm input with Ok (Item _ em) => Some em | _ => None end.

Lemma item_made bm input em : item bm input = Some em -> item_of bm input em.
Proof.
  unfold item. destruct (made bm input) as [[em'|]| | |] eqn:E; try discriminate. intros H. injection H as ->.
  exists place, whole, join_places, show, no_lex, all_literals, forward, 500, (placed 1 input). split; [apply forward_ok|]. split; [apply placed_trees|]. left. exact E.
Qed.

Definition all_inputs : list (list ttree) :=
  [test_simple_input; large_or_input; brainfck_input; fallible_input_stream_input; auto_into_input; disjoint_input; error_messages_input; fallible_ctor_input;
   into_error_input; token_pattern_input; sanity_simple_input; add_mul_input; get_req_input; non_lalr_input].
Definition sizes (bm : BuildMode) : list (option nat) := map (fun i => option_map (fun em => em_table_size em) (item bm i)) all_inputs.

(** All of them are accepted; and test_simple.rs:34: [Test::TABLE_SIZE] is 20. *)
Lemma all_accepted bm : forall input, In input all_inputs -> exists em, item_of bm input em.
Proof.
  assert (H : forallb (fun i => match item bm i with Some _ => true | None => false end) all_inputs = true) by (destruct bm; vm_compute; reflexivity).
  rewrite forallb_forall in H. intros input Hin. specialize (H input Hin). destruct (item bm input) as [em|] eqn:E; [|discriminate]. exists em. now apply item_made.
Qed.
Lemma table_sizes bm : sizes bm = map Some [20; 54; 22; 26; 6; 4; 10; 6; 10; 13; 2; 10; 68; 13].
Proof. destruct bm; vm_compute; reflexivity. Qed.

Section Run.
Variable R : rust.
Variable table : list (reading (Raw R) (Pay R) (UVal R) (UErr R)).
Variable input : list ttree.
(** The results of the parser for some streams of tokens. *)
Definition results (bm : BuildMode) (streams : list (list (tok R + UErr R))) : list (option (rvalue (Raw R) (Pay R) (UVal R) (UErr R) (UErr R))) :=
  match item bm input with
  | Some em => map (fun ts => match run_emitted (bm := bm) (E := unit) R (fun e => e) (nth_error ts) (read_body table) 500 em with
      | Ok (_, FVal _ v) => Some v
      | _ => None
      end) streams
  | None => []
  end.
End Run.
Definition good {A} {B : Type} (l : list A) : list (A + B) := map inl l.
Definition text (s : string) : list (Runtime.token N Empty_set) := map (fun c => TRaw (N_of_ascii c)) (list_ascii_of_string s).
Definition texts {B : Type} (l : list string) : list (list (Runtime.token N Empty_set + B)) := map (fun s => good (text s)) l.
Definition is_err {A B C D E} (v : option (rvalue A B C D E)) : bool := match v with Some (VCon ["Err"] _) => true | _ => false end.
Notation ok R v := (Some (result_value (R := R) (SErr := UErr R) (inl v))).
Notation err R e := (Some (result_value (R := R) (SErr := UErr R) (inr e))).

Example test_simple bm : results u32_rust u32_readings test_simple_input bm (texts ["21*42+1000"]) = [ok u32_rust (RUser 1882%N)].
Proof. destruct bm; vm_compute; reflexivity. Qed.

Example test_large_or bm :
  results u32_rust u32_readings large_or_input bm (map (fun n => [inl (TRaw (N.of_nat n))]) (seq 97 26 ++ seq 65 26) ++ texts ["."]) =
  map (fun n => ok u32_rust (RTok (TRaw (N.of_nat n)))) (seq 97 26 ++ seq 65 26) ++ [err u32_rust (ParseError u32_rust (Some (TRaw 46%N)))].
Proof. destruct bm; vm_compute; reflexivity. Qed.

(** brainfck.rs:27-38 [from_char] *)
Definition from_char (c : ascii) : instruction :=
  match c with
  | ">" => IncTape | "<" => DecTape | "+" => IncByte | "-" => DecByte | "." => Output | "," => Input | "[" => OpenBracket | _ => CloseBracket
  end%char.
Definition code_of (s : string) : list instruction := map from_char (list_ascii_of_string s).
Definition programs : list (list instruction) :=
  [code_of "+++++++++++++++++++++++++++++++++++++++++++++++++>++++++++++>+++++++++[<<.+>.>-]+++++++++[<<->>-]<<.-.>.";
   code_of ",>,[<+>-]<------------------------------------------------."].
Example brainfck bm : results code_rust code_readings brainfck_input bm (map (fun c => good (map bf_tok c)) programs) = map (fun c => ok code_rust (bf_val c)) programs.
Proof. destruct bm; vm_compute; reflexivity. Qed.

Example stream_fails bm : results u32_fallible u32_readings fallible_input_stream_input bm [[inl (TRaw 51%N); inl (TRaw 43%N); inr "MyError"]] = [err u32_fallible (UserError u32_fallible "MyError")].
Proof. destruct bm; vm_compute; reflexivity. Qed.
Example stream_succeeds bm : results u32_fallible u32_readings fallible_input_stream_input bm (texts ["3+2"]) = [ok u32_fallible (RUser 5%N)].
Proof. destruct bm; vm_compute; reflexivity. Qed.

Example auto_into bm : results into_rust into_readings auto_into_input bm (texts ["a"; "b"]) =
  [ok into_rust (RUser (VAOrB (VA 1%N))); ok into_rust (RUser (VAOrB (VB 2%N)))].
Proof. destruct bm; vm_compute; reflexivity. Qed.

Example fallible_ctor bm : results container_rust into_readings fallible_ctor_input bm (texts ["a"; "b"; "z"; "y"]) =
  [ok container_rust (RUser (VContainer 1%N)); ok container_rust (RUser (VContainer 1%N));
   err container_rust (UserError container_rust too_big); err container_rust (UserError container_rust too_big)].
Proof. destruct bm; vm_compute; reflexivity. Qed.

Example into_error_type bm : results container_rust into_readings into_error_input bm (texts ["a"; "b"; "c"; "z"; "y"; "x"]) =
  let yes := ok container_rust (RUser (VContainer 1%N)) in let no := err container_rust (UserError container_rust too_big) in [yes; yes; yes; no; no; no].
Proof. destruct bm; vm_compute; reflexivity. Qed.

(** disjoint_token_pattern.rs: an error only in debug builds *)
Definition range_token (a b : N) : list (tok (range_rust show) + Empty_set) := [inl (TVariant "A" (Some (a, b)))].
Example no_conflicts bm : results (range_rust show) [] disjoint_input bm [range_token 0 100; range_token 8 99] =
  let yes := ok (range_rust show) RUnit in [yes; yes].
Proof. destruct bm; vm_compute; reflexivity. Qed.
Example conflict bm : map is_err (results (range_rust show) [] disjoint_input bm [range_token 9 100]) = [bm].
Proof. destruct bm; vm_compute; reflexivity. Qed.

(** token_pattern.rs *)
Definition java_tokens (l : list (string * java_field)) : list (tok (java_rust show) + Empty_set) := map (fun e => inl (TVariant (fst e) (Some (snd e)))) l.
Definition kw (k : TestGrammars.keyword) := ("Keyword", FKeyword k).
Definition opr (o : op_kind) (s : spacing) := ("Operator", FOperator o s).
Example test_parse bm : results (java_rust show) main_readings token_pattern_input bm
  [java_tokens [kw Public; kw Static; kw Void; ("Ident", FIdent "main" Alone); opr Eq Joint; opr Eq Alone; ("Literal", FLiteral "123"); opr Semicolon Alone]] =
  [ok (java_rust show) (RUser ("main", "123"))].
Proof. destruct bm; vm_compute; reflexivity. Qed.
Example test_parse_fail bm : map is_err (results (java_rust show) main_readings token_pattern_input bm
  [java_tokens [kw Static; kw Public; kw Void; ("Ident", FIdent "main" Alone); opr Eq Alone; ("Literal", FLiteral "123")];
   java_tokens [kw Public; kw Static; kw Void; ("Ident", FIdent "main" Joint); opr Eq Joint; opr Eq Alone; ("Literal", FLiteral "123"); opr Semicolon Alone]]) = [true; true].
Proof. destruct bm; vm_compute; reflexivity. Qed.

(** error_messages.rs *)
Fixpoint to_token_stream_from (i : nat) (l : list ascii) : list ab_token :=
  match l with
  | [] => []
  | c :: l' => match c with "a" => A i | "b" => B i | _ => C i end%char :: to_token_stream_from (S i) l'
  end.
Definition to_token_stream (s : string) : list (tok place_rust + Empty_set) := good (map ab_tok (to_token_stream_from 0 (list_ascii_of_string s))).
Example error_messages bm : results place_rust [] error_messages_input bm (map to_token_stream ["ab"; "aaaabaa"; "aaaca"]) =
  map (fun t => err place_rust (ParseError place_rust (Some (ab_tok t)))) [B 1; B 4; C 3].
Proof. destruct bm; vm_compute; reflexivity. Qed.

(** sanity_tests.rs *)
Example sanity bm : results u32_rust u32_readings sanity_simple_input bm (texts ["a"]) = [ok u32_rust RUnit] /\
  map is_err (results u32_rust u32_readings sanity_simple_input bm (texts [""; "b"; "ab"])) = [true; true; true].
Proof. destruct bm; vm_compute; split; reflexivity. Qed.
Example add_mul bm : results u32_rust u32_readings add_mul_input bm (texts ["2"; "2+3"; "2*3"; "2*2+3"; "2+2*3"]) = map (fun n => ok u32_rust (RUser n)) [2; 5; 6; 7; 8]%N.
Proof. destruct bm; vm_compute; reflexivity. Qed.
Example parse_uri bm : results req_rust req_readings get_req_input bm (texts ["GET :abcdefgh"]) = [ok req_rust (RUser (VReq Get (chars ":abcdefgh")))].
Proof. destruct bm; vm_compute; reflexivity. Qed.
Example non_lalr bm : results path_rust path_readings non_lalr_input bm (texts ["da"; "bdc"; "dc"; "bda"]) = map (fun c => ok path_rust (RUser c)) ["C1"; "C2"; "C3"; "C4"].
Proof. destruct bm; vm_compute; reflexivity. Qed.

(** Inputs that the theorems are about. *)
Lemma programs_match : Forall (brackets_match 0) programs.
Proof. repeat constructor; vm_compute; reflexivity. Qed.
Lemma mismatches : ~ brackets_match 0 (code_of "+[-]]>") /\ unmatched 0 (code_of "+[-]]>") = Some CloseBracket /\
  ~ brackets_match 0 (code_of "[[-]") /\ unmatched 0 (code_of "[[-]") = None.
Proof. split; [intros H; vm_compute in H; exact H|]. split; [reflexivity|]. split; [intros H; vm_compute in H; discriminate|reflexivity]. Qed.
Lemma calculates_1882 : calculates (chars "21*42+1000") 1882%N.
Proof.
  exists [[[2; 1]; [4; 2]]; [[1; 0; 0; 0]]]%N. split; [|split; vm_compute; reflexivity].
  split; [discriminate|]. repeat constructor; discriminate.
Qed.
Lemma abcdefgh : request (chars "GET :abcdefgh") Get (chars ":abcdefgh").
Proof.
  exists (chars "abcdefgh"). split; [discriminate|]. split; [|split; vm_compute; reflexivity].
  change (chars "abcdefgh") with [97; 98; 99; 100; 101; 102; 103; 104]%N. repeat (apply Forall_cons; [right; split; discriminate|]). apply Forall_nil.
Qed.
