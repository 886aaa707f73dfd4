(** Inputs of the parsers of the tests with errors (C69). *)
From Coq Require Import Arith Bool String Ascii NArith List Lia.
From Verif Require Import Base.Prelude Model.TokenTree Model.Terminal Model.Constructor Model.CodeGen Model.Runtime Model.Rust Model.Emit.
From Verif Require Import Model.TestGrammars Spec.Values Spec.EmittedCode Spec.Meaning Spec.TestLanguages Spec.TestFailures Proofs.TestExamples.
Import ListNotations.
Open Scope string_scope.
Open Scope list_scope.

Lemma in_inputs : In fallible_ctor_input all_inputs.
Proof. cbn. tauto. Qed.

Lemma adds_8 : adds_and_multiplies (chars "2+2*3") 8%N.
Proof.
  exists [[[2]]; [[2]; [3]]]%N. split; [|split; [|split; reflexivity]].
  - split; [discriminate|]. repeat constructor; discriminate.
  - repeat constructor; (left; reflexivity) || (right; reflexivity).
Qed.

Lemma fail_examples bm : adds_and_multiplies (chars "2+2*3") 8%N /\
  results u32_rust u32_readings add_mul_input bm (texts ["2"; "2+3"; "2*3"; "2*2+3"; "2+2*3"]) = map (fun n => ok u32_rust (RUser n)) [2; 5; 6; 7; 8]%N /\
  one_of (chars "yz") (chars "z") /\ ~ one_of (chars "azby") (chars "zz") /\
  results container_rust into_readings fallible_ctor_input bm (texts ["a"; "z"; "zz"; ""; "q"]) =
    [ok container_rust (RUser (VContainer 1)); err container_rust (UserError container_rust too_big); err container_rust (ParseError container_rust (Some (TRaw 122%N)));
     err container_rust (ParseError container_rust None); err container_rust (ParseError container_rust (Some (TRaw 113%N)))] /\
  add_digits (chars "3+2") = Sum 5 /\ add_digits (chars "3+") = Unexpected None /\ add_digits (chars "3-") = Unexpected (Some 45%N) /\
  results u32_fallible u32_readings fallible_input_stream_input bm
    [[inl (TRaw 51%N); inl (TRaw 43%N); inr "MyError"]; [inl (TRaw 51%N); inl (TRaw 45%N); inr "MyError"]; [inl (TRaw 51%N); inl (TRaw 43%N); inl (TRaw 50%N)]] =
    [err u32_fallible (UserError u32_fallible "MyError"); err u32_fallible (ParseError u32_fallible (Some (TRaw 45%N))); ok u32_fallible (RUser 5%N)].
Proof.
  split; [exact adds_8|]. split; [exact (add_mul bm)|]. split; [exists 122%N; cbn; auto|]. split; [intros (c & _ & H); discriminate|].
  split; [destruct bm; vm_compute; reflexivity|]. split; [reflexivity|]. split; [reflexivity|]. split; [reflexivity|]. destruct bm; vm_compute; reflexivity.
Qed.
