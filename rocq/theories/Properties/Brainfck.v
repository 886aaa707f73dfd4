(** The interpreter of tests/brainfck.rs runs programs as they are meant (C80).
    [nexts code input n fuel execute]: what the first [n] calls of [next] return for the
    program [code], where no call makes more than [fuel] steps; [seen input (p, blank)
    os]: the first things seen of a run of [p] on a blank row of bytes. *)
From Coq Require Import Arith Bool String Ascii NArith List.
From Verif Require Import Base.Prelude Spec.TestLanguages Spec.Brainfck Model.Brainfck.
From Verif Require Import Proofs.Brainfck Proofs.BrainfckRun Proofs.TestExamples Proofs.BrainfckExamples.
Import ListNotations.

(** What the parser accepts (C64) are the programs, and these never make the interpreter
    panic. *)
Theorem C80_programs :
  forall code, brackets_match 0 code <-> exists p, written p = code.
Proof. exact Proofs.Brainfck.programs_match. Qed.
Print Assumptions C80_programs.

Theorem C80_no_panic :
  forall code input n fuel, brackets_match 0 code ->
  nexts code input n fuel execute = Diverge \/ exists rs, nexts code input n fuel execute = Ok rs.
Proof. exact (fun code input n fuel H => execute_safe code input H n fuel). Qed.
Print Assumptions C80_no_panic.

(** In full, "the interpreter shows what is to be seen" is false: with a loop in a loop it
    can write what should not be written, ... *)
Theorem C80_nested_write_refuted :
  exists p input, nexts (written p) input 1 10 execute = Ok [Some (inr 0%N)] /\
    seen input (p, blank) [None] /\ forall os, seen input (p, blank) os -> map told os <> [Some (inr 0%N)].
Proof. exact (ex_intro _ [Loop [Loop []; Do Write]] (ex_intro _ (fun _ => None) nested_wrong)). Qed.
Print Assumptions C80_nested_write_refuted.

(** ... and can go on for ever where the program ends. *)
Theorem C80_nested_endless_refuted :
  exists p input, (forall fuel, nexts (written p) input 1 fuel execute = Diverge) /\ seen input (p, blank) [None].
Proof. exact (ex_intro _ [Loop [Loop [Do Decrease]; Do Increase]] (ex_intro _ (fun _ => None) nested_endless)). Qed.
Print Assumptions C80_nested_endless_refuted.

(** Of programs without loops in loops it is true, for every input, also after failures:
    whatever the calls of [next] return is to be seen, and whatever is to be seen is
    returned. *)
Theorem C80_meaning_partial :
  forall p input, unnested p ->
  (forall n fuel rs, nexts (written p) input n fuel execute = Ok rs -> exists os, seen input (p, blank) os /\ rs = map told os /\ List.length os = n) /\
  (forall os, seen input (p, blank) os -> exists n, forall fuel, n <= fuel -> nexts (written p) input (List.length os) fuel execute = Ok (map told os)).
Proof. exact unnested_runs. Qed.
Print Assumptions C80_meaning_partial.

(** The tests: one counts to ten, one adds two digits; the latter also with too little
    input. *)
Example C80_example :
  counting = written counting_commands /\ unnested counting_commands /\ Forall (brackets_match 0) programs /\
  nexts counting (fun _ => None) (S (List.length count_to_ten)) 1000 execute = Ok (map (fun b => Some (inr b)) count_to_ten ++ [None]) /\
  nexts adding (given "12") 2 1000 execute = Ok [Some (inr 51%N); None] /\ nexts adding (given "35") 2 1000 execute = Ok [Some (inr 56%N); None] /\
  nexts adding (given "1") 3 1000 execute = Ok [Some (inl EndOfInput); Some (inr 1%N); None].
Proof. exact (conj (proj1 counting_unnested) (conj (proj2 counting_unnested) (conj TestExamples.programs_match tests_run))). Qed.
