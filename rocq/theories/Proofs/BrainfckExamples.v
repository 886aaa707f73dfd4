(** The tests of tests/brainfck.rs:257-307. *)
From Coq Require Import Arith Bool String Ascii NArith List Lia.
From Verif Require Import Base.Prelude Spec.TestLanguages Spec.Brainfck Model.Brainfck Proofs.Brainfck Proofs.BrainfckRun Proofs.TestExamples.
Import ListNotations.
Open Scope list_scope.

Definition bytes (s : string) : list N := map N_of_ascii (list_ascii_of_string s).
Definition newline : N := 10.
Definition count_to_ten : list N :=
  flat_map (fun d => bytes d ++ [newline]) ["1"; "2"; "3"; "4"; "5"; "6"; "7"; "8"; "9"; "10"]%string.
Definition counting := nth 0 programs [].
Definition adding := nth 1 programs [].
Definition given (s : string) (n : nat) : option N := nth_error (bytes s) n.

Lemma tests_run :
  nexts counting (fun _ => None) (S (List.length count_to_ten)) 1000 execute = Ok (map (fun b => Some (inr b)) count_to_ten ++ [None]) /\
  nexts adding (given "12") 2 1000 execute = Ok [Some (inr 51%N); None] /\ nexts adding (given "35") 2 1000 execute = Ok [Some (inr 56%N); None] /\
  nexts adding (given "1") 3 1000 execute = Ok [Some (inl EndOfInput); Some (inr 1%N); None].
Proof. vm_compute. repeat split. Qed.

(** Both are written without nested loops. *)
Definition counting_commands : list command :=
  repeat (Do Increase) 49 ++ [Do GoRight] ++ repeat (Do Increase) 10 ++ [Do GoRight] ++ repeat (Do Increase) 9 ++
  [Loop [Do GoLeft; Do GoLeft; Do Write; Do Increase; Do GoRight; Do Write; Do GoRight; Do Decrease]] ++ repeat (Do Increase) 9 ++
  [Loop [Do GoLeft; Do GoLeft; Do Decrease; Do GoRight; Do GoRight; Do Decrease]; Do GoLeft; Do GoLeft; Do Write; Do Decrease; Do Write; Do GoRight; Do Write].
Lemma counting_unnested : counting = written counting_commands /\ unnested counting_commands.
Proof.
  split; [reflexivity|]. unfold unnested, counting_commands. rewrite ?Forall_app. repeat split; try (apply Forall_forall; intros c Hc; apply repeat_spec in Hc; subst; exact I);
  repeat constructor.
Qed.
