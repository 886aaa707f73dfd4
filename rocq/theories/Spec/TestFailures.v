(** What the parsers of the tests with errors, and the smallest ones, should compute,
    without grammars. *)
From Coq Require Import Arith Bool String Ascii NArith List.
From Verif Require Import Base.Prelude Model.TestGrammars Spec.TestLanguages.
Import ListNotations.
Open Scope list_scope.

(** ** Parsers for one character *)

(** The text is one of the characters [cs]. *)
Definition one_of (cs : list N) (text : list N) : Prop := exists c, In c cs /\ text = [c].

(** The first character that is wrong, or [None] if the text is too short. *)
Definition unexpected (cs : list N) (text : list N) : option N :=
  match text with
  | [] => None
  | c :: rest => if in_dec N.eq_dec c cs then hd_error rest else Some c
  end.

(** ** tests/sanity_tests.rs, AddMul: sums of products of the numbers 2 and 3 *)
Definition two_or_three (n : list N) : Prop := n = [2%N] \/ n = [3%N].
Definition adds_and_multiplies (text : list N) (v : N) : Prop :=
  exists ps, is_sum ps /\ Forall (Forall two_or_three) ps /\ text = sum_text ps /\ v = (sum_value ps mod u32_size)%N.

(** ** tests/fallible_input_stream.rs: two digits with a plus between them *)
Inductive verdict := Sum (n : N) | Unexpected (c : option N).
Definition is_digit (c : N) : bool := (48 <=? c)%N && (c <=? 57)%N.
Definition add_digits (text : list N) : verdict :=
  match text with
  | [] => Unexpected None
  | a :: text' =>
      if negb (is_digit a) then Unexpected (Some a)
      else
        match text' with
        | [] => Unexpected None
        | p :: text'' =>
            if negb (p =? 43)%N then Unexpected (Some p)
            else
              match text'' with
              | [] => Unexpected None
              | b :: text3 =>
                  if negb (is_digit b) then Unexpected (Some b)
                  else match text3 with [] => Sum ((a - 48) + (b - 48)) | c :: _ => Unexpected (Some c) end
              end
        end
  end.
