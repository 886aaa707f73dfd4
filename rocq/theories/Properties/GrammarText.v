(** Grammars written as text (C35).  The specification is [Spec.GrammarText]. *)
From Coq Require Import Arith String Ascii List.
From Verif Require Import Base.Prelude Spec.Grammar Model.GrammarStr Spec.GrammarText Proofs.GrammarText.
Import ListNotations.
Open Scope string_scope.
Open Scope list_scope.

(** ** C35: grammar strings *)
Theorem C35_reads_what_is_spelled : forall s g, from_grammar_str s = Ok g <-> spells s g.
Proof. exact from_str_ok. Qed.
Print Assumptions C35_reads_what_is_spelled.

Theorem C35_errors_exact : forall s e, from_grammar_str s = Err e <-> bad_text s e.
Proof. exact from_str_err. Qed.
Print Assumptions C35_errors_exact.

Theorem C35_grammar_or_error : forall s, (exists g, from_grammar_str s = Ok g) \/ exists e, from_grammar_str s = Err e.
Proof. exact from_str_total. Qed.
Print Assumptions C35_grammar_or_error.

Theorem C35_round_trip : forall g, writable g -> from_grammar_str (show_grammar g) = Ok g.
Proof. exact show_round_trip. Qed.
Print Assumptions C35_round_trip.

Definition T := list_ascii_of_string.
Definition tok (c : ascii) : node ascii text := Terminal (Token c).

(** A text with irregular spacing. *)
Example C35_example_spells : spells
  (T "EXPR->  EXPR - TERM " ++ return_char :: newline :: T " TERM -> ! " ++ newline :: T "TERM   -> > +")
  [mk_rule (T "EXPR") [Production (T "EXPR"); tok "-"; Production (T "TERM")];
   mk_rule (T "TERM") [Terminal Epsilon];
   mk_rule (T "TERM") [tok ">"; tok "+"]].
Proof. apply from_str_ok. vm_compute. reflexivity. Qed.

(** A label may be empty and so may the right-hand side. *)
Example C35_example_empty : spells (T "->") [mk_rule [] []].
Proof. apply from_str_ok. vm_compute. reflexivity. Qed.

Example C35_example_errors :
  bad_text (T "S -> a" ++ newline :: T "S - > b") (MissingArrow (T "S - > b")) /\
  bad_text (T "S -> a" ++ [newline; newline]) (MissingArrow []) /\
  bad_text (T "s -> ab") (LabelNotUppercase (T "s")) /\
  bad_text (T "S -> a B bC ->") (InvalidNode (T "bC")) /\
  bad_text (T "S -> S -> a") (InvalidNode (T "->")).
Proof. repeat split; apply from_str_err; vm_compute; reflexivity. Qed.

Example C35_example_writable : writable
  [mk_rule (T "S") [tok "a"; Production (T "AB"); tok "-"]; mk_rule (T "AB") [Terminal Epsilon]; mk_rule (T "AB") []].
Proof.
  unfold writable, upper, space, code_in, tok. repeat first [apply Forall_nil | apply Forall_cons]; cbn;
    repeat first [split | apply Forall_nil | apply Forall_cons]; try discriminate; cbn; Lia.lia || (intros [H|H]; [Lia.lia|discriminate]) || idtac.
Qed.
