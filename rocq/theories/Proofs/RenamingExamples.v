(** Renamed grammars. *)
From Coq Require Import Arith String List.
From Verif Require Import Base.Prelude Spec.Grammar Spec.Renaming Model.Error.
From Verif Require Import Model.IndexedGrammar Model.LRTable Model.ParseSimulator.
Import ListNotations.
Open Scope string_scope.

Local Notation tk x := (Terminal (Token x)).
Local Notation nt x := (Production x).

Definition primed (s : string) : string := s ++ "'".
Definition quoted (s : string) : nat * string := (7, s).

Lemma primed_inj : injective primed.
Proof.
  intros x. induction x as [|a x IH]; intros [|b y] H; cbn in H; auto.
  - injection H as _ H. destruct y; discriminate.
  - injection H as _ H. destruct x; discriminate.
  - injection H as -> H. f_equal. now apply IH.
Qed.
Lemma quoted_inj : injective quoted.
Proof. intros x y H. now injection H. Qed.

(** S -> A; A -> x A | y *)
Definition named_g : grammar string string := [mk_rule "S" [nt "A"]; mk_rule "A" [tk "x"; nt "A"]; mk_rule "A" [tk "y"]].
Definition quoted_g : grammar string (nat * string) :=
  [mk_rule (7, "S") [nt (7, "A")]; mk_rule (7, "A") [tk "x'"; nt (7, "A")]; mk_rule (7, "A") [tk "y'"]].

Lemma quoted_example (bm : BuildMode) : injective primed /\ injective quoted /\
  rename_grammar primed quoted named_g = quoted_g /\
  exists p p', parser_new 50 named_g = Ok p /\ parser_new 50 quoted_g = Ok p' /\
  parse_stream (E := unit) 50 p ["x"; "x"; "y"] = Ok true /\ parse_stream (E := unit) 50 p' ["x'"; "x'"; "y'"] = Ok true.
Proof.
  split; [exact primed_inj|]. split; [exact quoted_inj|]. split; [reflexivity|].
  destruct bm; eexists _, _; (split; [vm_compute; reflexivity|]); (split; [vm_compute; reflexivity|]); split; vm_compute; reflexivity.
Qed.

(** S -> A; A -> A x A | y *)
Definition amb_g : grammar string string := [mk_rule "S" [nt "A"]; mk_rule "A" [nt "A"; tk "x"; nt "A"]; mk_rule "A" [tk "y"]].
Lemma quoted_error (bm : BuildMode) : exists e, parser_new 50 amb_g = Err e /\ e = ShiftReduceConflict 1 (Token "x") /\
  parser_new 50 (rename_grammar primed quoted amb_g) = Err (ShiftReduceConflict 1 (Token "x'")).
Proof. destruct bm; (eexists; split; [vm_compute; reflexivity|]; split; [reflexivity|vm_compute; reflexivity]). Qed.

(** S -> A | B is not allowed, as the first label has one rule: S -> C; C -> A | B; A -> x; B -> y *)
Definition two_g : grammar string string :=
  [mk_rule "S" [nt "C"]; mk_rule "C" [nt "A"]; mk_rule "C" [nt "B"]; mk_rule "A" [tk "x"]; mk_rule "B" [tk "y"]].
Lemma merged_example (bm : BuildMode) : exists p e,
  parser_new 50 two_g = Ok p /\ parser_new 50 (rename_grammar (fun _ => "x") quoted two_g) = Err e.
Proof. destruct bm; (eexists _, _; split; vm_compute; reflexivity). Qed.
