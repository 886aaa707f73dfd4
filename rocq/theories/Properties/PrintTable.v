(** The example program that prints a table (C85).  [calculation], [word_value]
    and [tree_value] are in [Spec.PrintTable], [spells] in [Spec.GrammarText],
    [shows_table] and [aligned] in [Spec.TableText]. *)
From Coq Require Import Arith String Ascii List.
From Verif Require Import Base.Prelude Spec.Grammar Spec.TableText Spec.GrammarText Spec.PrintTable Model.Error.
From Verif Require Import Model.Vocabulary Model.GrammarStr Model.IndexedGrammar Model.LRTable Model.ParseSimulator Model.TableText Model.PrintTable.
From Verif Require Import Proofs.PrintTable.
Import ListNotations.
Open Scope string_scope.
#[local] Existing Instance EqDec_char.

(** ** C85: for any text, the program prints the table of the grammar spelled, *)
Theorem C85_prints :
  forall (bm : BuildMode) fuel s g p, spells s g -> parser_new fuel g = Ok p ->
  exists shown, print_table fuel s = Ok (shown ++ String newline "") /\
    shows_table (plr_table p) (vocab_size (ivocab (pgrammar p))) (labels_count (pgrammar p)) shown /\ aligned shown.
Proof. exact @print_ok. Qed.
Print Assumptions C85_prints.

(** and prints nothing else; *)
Theorem C85_prints_only :
  forall (bm : BuildMode) fuel s out, print_table fuel s = Ok out -> exists g p, spells s g /\ parser_new fuel g = Ok p.
Proof. exact @print_only. Qed.
Print Assumptions C85_prints_only.

(** it always ends, *)
Theorem C85_ends :
  forall (bm : BuildMode) s, exists N, forall fuel, N < fuel -> print_table fuel s <> Diverge.
Proof. exact print_ends. Qed.
Print Assumptions C85_ends.

(** and prints the same for two texts only if the tables are the same; *)
Theorem C85_same_output :
  forall (bm : BuildMode) fuel fuel' s s' g g' p p' out, spells s g -> parser_new fuel g = Ok p -> spells s' g' -> parser_new fuel' g' = Ok p' ->
  print_table fuel s = Ok out -> print_table fuel' s' = Ok out -> plr_table p = plr_table p'.
Proof. exact print_same. Qed.
Print Assumptions C85_same_output.

(** the text of the program is accepted, and what is printed does not depend on
    the budget; *)
Theorem C85_main :
  forall bm : BuildMode, exists g p shown, spells example_text g /\ parser_new 50 g = Ok p /\
  (forall fuel, 50 <= fuel -> main fuel = Ok (shown ++ String newline "")) /\
  shows_table (plr_table p) (vocab_size (ivocab (pgrammar p))) (labels_count (pgrammar p)) shown /\ aligned shown.
Proof. exact @main_spelled. Qed.
Print Assumptions C85_main.

(** the parser of its table accepts the calculations, and only these; *)
Theorem C85_language :
  forall (bm : BuildMode) (E : Type) fuel g p w, spells example_text g -> parser_new fuel g = Ok p ->
  exists N b, (forall fuel', N < fuel' -> parse_stream (E := E) fuel' p w = Ok b) /\ (b = true <-> calculation w).
Proof. exact example_language. Qed.
Print Assumptions C85_language.

(** each of these has one tree, *)
Theorem C85_one_tree :
  forall g w, spells example_text g -> calculation w -> exists t, parses g w t /\ forall t', parses g w t' -> t' = t.
Proof. exact (example_tree true). Qed.
Print Assumptions C85_one_tree.

(** and the trees group them as multiplications within additions, both from the
    left, whatever the two operations are. *)
Theorem C85_values :
  forall (A : Type) (plus times : A -> A -> A) (value : ascii -> A) g w t, spells example_text g -> parses g w t ->
  exists a, tree_value plus times value t = Some a /\ word_value plus times value w = Some a.
Proof. exact @example_values. Qed.
Print Assumptions C85_values.

(** What is printed, and the grouping of b x a p c x b p a. *)
Example C85_example :
  main (bm := true) 50 = main (bm := false) 50 /\
  (exists s, main (bm := true) 50 = Ok s /\ List.length (Spec.TableText.lines s) = 13) /\
  calculation (list_ascii_of_string "bxapcxbpa") /\
  word_value (fun a b => "(" ++ a ++ "+" ++ b ++ ")") (fun a b => "(" ++ a ++ "*" ++ b ++ ")") (fun c => String c "") (list_ascii_of_string "bxapcxbpa")
    = Some "(((b*a)+(c*b))+a)" /\
  ~ calculation (list_ascii_of_string "bxpa").
Proof. exact example_case. Qed.

(** Two texts with the same output, one with another, one that is no grammar, and one
    that is rejected. *)
Example C85_example_texts : forall bm : BuildMode,
  (exists out, print_table 50 (list_ascii_of_string "S -> a b") = Ok out /\ print_table 50 (list_ascii_of_string "R ->  c d ") = Ok out) /\
  print_table 50 (list_ascii_of_string "S -> a b") <> print_table 50 (list_ascii_of_string "S -> a a") /\
  (exists why, print_table 50 (list_ascii_of_string "S = a") = Panic why) /\
  exists why, print_table 50 (list_ascii_of_string "S -> A" ++ newline :: list_ascii_of_string "A -> A A" ++ newline :: list_ascii_of_string "A -> a")%list = Panic why.
Proof. exact example_texts. Qed.
