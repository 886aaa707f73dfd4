(** C01-C06, C36, C37: building a parser and recognising input with it. *)
From Coq Require Import Arith Bool String NArith List.
From Verif Require Import Base.Prelude Spec.Grammar Spec.Validity Spec.Nullable Spec.Observers Model.Error.
From Verif Require Import Model.IndexedGrammar Model.LRTable Model.ParseSimulator.
From Verif Require Import Proofs.ParserFinal Proofs.RecognitionFinal Proofs.Refutations Proofs.LR1Final.
Import ListNotations.
Open Scope string_scope.

(** C01.  What is accepted is in the language.  [eps_trailing]: epsilon nodes
    are never followed by another node; [no_eos]: EndOfStream is no terminal of
    the grammar. *)
Theorem C01_recognition_sound :
  forall (bm : BuildMode) (T L E : Type) (dT : EqDec T) (dL : EqDec L) (g : grammar T L) fuel fuel' p (w : list T),
  no_eos g -> eps_trailing g -> parser_new fuel g = Ok p -> parse_stream (E := E) fuel' p w = Ok true -> language g w.
Proof. exact (fun bm T L E dT dL g fuel fuel' p w => @recog_sound bm T L dT dL g fuel fuel' p E w). Qed.
Print Assumptions C01_recognition_sound.

(** Without [eps_trailing] it is false: [S -> ! a] accepts "aa". *)
Theorem C01_without_eps_trailing_refuted :
  forall bm : BuildMode, exists (g : grammar string string) w p, no_eos g /\
  parser_new 50 g = Ok p /\ parse_stream (E := unit) 50 p w = Ok true /\ ~ language g w.
Proof. exact mid_unsound. Qed.
Print Assumptions C01_without_eps_trailing_refuted.

Example C01_example : no_eos arith /\ eps_trailing arith /\
  exists p, parser_new (bm := true) 50 arith = Ok p /\
    parse_stream (bm := true) (E := unit) 50 p ["n"; "+"; "("; "n"; ")"] = Ok true /\
    parse_stream (bm := true) (E := unit) 50 p ["n"; "+"; ")"] = Ok false.
Proof.
  split; [apply no_eos_ok; reflexivity|]. split; [apply eps_trailing_ok; reflexivity|].
  apply runs_2. vm_compute. reflexivity.
Qed.

(** C02 in full: for every accepted grammar (with [no_eos], [eps_trailing]) every
    sentence is accepted.  It is false, because first_map.rs:49 does not report a
    newly found epsilon as a change: [S -> A A; A -> B c; B -> !] rejects "cc". *)
Theorem C02_recognition_complete_refuted :
  forall bm : BuildMode, exists (g : grammar string string) w p, no_eos g /\ eps_trailing g /\
  parser_new 50 g = Ok p /\ language g w /\ forall fuel, 50 <= fuel -> parse_stream (E := unit) fuel p w = Ok false.
Proof. exact complete_false. Qed.
Print Assumptions C02_recognition_complete_refuted.

(** That is the only cause: it holds whenever the FIRST sets which the code
    computes for the grammar miss nothing ([first_complete]).  C14 shows a class
    of grammars for which they do not, [direct_epsilon]. *)
Theorem C02_recognition_complete_partial :
  forall (bm : BuildMode) (T L E : Type) (dT : EqDec T) (dL : EqDec L) (g : grammar T L) fuel p (w : list T),
  no_eos g -> eps_trailing g -> first_complete g -> parser_new fuel g = Ok p -> language g w ->
  exists N, forall fuel', N < fuel' -> parse_stream (E := E) fuel' p w = Ok true.
Proof. exact (fun bm T L E dT dL g fuel p w => @recog_complete_f bm T L dT dL E g fuel p w). Qed.
Print Assumptions C02_recognition_complete_partial.

(** C03.  For every grammar there is a budget beyond which building returns. *)
Theorem C03_construction_terminates :
  forall (bm : BuildMode) (T L : Type) (dT : EqDec T) (dL : EqDec L) (g : grammar T L),
  exists N, forall fuel, N < fuel -> parser_new fuel g <> Diverge.
Proof. exact (fun bm T L dT dL g => @parser_new_terminates bm T L dT dL g). Qed.
Print Assumptions C03_construction_terminates.

(** C04 in full is false: [S -> S a] panics in debug and release builds. *)
Theorem C04_construction_never_panics_refuted :
  forall bm : BuildMode, exists (g : grammar string string) why, parser_new 50 g = Panic why.
Proof. exact (fun bm => ex_intro _ g_root (root_panics bm)). Qed.
Print Assumptions C04_construction_never_panics_refuted.

(** But that is the only way: if building panics then the first rule mentions
    its own label. *)
Theorem C04_construction_never_panics_partial :
  forall (bm : BuildMode) (T L : Type) (dT : EqDec T) (dL : EqDec L) (g : grammar T L) fuel why,
  parser_new fuel g = Panic why -> exists r, nth_error g 0 = Some r /\ uses r (symbol r).
Proof. exact (fun bm T L dT dL g fuel why => @parser_new_panic bm T L dT dL fuel g why). Qed.
Print Assumptions C04_construction_never_panics_partial.

(** C05 in full is false in two ways. *)
Theorem C05_parsing_terminates_refuted :
  forall bm : BuildMode, exists (g : grammar string string) p, parser_new 50 g = Ok p /\
  forall fuel, parse_stream (E := unit) fuel p [] = Diverge.
Proof. exact parse_diverges. Qed.
Print Assumptions C05_parsing_terminates_refuted.

Theorem C05_parsing_never_panics_refuted :
  exists (g : grammar string string) w p why, parser_new (bm := true) 50 g = Ok p /\
  parse_stream (bm := true) (E := unit) 50 p w = Panic why.
Proof. exact (ex_intro _ g_pan (ex_intro _ _ parse_panics)). Qed.
Print Assumptions C05_parsing_never_panics_refuted.

(** It holds whenever the grammar satisfies [no_eos] and [eps_trailing] (all
    grammars the macro can write do, see C30): parsing ends with a Boolean. *)
Theorem C05_parsing_total_partial :
  forall (bm : BuildMode) (T L E : Type) (dT : EqDec T) (dL : EqDec L) (g : grammar T L) fuel p (w : list T),
  no_eos g -> eps_trailing g -> parser_new fuel g = Ok p ->
  (exists N b, forall fuel', N < fuel' -> parse_stream (E := E) fuel' p w = Ok b) /\
  (forall fuel', parse_stream (E := E) fuel' p w = Diverge \/ exists b, parse_stream (E := E) fuel' p w = Ok b).
Proof. exact (fun bm T L E dT dL g fuel p w => @recog_total bm T L dT dL g fuel p E w). Qed.
Print Assumptions C05_parsing_total_partial.

(** C06 in full is false for the same reason as C02. *)
Theorem C06_unambiguous_refuted :
  forall bm : BuildMode, exists (g : grammar string string) w p t1 t2, no_eos g /\ eps_trailing g /\
  parser_new 50 g = Ok p /\ parses g w t1 /\ parses g w t2 /\ t1 <> t2.
Proof. exact unambiguous_false. Qed.
Print Assumptions C06_unambiguous_refuted.

Theorem C06_unambiguous_partial :
  forall (bm : BuildMode) (T L : Type) (dT : EqDec T) (dL : EqDec L) (g : grammar T L) fuel p (w : list T) t1 t2,
  no_eos g -> eps_trailing g -> first_complete g -> parser_new fuel g = Ok p ->
  parses g w t1 -> parses g w t2 -> t1 = t2.
Proof. exact (fun bm T L dT dL g fuel p w t1 t2 => @unambiguous_f bm T L dT dL g fuel p w t1 t2). Qed.
Print Assumptions C06_unambiguous_partial.

(** A grammar with epsilon rules meeting all hypotheses, and a sentence of it. *)
Example C02_example : no_eos opt_list /\ eps_trailing opt_list /\ direct_epsilon opt_list /\ first_complete (bm := true) opt_list /\
  (exists p, parser_new (bm := true) 50 opt_list = Ok p) /\
  parses opt_list ["a"; "("; ")"] (Node 0 [Node 2 [Leaf "a"; Node 1 []]; Node 4 [Leaf "("; Node 1 []; Leaf ")"]]).
Proof.
  destruct opt_list_ok as (H1 & H2 & H3 & H4). exact (conj H1 (conj H2 (conj H3 (conj (direct_first_complete (bm := true) _ H3) H4)))).
Qed.

(** C36 in full is false: dropping the epsilon node of [S -> ! a] changes what
    is accepted. *)
Theorem C36_epsilon_neutral_refuted :
  forall bm : BuildMode, exists (g g' : grammar string string) p p' w,
  Forall2 same_but_epsilon g g' /\ parser_new 50 g = Ok p /\ parser_new 50 g' = Ok p' /\
  parse_stream (E := unit) 50 p w = Ok false /\ parse_stream (E := unit) 50 p' w = Ok true.
Proof. exact epsilon_not_neutral. Qed.
Print Assumptions C36_epsilon_neutral_refuted.

(** It holds when epsilon nodes are only added or removed at the end of rules
    (and the FIRST sets of both grammars miss nothing). *)
Theorem C36_epsilon_neutral_partial :
  forall (bm : BuildMode) (T L E : Type) (dT : EqDec T) (dL : EqDec L) (g g' : grammar T L) fuel p p' (w : list T),
  Forall2 same_but_epsilon g g' -> no_eos g -> eps_trailing g -> eps_trailing g' ->
  first_complete g -> first_complete g' -> parser_new fuel g = Ok p -> parser_new fuel g' = Ok p' ->
  exists N b, forall fuel', N < fuel' ->
    parse_stream (E := E) fuel' p w = Ok b /\ parse_stream (E := E) fuel' p' w = Ok b.
Proof. exact (fun bm T L E dT dL => @epsilon_neutral_f bm T L dT dL E). Qed.
Print Assumptions C36_epsilon_neutral_partial.

Example C36_example : Forall2 same_but_epsilon arith_eps arith /\ arith_eps <> arith /\
  no_eos arith_eps /\ eps_trailing arith_eps /\ eps_trailing arith /\ first_complete (bm := true) arith_eps /\ first_complete (bm := true) arith /\
  (exists p, parser_new (bm := true) 50 arith_eps = Ok p) /\ (exists p, parser_new (bm := true) 50 arith = Ok p).
Proof.
  destruct arith_eps_ok as (H1 & H2 & H3 & H4 & H5 & H6 & H7 & H8). exact (conj H1 (conj H2 (conj H3 (conj H4 (conj H5 (conj (direct_first_complete (bm := true) _ H6) (conj (direct_first_complete (bm := true) _ H7) H8))))))).
Qed.

(** C37.  An accepted input consists of tokens of the grammar; no hypothesis on
    the grammar. *)
Theorem C37_unknown_tokens_rejected :
  forall (bm : BuildMode) (T L E : Type) (dT : EqDec T) (dL : EqDec L) (g : grammar T L) fuel fuel' p (w : list T) x,
  parser_new fuel g = Ok p -> parse_stream (E := E) fuel' p w = Ok true -> In x w ->
  exists r, In r g /\ In (Terminal (Token x)) (rhs r).
Proof. exact (fun bm T L E dT dL g fuel fuel' p w x => @unknown_rejected bm T L dT dL g fuel fuel' p E w x). Qed.
Print Assumptions C37_unknown_tokens_rejected.

Example C37_example :
  exists p, parser_new (bm := true) 50 arith = Ok p /\ parse_stream (bm := true) (E := unit) 50 p ["n"; "+"; "?"] = Ok false.
Proof. apply runs_1. vm_compute. reflexivity. Qed.
