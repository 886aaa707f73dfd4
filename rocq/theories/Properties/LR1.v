(** Which grammars are accepted, what conflicts mean, and FIRST sets (C07, C08,
    C14).  The definitions of LR(1) are those of [Spec.LR1]. *)
From Coq Require Import String List.
From Verif Require Import Base.Prelude Spec.Grammar Spec.Validity Spec.Nullable Spec.Observers Model.Error.
From Verif Require Import Model.BitSet Model.Vocabulary Model.IndexedGrammar Model.FirstMap Model.LRTable Model.ParseSimulator.
From Verif Require Import Proofs.Refutations Proofs.LR1Final Proofs.LR1Refute Spec.LR1.
Import ListNotations.
Open Scope string_scope.

(** C07 in full is false in both directions.  The FIRST bug makes the code accept
    an ambiguous grammar. *)
Theorem C07_accepted_is_lr1_refuted :
  forall bm : BuildMode, exists (g : grammar string string) p, no_eos g /\ eps_trailing g /\ productive g /\ valid_grammar g /\
  (forall r, nth_error g 0 = Some r -> ~ uses r (symbol r)) /\ parser_new 50 g = Ok p /\ ~ lr1_grammar g.
Proof. exact accepted_not_lr1. Qed.
Print Assumptions C07_accepted_is_lr1_refuted.

(** And an LR(1) grammar is rejected if it has a label from which nothing
    derives. *)
Theorem C07_lr1_is_accepted_refuted :
  forall bm : BuildMode, exists (g : grammar string string) ig e, no_eos g /\ eps_trailing g /\ direct_epsilon g /\ valid_grammar g /\
  (forall r, nth_error g 0 = Some r -> ~ uses r (symbol r)) /\ lr1_grammar g /\
  indexed_build 50 g = Ok ig /\ table_build ig 50 = Err e.
Proof. exact lr1_not_accepted. Qed.
Print Assumptions C07_lr1_is_accepted_refuted.

(** It holds when every label derives some word and the computed FIRST sets miss
    nothing.  (Epsilon nodes only at the end of rules; the first rule does not
    mention its own label, otherwise building panics, C04.) *)
Theorem C07_accepted_iff_lr1_partial :
  forall (bm : BuildMode) (T L : Type) (dT : EqDec T) (dL : EqDec L) (g : grammar T L),
  eps_trailing g -> first_complete g -> productive g -> (forall r, nth_error g 0 = Some r -> ~ uses r (symbol r)) ->
  exists N, forall fuel, N < fuel -> ((exists p, parser_new fuel g = Ok p) <-> valid_grammar g /\ lr1_grammar g).
Proof. exact (fun bm T L dT dL g => @accepted_iff_lr1 bm T L dT dL g). Qed.
Print Assumptions C07_accepted_iff_lr1_partial.

(** For grammars with labels that derive nothing the criterion is
    [conflict_free]. *)
Theorem C07_accepted_iff_conflict_free_partial :
  forall (bm : BuildMode) (T L : Type) (dT : EqDec T) (dL : EqDec L) (g : grammar T L),
  eps_trailing g -> first_complete g -> (forall r, nth_error g 0 = Some r -> ~ uses r (symbol r)) ->
  exists N, forall fuel, N < fuel -> ((exists p, parser_new fuel g = Ok p) <-> valid_grammar g /\ conflict_free g).
Proof. exact (fun bm T L dT dL g => @accepted_iff bm T L dT dL g). Qed.
Print Assumptions C07_accepted_iff_conflict_free_partial.

(** No condition on FIRST sets is needed for one direction. *)
Theorem C07_conflict_free_is_accepted_partial :
  forall (bm : BuildMode) (T L : Type) (dT : EqDec T) (dL : EqDec L) (g : grammar T L),
  eps_trailing g -> valid_grammar g -> (forall r, nth_error g 0 = Some r -> ~ uses r (symbol r)) -> conflict_free g ->
  exists N, forall fuel, N < fuel -> exists p, parser_new fuel g = Ok p.
Proof. exact (fun bm T L dT dL g => @conflict_free_builds bm T L dT dL g). Qed.
Print Assumptions C07_conflict_free_is_accepted_partial.

(** A grammar with epsilon rules meeting the hypotheses and accepted, so an LR(1)
    grammar; another one which is not. *)
Example C07_example_accepted : eps_trailing opt_list /\ first_complete (bm := true) opt_list /\ productive opt_list /\
  (forall r, nth_error opt_list 0 = Some r -> ~ uses r (symbol r)) /\ exists p, parser_new (bm := true) 50 opt_list = Ok p.
Proof.
  destruct opt_list_ok as (H1 & H2 & H3 & H4 & H5).
  exact (conj H2 (conj (direct_first_complete (bm := true) _ H3) (conj opt_list_productive (conj opt_list_root H4)))).
Qed.
Example C07_example_rejected : eps_trailing dangling /\ first_complete (bm := true) dangling /\ productive dangling /\
  (forall r, nth_error dangling 0 = Some r -> ~ uses r (symbol r)).
Proof. destruct dangling_ok as (H1 & H2 & H3 & H4 & _). exact (conj H1 (conj (direct_first_complete (bm := true) _ H3) (conj H2 H4))). Qed.

(** C08.  Whatever the grammar, the only errors are shift/reduce and
    reduce/reduce conflicts. *)
Theorem C08_kinds_of_errors :
  forall (bm : BuildMode) (T L : Type) (dT : EqDec T) (dL : EqDec L) fuel (g : grammar T L) ig e,
  indexed_build fuel g = Ok ig -> table_build ig fuel = Err e ->
  (exists j a, e = ShiftReduceConflict j a) \/ (exists j1 j2 a, e = ReduceConflict j1 j2 a).
Proof. exact (fun bm T L dT dL fuel g ig e => @kinds_of_errors bm T L dT dL fuel g ig e). Qed.
Print Assumptions C08_kinds_of_errors.

(** That the conflict is real by the textbook is false: once for a label that
    derives nothing, once for an epsilon node before a token. *)
Theorem C08_conflicts_genuine_refuted :
  forall bm : BuildMode, exists (g : grammar string string) ig e, no_eos g /\ eps_trailing g /\ valid_grammar g /\
  indexed_build 50 g = Ok ig /\ table_build ig 50 = Err e /\ ~ genuine ig (reduces g) (shifts g) e.
Proof. exact conflict_not_genuine. Qed.
Print Assumptions C08_conflicts_genuine_refuted.

Theorem C08_conflicts_genuine_epsilon_refuted :
  forall bm : BuildMode, exists (g : grammar string string) ig e, no_eos g /\ productive g /\ valid_grammar g /\
  indexed_build 50 g = Ok ig /\ table_build ig 50 = Err e /\ ~ genuine ig (reduces g) (shifts g) e.
Proof. exact spurious_conflict. Qed.
Print Assumptions C08_conflicts_genuine_epsilon_refuted.

(** Without those two it is true, even where FIRST sets are incomplete. *)
Theorem C08_conflicts_genuine_partial :
  forall (bm : BuildMode) (T L : Type) (dT : EqDec T) (dL : EqDec L) fuel (g : grammar T L) ig e,
  eps_trailing g -> productive g -> (forall r, nth_error g 0 = Some r -> ~ uses r (symbol r)) ->
  indexed_build fuel g = Ok ig -> table_build ig fuel = Err e -> genuine ig (reduces g) (shifts g) e.
Proof. exact (fun bm T L dT dL fuel g ig e => @conflicts_genuine_lr1 bm T L dT dL fuel g ig e). Qed.
Print Assumptions C08_conflicts_genuine_partial.

(** With labels that derive nothing it is true in the liberal sense. *)
Theorem C08_conflicts_liberal_partial :
  forall (bm : BuildMode) (T L : Type) (dT : EqDec T) (dL : EqDec L) fuel (g : grammar T L) ig e,
  eps_trailing g -> indexed_build fuel g = Ok ig -> table_build ig fuel = Err e -> genuine ig (may_reduce g) (may_shift g) e.
Proof. exact (fun bm T L dT dL fuel g ig e => @conflicts_genuine bm T L dT dL fuel g ig e). Qed.
Print Assumptions C08_conflicts_liberal_partial.

(** The dangling else. *)
Example C08_example : eps_trailing dangling /\ productive dangling /\ (forall r, nth_error dangling 0 = Some r -> ~ uses r (symbol r)) /\
  exists ig, indexed_build (bm := true) 50 dangling = Ok ig /\ table_build (bm := true) ig 50 = Err (ShiftReduceConflict 2 (Token "e")) /\ rule_of ig 2 2.
Proof. destruct dangling_ok as (H1 & H2 & H3 & H4 & H5). exact (conj H1 (conj H2 (conj H4 H5))). Qed.

(** C14.  FIRST sets contain nothing wrong, for every grammar. *)
Theorem C14_first_sets_sound :
  forall (bm : BuildMode) (T L : Type) (dT : EqDec T) (dL : EqDec L) fuel (g : grammar T L) ig F l a,
  indexed_build fuel g = Ok ig -> first_build (E := lr_error T L) fuel ig = Ok F -> first_has ig F l a ->
  (a = Epsilon -> vanishes g [Production l]) /\ (a <> Epsilon -> begins g [Production l] a).
Proof. exact (fun bm T L dT dL fuel g ig F l a => @first_sets_sound bm T L dT dL fuel g ig F l a). Qed.
Print Assumptions C14_first_sets_sound.

(** But they may miss something: [S -> A A; A -> B c; B -> !] has no "c" in
    FIRST(A). *)
Theorem C14_first_sets_complete_refuted :
  forall bm : BuildMode, exists (g : grammar string string) ig F l a, no_eos g /\ eps_trailing g /\ productive g /\ indexed_build 50 g = Ok ig /\
  first_build (E := lr_error string string) 50 ig = Ok F /\ begins g [Production l] a /\ ~ first_has ig F l a.
Proof. exact first_incomplete. Qed.
Print Assumptions C14_first_sets_complete_refuted.

(** They miss nothing if every label that derives the empty word has a rule which
    makes that plain ([direct_epsilon]). *)
Theorem C14_first_sets_complete_partial :
  forall (bm : BuildMode) (T L : Type) (dT : EqDec T) (dL : EqDec L) (g : grammar T L), direct_epsilon g -> first_complete g.
Proof. exact (fun bm T L dT dL g => @direct_first_complete bm T L dT dL g). Qed.
Print Assumptions C14_first_sets_complete_partial.

Example C14_example : direct_epsilon opt_list /\ exists ig F, indexed_build (bm := true) 50 opt_list = Ok ig /\
  first_build (bm := true) (E := lr_error string string) 50 ig = Ok F /\ first_has (bm := true) ig F "S" (Token "(") /\ first_has (bm := true) ig F "L" Epsilon.
Proof. destruct opt_list_ok as (_ & _ & H3 & _). exact (conj H3 (opt_list_first true)). Qed.
