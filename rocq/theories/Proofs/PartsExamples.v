(** Parts of grammars: where the statements fail, and examples. *)
From Coq Require Import Arith Bool String List Permutation.
From Verif Require Import Base.Prelude Spec.Grammar Spec.Validity Spec.Nullable Spec.Observers Spec.LR1 Spec.Parts Model.Error.
From Verif Require Import Model.IndexedGrammar Model.FirstMap Model.LRTable Model.ParseSimulator.
From Verif Require Import Proofs.Refutations Proofs.LR1Refute Proofs.LR1Final Proofs.RedundantMacro Proofs.Parts.
Import ListNotations.
Open Scope string_scope.

(** A part that is valid, and no parser for it. *)
Definition part_rejected {bm : BuildMode} (g' : G) : Prop :=
  valid_grammar g' /\ root_free g' /\ exists e, parser_new 50 g' = Err e.

(** The build gets past validation, and fails later. *)
Definition late_error {bm : BuildMode} (g : G) : bool :=
  match indexed_build 50 g with Ok ig => match table_build ig 50 with Err _ => true | _ => false end | _ => false end.
Lemma late_error_ok (bm : BuildMode) (g : G) : late_error g = true -> unused_root_b g = true -> part_rejected g.
Proof.
  intros H Hu. unfold late_error in H. destruct (indexed_build 50 g) as [ig| | |] eqn:I; try discriminate.
  destruct (table_build ig 50) as [t|e| |] eqn:Et; try discriminate. split; [now apply build_indexes in I|]. split; [now apply unused_root_ok|].
  exists e. unfold parser_new. rewrite I. cbn [bind]. now rewrite Et.
Qed.

(** S -> e D A Y; D -> d; D -> d; A -> B c; Y -> t y; Y -> Z z; B -> C; Z -> t; C -> ! *)
Definition g_passes : G :=
  [mk_rule "S" [tk "e"; nt "D"; nt "A"; nt "Y"]; mk_rule "D" [tk "d"]; mk_rule "D" [tk "d"]; mk_rule "A" [nt "B"; tk "c"]; mk_rule "Y" [tk "t"; tk "y"];
   mk_rule "Y" [nt "Z"; tk "z"]; mk_rule "B" [nt "C"]; mk_rule "Z" [tk "t"]; mk_rule "C" [eps]].
(** ... without Y -> t y *)
Definition g_passes' : G :=
  [mk_rule "S" [tk "e"; nt "D"; nt "A"; nt "Y"]; mk_rule "D" [tk "d"]; mk_rule "D" [tk "d"]; mk_rule "A" [nt "B"; tk "c"];
   mk_rule "Y" [nt "Z"; tk "z"]; mk_rule "B" [nt "C"]; mk_rule "Z" [tk "t"]; mk_rule "C" [eps]].

Lemma fewer_rejected (bm : BuildMode) : exists (g g' : G) p, no_eos g /\ eps_trailing g /\ productive g /\ root_free g /\ parser_new 50 g = Ok p /\
  fewer_rules g' g /\ valid_grammar g' /\ root_free g' /\ exists e, parser_new 50 g' = Err e.
Proof.
  destruct (builds_ok bm g_passes) as (p & Hp); [destruct bm; vm_compute; reflexivity|]. exists g_passes, g_passes', p.
  split; [apply no_eos_ok; reflexivity|]. split; [apply eps_trailing_ok; reflexivity|]. split.
  { apply (productive_ok _ (fun i => let D := Node 1 [Leaf "d"] in let B := Node 6 [Node 8 []] in let A := Node 3 [B; Leaf "c"] in let Y := Node 4 [Leaf "t"; Leaf "y"] in
      nth i [Node 0 [Leaf "e"; D; A; Y]; D; D; A; Y; Y; B; Node 7 [Leaf "t"]; Node 8 []] (Leaf "")) 20). vm_compute. reflexivity. }
  split; [apply unused_root_ok; reflexivity|]. split; [exact Hp|]. split.
  { do 4 eexists. split; [reflexivity|]. split; [reflexivity|]. instantiate (1 := [mk_rule "Y" [tk "t"; tk "y"]]).
    cbn [app]. do 3 apply perm_skip. apply (Permutation_cons_append [_; _; _; _]). }
  apply late_error_ok; destruct bm; vm_compute; reflexivity.
Qed.

Lemma twice_root_rejected (bm : BuildMode) : exists (g g' : G) p, no_eos g /\ eps_trailing g /\ productive g /\ root_free g /\ parser_new 50 g = Ok p /\
  rules_for "X" g' g /\ valid_grammar g' /\ root_free g' /\ exists e, parser_new 50 g' = Err e.
Proof.
  destruct (builds_ok bm g_twice) as (p & Hp); [destruct bm; vm_compute; reflexivity|].
  exists g_twice, [mk_rule "R" [nt "X"]; mk_rule "X" [nt "B"; tk "x"]; mk_rule "X" [nt "B"; tk "x"]; mk_rule "B" [eps]], p.
  split; [apply no_eos_ok; reflexivity|]. split; [apply eps_trailing_ok; reflexivity|]. split.
  { apply (productive_ok _ (fun i => nth i [Node 0 [Node 1 [Node 4 []; Leaf "x"]; Node 3 [Node 4 []; Leaf "c"]]; Node 1 [Node 4 []; Leaf "x"]; Node 2 [Node 4 []; Leaf "x"]; Node 3 [Node 4 []; Leaf "c"]; Node 4 []] (Leaf "")) 10). vm_compute. reflexivity. }
  split; [apply unused_root_ok; reflexivity|]. split; [exact Hp|]. split.
  { do 3 eexists. split; [reflexivity|]. instantiate (1 := [mk_rule "A" [nt "B"; tk "c"]; mk_rule "S" [nt "X"; nt "A"]]). unfold g_twice. cbn [app].
    eapply perm_trans; [apply (Permutation_cons_append [_; _; _; _])|]. cbn [app]. do 2 apply perm_skip. apply perm_swap. }
  apply late_error_ok; destruct bm; vm_compute; reflexivity.
Qed.

Lemma endless_root_rejected (bm : BuildMode) : exists (g g' : G) p, no_eos g /\ eps_trailing g /\ first_complete g /\ root_free g /\ parser_new 50 g = Ok p /\
  rules_for "X" g' g /\ valid_grammar g' /\ root_free g' /\ exists e, parser_new 50 g' = Err e.
Proof.
  destruct (builds_ok bm g_endless) as (p & Hp); [destruct bm; vm_compute; reflexivity|].
  exists g_endless, [mk_rule "R" [nt "X"]; mk_rule "X" [tk "x"]; mk_rule "X" [tk "x"]], p.
  split; [apply no_eos_ok; reflexivity|]. split; [apply eps_trailing_ok; reflexivity|]. split; [apply direct_first_complete, (direct_b_ok _ []); reflexivity|].
  split; [apply unused_root_ok; reflexivity|]. split; [exact Hp|]. split.
  { do 3 eexists. split; [reflexivity|]. instantiate (1 := [mk_rule "U" [nt "U"; tk "u"]; mk_rule "S" [nt "X"; nt "U"]]). unfold g_endless. cbn [app].
    apply (Permutation_cons_append [_; _; _]). }
  apply late_error_ok; destruct bm; vm_compute; reflexivity.
Qed.

(** Statements, and the part for expressions: S -> P; P -> P i ; P -> !; i -> x = E ; ; i -> E ; ; E -> E + F; E -> F; F -> n; F -> ( E ) *)
Definition g_prog : G :=
  [mk_rule "S" [nt "P"]; mk_rule "P" [nt "P"; nt "I"]; mk_rule "P" [eps]; mk_rule "I" [tk "x"; tk "="; nt "E"; tk ";"]; mk_rule "I" [nt "E"; tk ";"];
   mk_rule "E" [nt "E"; tk "+"; nt "F"]; mk_rule "E" [nt "F"]; mk_rule "F" [tk "n"]; mk_rule "F" [tk "("; nt "E"; tk ")"]].
Definition g_prog_fewer : G :=
  [mk_rule "S" [nt "P"]; mk_rule "P" [nt "P"; nt "I"]; mk_rule "P" [eps]; mk_rule "I" [nt "E"; tk ";"];
   mk_rule "E" [nt "E"; tk "+"; nt "F"]; mk_rule "E" [nt "F"]; mk_rule "F" [tk "n"]].
Definition g_expr : G :=
  [mk_rule "R" [nt "E"]; mk_rule "E" [nt "E"; tk "+"; nt "F"]; mk_rule "E" [nt "F"]; mk_rule "F" [tk "n"]; mk_rule "F" [tk "("; nt "E"; tk ")"]].

Lemma prog_parts (bm : BuildMode) : exists p p' p2,
  no_eos g_prog /\ eps_trailing g_prog /\ first_complete g_prog /\ productive g_prog /\ root_free g_prog /\ parser_new 50 g_prog = Ok p /\
  fewer_rules g_prog_fewer g_prog /\ valid_grammar g_prog_fewer /\ root_free g_prog_fewer /\ parser_new 50 g_prog_fewer = Ok p' /\
  rules_for "E" g_expr g_prog /\ valid_grammar g_expr /\ root_free g_expr /\ parser_new 50 g_expr = Ok p2 /\
  parse_stream (E := Empty_set) 100 p ["n"; "+"; "n"; ";"; "n"; ";"] = Ok true /\ parse_stream (E := Empty_set) 100 p' ["n"; "+"; "n"; ";"; "n"; ";"] = Ok true /\
  parse_stream (E := Empty_set) 100 p2 ["n"; "+"; "("; "n"; ")"] = Ok true.
Proof.
  destruct (builds_ok bm g_prog) as (p & Hp); [destruct bm; vm_compute; reflexivity|].
  destruct (builds_ok bm g_prog_fewer) as (p' & Hp'); [destruct bm; vm_compute; reflexivity|].
  destruct (builds_ok bm g_expr) as (p2 & Hp2); [destruct bm; vm_compute; reflexivity|].
  exists p, p', p2.
  split; [apply no_eos_ok; reflexivity|]. split; [apply eps_trailing_ok; reflexivity|]. split; [apply direct_first_complete, (direct_b_ok _ ["P"; "S"]); reflexivity|]. split.
  { apply (productive_ok _ (fun i => let F := Node 7 [Leaf "n"] in let E := Node 6 [F] in let I := Node 4 [E; Leaf ";"] in let P := Node 2 [] in
      nth i [Node 0 [P]; P; P; I; I; E; E; F; F] (Leaf "")) 20). vm_compute. reflexivity. }
  split; [apply unused_root_ok; reflexivity|]. split; [exact Hp|]. split.
  { do 4 eexists. split; [reflexivity|]. split; [reflexivity|]. instantiate (1 := [mk_rule "F" [tk "("; nt "E"; tk ")"]; mk_rule "I" [tk "x"; tk "="; nt "E"; tk ";"]]).
    cbn [app]. do 2 apply perm_skip. apply (Permutation_cons_append [_; _; _; _; _]). }
  split; [eapply built_valid; eauto|]. split; [apply unused_root_ok; reflexivity|]. split; [exact Hp'|]. split.
  { do 3 eexists. split; [reflexivity|]. instantiate (1 := [mk_rule "S" [nt "P"]; mk_rule "P" [nt "P"; nt "I"]; mk_rule "P" [eps]; mk_rule "I" [tk "x"; tk "="; nt "E"; tk ";"]; mk_rule "I" [nt "E"; tk ";"]]).
    unfold g_prog. apply (Permutation_app_comm [_; _; _; _; _] [_; _; _; _]). }
  split; [eapply built_valid; eauto|]. split; [apply unused_root_ok; reflexivity|]. split; [exact Hp2|].
  destruct bm; vm_compute in Hp, Hp', Hp2; injection Hp as <-; injection Hp' as <-; injection Hp2 as <-; vm_compute; repeat split.
Qed.
