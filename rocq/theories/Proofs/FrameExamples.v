(** Grammars between tokens: where the statements fail, and an example. *)
From Coq Require Import Arith Bool String List.
From Verif Require Import Base.Prelude Spec.Grammar Spec.Validity Spec.Nullable Spec.Observers Spec.LR1 Spec.Frame Model.Error.
From Verif Require Import Model.IndexedGrammar Model.FirstMap Model.LRTable Model.ParseSimulator.
From Verif Require Import Proofs.Refutations Proofs.LR1Refute Proofs.LR1Final Proofs.RedundantMacro Proofs.PartsExamples.
Import ListNotations.
Open Scope string_scope.

Definition in_brackets (g : G) : G := match g with r :: _ => mk_rule "R" [tk "("; nt (symbol r); tk ")"] :: g | [] => [] end.
Definition new_label_b (s : string) (g : G) : bool :=
  forallb (fun r => negb (String.eqb (symbol r) s) && forallb (fun nd => match nd with Production l => negb (String.eqb l s) | _ => true end) (rhs r)) g.
Definition new_token_b (t : string) (g : G) : bool :=
  forallb (fun r => forallb (fun nd => match nd with Terminal (Token t') => negb (String.eqb t' t) | _ => true end) (rhs r)) g.
Lemma new_label_ok s g : new_label_b s g = true -> new_label s g.
Proof.
  unfold new_label_b. rewrite forallb_forall. intros F r Hr. specialize (F r Hr). apply andb_prop in F as (F1 & F2). rewrite forallb_forall in F2. split.
  - intros E. rewrite E, String.eqb_refl in F1. discriminate.
  - intros Hu. specialize (F2 _ Hu). cbn in F2. rewrite String.eqb_refl in F2. discriminate.
Qed.
Lemma new_token_ok t g : new_token_b t g = true -> new_token t g.
Proof.
  unfold new_token_b. rewrite forallb_forall. intros F r Hr Hin. specialize (F r Hr). rewrite forallb_forall in F. specialize (F _ Hin). cbn in F. rewrite String.eqb_refl in F. discriminate.
Qed.
Lemma closed_ok t v g : new_token_b t g = true -> closed_by_new (t :: v) g.
Proof. intros F x E. injection E as <-. now apply new_token_ok. Qed.
Lemma brackets_framed r g : framed "R" ["("] [")"] (in_brackets (r :: g)) (r :: g).
Proof. exists r, g. split; reflexivity. Qed.

Lemma framed_rejected (bm : BuildMode) : exists (g g' : G) p, no_eos g /\ eps_trailing g /\ productive g /\ root_free g /\ parser_new 50 g = Ok p /\
  framed "R" ["("] [")"] g' g /\ new_label "R" g /\ closed_by_new [")"] g /\ exists e, parser_new 50 g' = Err e.
Proof.
  destruct (builds_ok bm g_ambig) as (p & Hp); [destruct bm; vm_compute; reflexivity|]. exists g_ambig, (in_brackets g_ambig), p.
  split; [apply no_eos_ok; reflexivity|]. split; [apply eps_trailing_ok; reflexivity|]. split.
  { apply (productive_ok _ (fun i => nth i [Node 0 [Node 1 [Node 3 []; Node 5 [Node 6 []; Leaf "c"]]]; Node 1 [Node 3 []; Node 5 [Node 6 []; Leaf "c"]];
      Node 2 [Node 4 []; Node 5 [Node 6 []; Leaf "c"]]; Node 3 []; Node 4 []; Node 5 [Node 6 []; Leaf "c"]; Node 6 []] (Leaf "")) 10). vm_compute. reflexivity. }
  split; [apply unused_root_ok; reflexivity|]. split; [exact Hp|]. split; [apply brackets_framed|]. split; [apply new_label_ok; reflexivity|]. split; [apply closed_ok; reflexivity|].
  apply late_error_ok; [destruct bm; vm_compute; reflexivity|reflexivity].
Qed.

(** S -> A; A -> a; A -> a b *)
Definition g_ab : G := [mk_rule "S" [nt "A"]; mk_rule "A" [tk "a"]; mk_rule "A" [tk "a"; tk "b"]].
Lemma used_token_rejected (bm : BuildMode) : exists (g g' : G) p, no_eos g /\ eps_trailing g /\ first_complete g /\ productive g /\ root_free g /\ parser_new 50 g = Ok p /\
  framed "R" [] ["b"] g' g /\ new_label "R" g /\ exists e, parser_new 50 g' = Err e.
Proof.
  destruct (builds_ok bm g_ab) as (p & Hp); [destruct bm; vm_compute; reflexivity|]. exists g_ab, (mk_rule "R" [nt "S"; tk "b"] :: g_ab), p.
  split; [apply no_eos_ok; reflexivity|]. split; [apply eps_trailing_ok; reflexivity|]. split; [apply direct_first_complete, (direct_b_ok _ []); reflexivity|]. split.
  { apply (productive_ok _ (fun i => nth i [Node 0 [Node 1 [Leaf "a"]]; Node 1 [Leaf "a"]; Node 1 [Leaf "a"]] (Leaf "")) 10). vm_compute. reflexivity. }
  split; [apply unused_root_ok; reflexivity|]. split; [exact Hp|]. split; [eexists _, _; split; reflexivity|]. split; [apply new_label_ok; reflexivity|].
  apply late_error_ok; [destruct bm; vm_compute; reflexivity|reflexivity].
Qed.

Lemma framed_word_fails (bm : BuildMode) : exists (g g' : G) p p' w, no_eos g /\ eps_trailing g /\ productive g /\ root_free g /\ parser_new 50 g = Ok p /\
  framed "R" ["("] [")"] g' g /\ new_label "R" g /\ closed_by_new [")"] g /\ parser_new 50 g' = Ok p' /\
  parse_stream (E := Empty_set) 50 p' (["("] ++ w ++ [")"]) = Ok true /\ parse_stream (E := Empty_set) 50 p w = Ok false.
Proof.
  destruct (builds_ok bm g_first) as (p & Hp); [destruct bm; vm_compute; reflexivity|].
  destruct (builds_ok bm (in_brackets g_first)) as (p' & Hp'); [destruct bm; vm_compute; reflexivity|]. exists g_first, (in_brackets g_first), p, p', w_first.
  split; [apply no_eos_ok; reflexivity|]. split; [apply eps_trailing_ok; reflexivity|]. split.
  { apply (productive_ok _ (fun i => nth i [t_first; Node 1 [Node 2 []; Leaf "c"]; Node 2 []] (Leaf "")) 10). vm_compute. reflexivity. }
  split; [apply unused_root_ok; reflexivity|]. split; [exact Hp|]. split; [apply brackets_framed|]. split; [apply new_label_ok; reflexivity|]. split; [apply closed_ok; reflexivity|].
  split; [exact Hp'|]. destruct bm; vm_compute in Hp, Hp'; injection Hp as <-; injection Hp' as <-; vm_compute; split; reflexivity.
Qed.

(** Sums (with brackets of their own), and sums as programs: S -> F A; A -> + F A; A -> !; F -> n; F -> ( S2 ); S2 -> F A *)
Definition g_sum : G :=
  [mk_rule "S" [nt "F"; nt "A"]; mk_rule "A" [tk "+"; nt "F"; nt "A"]; mk_rule "A" [eps]; mk_rule "F" [tk "n"]; mk_rule "F" [tk "("; nt "S2"; tk ")"]; mk_rule "S2" [nt "F"; nt "A"]].
Definition g_main : G := mk_rule "R" [tk "main"; tk "{"; nt "S"; tk "}"; tk "("; tk ")"] :: g_sum.
Lemma sum_framed (bm : BuildMode) : exists p p',
  no_eos g_sum /\ eps_trailing g_sum /\ first_complete g_sum /\ root_free g_sum /\
  (forall root rest, g_sum = root :: rest -> ~ uses root (symbol root) /\ Forall (root_clean (symbol root)) rest) /\
  parser_new 50 g_sum = Ok p /\ framed "R" ["main"; "{"] ["}"; "("; ")"] g_main g_sum /\ new_label "R" g_sum /\ closed_by_new ["}"; "("; ")"] g_sum /\
  first_complete g_main /\ parser_new 50 g_main = Ok p' /\
  parse_stream (E := Empty_set) 100 p ["n"; "+"; "("; "n"; ")"] = Ok true /\
  parse_stream (E := Empty_set) 100 p' ["main"; "{"; "n"; "+"; "("; "n"; ")"; "}"; "("; ")"] = Ok true /\
  parse_stream (E := Empty_set) 100 p' ["n"; "+"; "n"] = Ok false.
Proof.
  destruct (builds_ok bm g_sum) as (p & Hp); [destruct bm; vm_compute; reflexivity|].
  destruct (builds_ok bm g_main) as (p' & Hp'); [destruct bm; vm_compute; reflexivity|]. exists p, p'.
  split; [apply no_eos_ok; reflexivity|]. split; [apply eps_trailing_ok; reflexivity|]. split; [apply direct_first_complete, (direct_b_ok _ ["A"]); reflexivity|].
  assert (Hr : root_free g_sum) by (apply unused_root_ok; reflexivity). split; [exact Hr|]. split.
  { intros root rest E. assert (Hv : valid_grammar g_sum) by (eapply built_valid; exact Hp). destruct Hv as (r1 & rest1 & E1 & Hc & _). rewrite E in E1. injection E1 as <- <-. split; [apply Hr; now rewrite E|exact Hc]. }
  split; [exact Hp|]. split; [eexists _, _; split; reflexivity|]. split; [apply new_label_ok; reflexivity|]. split; [apply closed_ok; reflexivity|].
  split; [apply direct_first_complete, (direct_b_ok _ ["A"]); reflexivity|]. split; [exact Hp'|].
  destruct bm; vm_compute in Hp, Hp'; injection Hp as <-; injection Hp' as <-; vm_compute; repeat split.
Qed.
