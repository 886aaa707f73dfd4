(** Inputs of [grammar!] that say something twice, and examples of redundant grammars. *)
From Coq Require Import Arith Bool String Ascii NArith List Lia.
From Verif Require Import Base.Prelude Spec.Grammar Spec.Validity Spec.Nullable Spec.Observers Spec.LR1 Spec.Redundant Model.Error.
From Verif Require Import Model.IndexedGrammar Model.FirstMap Model.LRTable Model.ParseSimulator.
From Verif Require Import Model.TokenTree Model.Terminal Model.Constructor Model.CodeGen Model.Emit Model.Symbol Model.FrontEnd Model.Diagnostics Model.Expand.
From Verif Require Import Spec.Macro Spec.Diagnostics Spec.Expansion Spec.Values Spec.MacroPanic.
From Verif Require Import Proofs.Refutations Proofs.LR1Refute Proofs.LR1Final Proofs.MacroMain Proofs.ExpandMain Proofs.Redundant.
From Verif Require Import Proofs.GenExamples Proofs.MacroExamples Proofs.DiagnosticsExamples Proofs.ExpandExamples Proofs.MacroRefute.
Import ListNotations.
Open Scope string_scope.
Open Scope list_scope.

Section Macro.
Context {bm : BuildMode} {span : Type} (call_site : span) (join_spans : span -> span -> option span) (print : list ttree -> string)
  (lex_error : string -> string) (literal_ok : string -> bool) (ho : hash_orders) (Ho : orders_ok ho).

Lemma item_parser fuel ts em : Expand.grammar span call_site join_spans print lex_error literal_ok ho fuel ts = Ok (Item span em) \/
  pub_grammar span call_site join_spans print lex_error literal_ok ho fuel ts = Ok (Item span em) ->
  exists d p, parse_declarations print (tokenize_from_stream (trees ts)) = Ok d /\ parser_new fuel (source (d_rules d)) = Ok p.
Proof.
  intros H. apply macros_item in H as (vis & H). destruct (expand_built _ _ _ _ _ _ _ _ _ _ Ho H) as (d & p & P & _ & B & _). exists d.
  unfold build_grammar in B. rewrite parse_grammar_new, P in B. cbn [bind] in B.
  destruct (parser_new fuel (source (d_rules d))) as [q| | |] eqn:E; try discriminate. eauto.
Qed.

Lemma trailing_source ts d : parse_declarations print (tokenize_from_stream ts) = Ok d -> eps_trailing (source (d_rules d)).
Proof.
  intros P r Hr ns1 ns2 nd Hns Hin. destruct (read_grammar print ts d P) as (_ & H). destruct (H r Hr) as (_ & E).
  assert (Hy : In (Terminal Epsilon) (rhs r)) by (rewrite Hns; apply in_or_app; simpl; auto). rewrite (E Hy) in Hns.
  destruct ns1 as [|? [|? ?]]; simpl in Hns; try discriminate. injection Hns as <-. destruct Hin.
Qed.

Lemma redundant_input ts d : parse_declarations print (tokenize_from_stream (trees ts)) = Ok d ->
  first_complete (source (d_rules d)) -> productive (source (d_rules d)) -> redundant (source (d_rules d)) ->
  (forall fuel em, Expand.grammar span call_site join_spans print lex_error literal_ok ho fuel ts <> Ok (Item span em) /\
     pub_grammar span call_site join_spans print lex_error literal_ok ho fuel ts <> Ok (Item span em)) /\
  (~ panic_cause d -> exists N, forall fuel, N < fuel -> exists e, Expand.grammar span call_site join_spans print lex_error literal_ok ho fuel ts = Ok (CompileError span e)).
Proof.
  intros P Hc Hp Hr.
  assert (G : forall fuel em, ~ (Expand.grammar span call_site join_spans print lex_error literal_ok ho fuel ts = Ok (Item span em) \/
    pub_grammar span call_site join_spans print lex_error literal_ok ho fuel ts = Ok (Item span em))).
  { intros fuel em H. apply item_parser in H as (d' & p & P' & E). rewrite P in P'. injection P' as <-.
    revert E. apply redundant_rejected; auto; [apply no_eos_source|eapply trailing_source; eauto]. }
  split; [intros fuel em; split; intros E; apply (G fuel em); auto|].
  intros Hn. destruct (macros_return call_site join_spans print lex_error literal_ok ho Ho ts) as (N & HN). exists N. intros fuel Hf.
  destruct (HN fuel Hf) as [([em|e] & E)|(w & d' & _ & P' & Hx)]; [destruct (G fuel em); auto|eauto|]. rewrite P in P'. injection P' as <-. contradiction.
Qed.
End Macro.

(** ** Examples *)
(** S -> X A; X -> B x; X -> B x; A -> B c; B -> ! *)
Definition g_twice : G := [mk_rule "S" [nt "X"; nt "A"]; mk_rule "X" [nt "B"; tk "x"]; mk_rule "X" [nt "B"; tk "x"]; mk_rule "A" [nt "B"; tk "c"]; mk_rule "B" [eps]].
(** S -> X A; X -> B x; X -> X; A -> B c; B -> ! *)
Definition g_cycle : G := [mk_rule "S" [nt "X"; nt "A"]; mk_rule "X" [nt "B"; tk "x"]; mk_rule "X" [nt "X"]; mk_rule "A" [nt "B"; tk "c"]; mk_rule "B" [eps]].
(** S -> X U; X -> x; X -> x; U -> U u *)
Definition g_endless : G := [mk_rule "S" [nt "X"; nt "U"]; mk_rule "X" [tk "x"]; mk_rule "X" [tk "x"]; mk_rule "U" [nt "U"; tk "u"]].
Definition root_free (g : G) : Prop := forall r, nth_error g 0 = Some r -> ~ uses r (symbol r).

Definition unused_root_b (g : G) : bool :=
  match g with r :: _ => forallb (fun n => match n with Production l => negb (String.eqb l (symbol r)) | _ => true end) (rhs r) | [] => true end.
Lemma unused_root_ok g : unused_root_b g = true -> root_free g.
Proof.
  destruct g as [|r0 g]; intros F r Hr Hin; [discriminate|]. injection Hr as ->. simpl in F. rewrite forallb_forall in F.
  specialize (F _ Hin). simpl in F. rewrite String.eqb_refl in F. discriminate.
Qed.

Lemma twice_accepted (bm : BuildMode) : exists (g : G) p, no_eos g /\ eps_trailing g /\ productive g /\ valid_grammar g /\
  (forall r, nth_error g 0 = Some r -> ~ uses r (symbol r)) /\ written_twice g /\ parser_new 50 g = Ok p.
Proof.
  destruct (builds_ok bm g_twice) as (p & Hp); [destruct bm; vm_compute; reflexivity|]. exists g_twice, p.
  split; [apply no_eos_ok; reflexivity|]. split; [apply eps_trailing_ok; reflexivity|]. split.
  { apply (productive_ok _ (fun i => nth i [Node 0 [Node 1 [Node 4 []; Leaf "x"]; Node 3 [Node 4 []; Leaf "c"]]; Node 1 [Node 4 []; Leaf "x"]; Node 2 [Node 4 []; Leaf "x"]; Node 3 [Node 4 []; Leaf "c"]; Node 4 []] (Leaf "")) 10). vm_compute. reflexivity. }
  split; [eapply built_valid; eauto|]. split; [apply unused_root_ok; reflexivity|]. split; auto.
  exists 1, 2, (mk_rule "X" [nt "B"; tk "x"]), (mk_rule "X" [nt "B"; tk "x"]). repeat split. discriminate.
Qed.

Lemma cycle_accepted (bm : BuildMode) : exists (g : G) p, no_eos g /\ eps_trailing g /\ productive g /\ valid_grammar g /\
  (forall r, nth_error g 0 = Some r -> ~ uses r (symbol r)) /\ derives_itself g /\ parser_new 50 g = Ok p.
Proof.
  destruct (builds_ok bm g_cycle) as (p & Hp); [destruct bm; vm_compute; reflexivity|]. exists g_cycle, p.
  split; [apply no_eos_ok; reflexivity|]. split; [apply eps_trailing_ok; reflexivity|]. split.
  { apply (productive_ok _ (fun i => nth i [Node 0 [Node 1 [Node 4 []; Leaf "x"]; Node 3 [Node 4 []; Leaf "c"]]; Node 1 [Node 4 []; Leaf "x"]; Node 1 [Node 4 []; Leaf "x"]; Node 3 [Node 4 []; Leaf "c"]; Node 4 []] (Leaf "")) 10). vm_compute. reflexivity. }
  split; [eapply built_valid; eauto|]. split; [apply unused_root_ok; reflexivity|]. split; auto.
  exists (mk_rule "X" [nt "X"]). split; [simpl; auto|apply steps_refl].
Qed.

Lemma endless_accepted (bm : BuildMode) : exists (g : G) p, no_eos g /\ eps_trailing g /\ first_complete g /\ valid_grammar g /\
  (forall r, nth_error g 0 = Some r -> ~ uses r (symbol r)) /\ written_twice g /\ parser_new 50 g = Ok p.
Proof.
  destruct (builds_ok bm g_endless) as (p & Hp); [destruct bm; vm_compute; reflexivity|]. exists g_endless, p.
  split; [apply no_eos_ok; reflexivity|]. split; [apply eps_trailing_ok; reflexivity|].
  split; [apply direct_first_complete, (direct_b_ok _ []); reflexivity|].
  split; [eapply built_valid; eauto|]. split; [apply unused_root_ok; reflexivity|]. split; auto.
  exists 1, 2, (mk_rule "X" [tk "x"]), (mk_rule "X" [tk "x"]). repeat split. discriminate.
Qed.

(** S -> L; L -> a L; L -> !; L -> a L ! *)
Definition g_list : G := [mk_rule "S" [nt "L"]; mk_rule "L" [tk "a"; nt "L"]; mk_rule "L" [eps]; mk_rule "L" [tk "a"; nt "L"; eps]].
(** S -> E; E -> n; E -> F; F -> E O; O -> !; O -> o *)
Definition g_round : G := [mk_rule "S" [nt "E"]; mk_rule "E" [tk "n"]; mk_rule "E" [nt "F"]; mk_rule "F" [nt "E"; nt "O"]; mk_rule "O" [eps]; mk_rule "O" [tk "o"]].

Lemma list_twice (bm : BuildMode) : no_eos g_list /\ eps_trailing g_list /\ first_complete g_list /\ productive g_list /\ root_free g_list /\ written_twice g_list /\
  parser_new 50 g_list = Err (ReduceConflict 3 1 EndOfStream).
Proof.
  split; [apply no_eos_ok; reflexivity|]. split; [apply eps_trailing_ok; reflexivity|].
  split; [apply direct_first_complete, (direct_b_ok _ ["L"; "S"]); reflexivity|]. split.
  { apply (productive_ok _ (fun i => nth i [Node 0 [Node 2 []]; Node 2 []; Node 2 []; Node 2 []] (Leaf "")) 10). vm_compute. reflexivity. }
  split; [apply unused_root_ok; reflexivity|]. split.
  - exists 1, 3, (mk_rule "L" [tk "a"; nt "L"]), (mk_rule "L" [tk "a"; nt "L"; eps]). repeat split. discriminate.
  - destruct bm; vm_compute; reflexivity.
Qed.

Lemma round_itself (bm : BuildMode) : no_eos g_round /\ eps_trailing g_round /\ first_complete g_round /\ productive g_round /\ root_free g_round /\ derives_itself g_round /\
  exists e, parser_new 50 g_round = Err e.
Proof.
  split; [apply no_eos_ok; reflexivity|]. split; [apply eps_trailing_ok; reflexivity|].
  split; [apply direct_first_complete, (direct_b_ok _ ["O"]); reflexivity|]. split.
  { apply (productive_ok _ (fun i => nth i [Node 0 [Node 1 [Leaf "n"]]; Node 1 [Leaf "n"]; Node 1 [Leaf "n"]; Node 3 [Node 1 [Leaf "n"]; Node 4 []]; Node 4 []; Node 4 []] (Leaf "")) 10). vm_compute. reflexivity. }
  split; [apply unused_root_ok; reflexivity|]. split.
  - exists (mk_rule "E" [nt "F"]). split; [simpl; auto|]. cbn [rhs symbol].
    eapply steps_step; [apply (step_rule g_round [] (mk_rule "F" [nt "E"; nt "O"]) []); simpl; tauto|]. cbn.
    eapply steps_step; [apply (step_rule g_round [nt "E"] (mk_rule "O" [eps]) []); simpl; tauto|]. cbn.
    eapply steps_step; [apply (step_epsilon g_round [nt "E"] [])|]. apply steps_refl.
  - destruct bm; eexists; vm_compute; reflexivity.
Qed.

(** S -> C; C -> i C; C -> i C e C; C -> c *)
Definition g_else : G := [mk_rule "S" [nt "C"]; mk_rule "C" [tk "i"; nt "C"]; mk_rule "C" [tk "i"; nt "C"; tk "e"; nt "C"]; mk_rule "C" [tk "c"]].
Lemma else_two_ways (bm : BuildMode) : no_eos g_else /\ eps_trailing g_else /\ first_complete g_else /\ productive g_else /\ root_free g_else /\ two_ways g_else /\
  exists e, parser_new 50 g_else = Err e.
Proof.
  split; [apply no_eos_ok; reflexivity|]. split; [apply eps_trailing_ok; reflexivity|].
  split; [apply direct_first_complete, (direct_b_ok _ []); reflexivity|]. split.
  { apply (productive_ok _ (fun i => nth i [Node 0 [Node 3 [Leaf "c"]]; Node 3 [Leaf "c"]; Node 3 [Leaf "c"]; Node 3 [Leaf "c"]] (Leaf "")) 10). vm_compute. reflexivity. }
  split; [apply unused_root_ok; reflexivity|]. split.
  - exists "C", ["i"; "i"; "c"; "e"; "c"],
      (Node 1 [Leaf "i"; Node 2 [Leaf "i"; Node 3 [Leaf "c"]; Leaf "e"; Node 3 [Leaf "c"]]]),
      (Node 2 [Leaf "i"; Node 1 [Leaf "i"; Node 3 [Leaf "c"]]; Leaf "e"; Node 3 [Leaf "c"]]).
    assert (Dc : derives g_else [nt "C"] ["c"] [Node 3 [Leaf "c"]])
      by (apply (derives_production g_else 3 (mk_rule "C" [tk "c"]) [Leaf "c"] ["c"] [] [] []); [reflexivity|repeat constructor|constructor]).
    split; [|split; [|discriminate]].
    + apply (derives_production g_else 1 (mk_rule "C" [tk "i"; nt "C"]) [Leaf "i"; Node 2 [Leaf "i"; Node 3 [Leaf "c"]; Leaf "e"; Node 3 [Leaf "c"]]] ["i"; "i"; "c"; "e"; "c"] [] [] []);
        [reflexivity| |constructor]. cbn [rhs]. constructor.
      apply (derives_production g_else 2 (mk_rule "C" [tk "i"; nt "C"; tk "e"; nt "C"]) [Leaf "i"; Node 3 [Leaf "c"]; Leaf "e"; Node 3 [Leaf "c"]] ["i"; "c"; "e"; "c"] [] [] []);
        [reflexivity| |constructor]. cbn [rhs]. constructor. apply (Proofs.Machine.derives_app g_else [nt "C"] ["c"] [_] [tk "e"; nt "C"] ["e"; "c"] [_; _]); auto. now constructor.
    + apply (derives_production g_else 2 (mk_rule "C" [tk "i"; nt "C"; tk "e"; nt "C"]) [Leaf "i"; Node 1 [Leaf "i"; Node 3 [Leaf "c"]]; Leaf "e"; Node 3 [Leaf "c"]] ["i"; "i"; "c"; "e"; "c"] [] [] []);
        [reflexivity| |constructor]. cbn [rhs]. constructor. apply (Proofs.Machine.derives_app g_else [nt "C"] ["i"; "c"] [_] [tk "e"; nt "C"] ["e"; "c"] [_; _]); [|now constructor].
      apply (derives_production g_else 1 (mk_rule "C" [tk "i"; nt "C"]) [Leaf "i"; Node 3 [Leaf "c"]] ["i"; "c"] [] [] []); [reflexivity| |constructor]. cbn [rhs]. now constructor.
  - destruct bm; eexists; vm_compute; reflexivity.
Qed.

(** <S> => <L>; <L> => A <L> | ! | A <L>; *)
Definition twice_input : list ttree := calc_head ++ declares "S" [[ref "L"]] ++ declares "L" [[tok_of "A"; ref "L"]; [nothing]; [tok_of "A"; ref "L"]].
Lemma twice_input_ok (bm : BuildMode) :
  parse_declarations show (tokenize_from_stream (trees (placed 1 twice_input))) = Ok (decls_of twice_input) /\
  first_complete (source (d_rules (decls_of twice_input))) /\ productive (source (d_rules (decls_of twice_input))) /\
  written_twice (source (d_rules (decls_of twice_input))) /\ ~ panic_cause (decls_of twice_input) /\
  exists e, expand_at bm 50 (placed 1 twice_input) = Ok (CompileError place e).
Proof.
  split; [rewrite placed_trees; vm_compute; reflexivity|].
  split; [apply direct_first_complete, (direct_b_ok _ ["L"; "S"]); vm_compute; reflexivity|]. split.
  { apply (productive_ok' _ (fun i => nth i [Node 0 [Node 2 []]; Node 2 []; Node 2 []; Node 2 []] (Node 0 [])) 10). vm_compute. reflexivity. }
  split.
  - exists 1, 3. eexists _, _. split; [discriminate|]. split; [vm_compute; reflexivity|]. split; [vm_compute; reflexivity|]. split; reflexivity.
  - split.
    + intros [(r & Hr & Hi)|(s & ty & Hs & _ & Hc)].
      * vm_compute in Hr. injection Hr as <-. destruct Hi as [E|[]]; discriminate E.
      * destruct Hs as (r & Hr & Hs). destruct Hc as (n & Hc). cut (Forall (fun r => Forall (fun n => match n with PNSymbol s => sname s = "A" | _ => True end) (pr_nodes r)) (d_rules (decls_of twice_input))).
        -- rewrite Forall_forall. intros F. specialize (F r Hr). rewrite Forall_forall in F. specialize (F _ Hs). cbn in F. rewrite F in Hc. discriminate.
        -- vm_compute. repeat constructor.
    + destruct bm; eexists; vm_compute; reflexivity.
Qed.
