(** Grammars of the tests whose constructors or streams fail: what is known of all of
    them (C69). *)
From Coq Require Import Arith Bool String Ascii NArith List Lia.
From Verif Require Import Base.Prelude Spec.Grammar Spec.Nullable Spec.Observers Model.Error.
From Verif Require Import Model.TokenTree Model.Terminal Model.Constructor Model.CodeGen Model.Runtime Model.Symbol Model.FrontEnd.
From Verif Require Import Model.Diagnostics Model.CodeGenDiagnostics Model.Rust Model.Emit Model.Expand Model.TestGrammars.
From Verif Require Import Spec.Values Spec.Substitution Spec.Macro Spec.Diagnostics Spec.EmittedCode Spec.EmittedNames Spec.Expansion Spec.Meaning Spec.FailingStreams Spec.TestLanguages Spec.TestFailures.
From Verif Require Import Proofs.Refutations Proofs.LR1Final Proofs.GenExamples Proofs.MacroMain Proofs.MacroExamples Proofs.DiagnosticsExamples Proofs.ExpandExamples Proofs.EmitExamples Proofs.MacroRefute Proofs.FailStreams Proofs.TestGrammars Proofs.TestLanguages.
Import ListNotations.
Open Scope string_scope.
Open Scope list_scope.

(** ** The words of a grammar, whatever its constructors do: the same grammar with
    constructors that cannot fail *)
Definition total_rust (R : rust) : rust :=
  mk_rust (Raw R) (Pay R) unit Empty_set (Raw_dec R) (literal_value R) (pat_matches R) (fun _ _ _ => inl RUnit) (fun _ v => inl v).
Definition is_word (R : rust) (gi : grammar_info) (ts : list (tok R)) : Prop := exists v, input_means (total_rust R) gi ts v.

Section Words.
Variable R : rust.
Variable gi : grammar_info.
Hypothesis Hall : forall s, terminal_in (gi_rules gi) s -> exists k, sym_matches R gi s k = true.

Lemma viable_wrong ts n : n <= List.length ts -> begins_sentence R gi (firstn n ts) ->
  (n < List.length ts -> ~ begins_sentence R gi (firstn (S n) ts)) -> first_wrong (is_word R gi) ts (nth_error ts n).
Proof.
  intros H1 H2 H3. destruct (error_wrong (total_rust R) gi ltac:(intros []) Hall ts (ParseError (total_rust R) (nth_error ts n))) as (o & E & Ho).
  - right. exists n. split; [exact H1|]. split; [reflexivity|]. split; [intros []|]. split; [exact H2|exact H3].
  - injection E as <-. exact Ho.
Qed.

Lemma viable_word ts : begins_sentence R gi ts -> exists rest, is_word R gi (ts ++ rest).
Proof.
  intros H. destruct (viable_wrong ts (List.length ts) (le_n _)) as (n & H1 & H2 & (rest & H3) & H4).
  - now rewrite firstn_all.
  - lia.
  - assert (n = List.length ts). { rewrite (proj2 (nth_error_None ts (List.length ts)) (le_n _)) in H2. symmetry in H2. apply nth_error_None in H2. lia. }
    subst n. rewrite firstn_all in H3. eauto.
Qed.

Hypothesis Hval : forall i vars, exists v, rule_value R gi i vars = inl v.
Lemma never_fails : (forall l ts rest u, label_fails R gi l ts rest u -> False) /\ (forall ns ts rest u, nodes_fail R gi ns ts rest u -> False).
Proof.
  apply FailMain.label_fails_ind2; auto. intros i r ts vs u _ _ Hv. destruct (Hval i (combine (node_indices (pr_nodes r)) vs)) as (v & E). rewrite E in Hv. discriminate.
Qed.
Lemma input_never ts rest u : ~ input_fails R gi ts rest u.
Proof.
  intros (r & _ & [H|(_ & vs & _ & Hv)]); [exact (proj2 never_fails _ _ _ _ H)|]. destruct (Hval 0 (combine (node_indices (pr_nodes r)) vs)) as (v & E). rewrite E in Hv. discriminate.
Qed.
Lemma constructor_never ts u : ~ constructor_fails R gi ts u.
Proof. intros (n & rest & _ & H & _). exact (input_never _ _ _ H). Qed.
Lemma within_never ts u : ~ fails_within R gi ts u.
Proof. intros (n & rest & _ & H & _). exact (input_never _ _ _ H). Qed.
End Words.

Section Results.
Variable input : list ttree.
Variable nullable : list string.
Variable gi : grammar_info.
Hypothesis Hgi : decl_gi (decls_of input) = gi.
Hypothesis Hparsed : parsed_b input = true.
Hypothesis Husable : usable_b (gi_rules gi) nullable = true.
Variable R : rust.
Variable table : list (reading (Raw R) (Pay R) (UVal R) (UErr R)).
Hypothesis Hctor : forall i body vars, user_ctor R i body vars = read_ctor table i body vars.
Hypothesis Hnamed : named_b table = true.
Hypothesis Hall : forall s, terminal_in (gi_rules gi) s -> exists k, sym_matches R gi s k = true.
Hypothesis Hdistinct : distinct_b R gi = true.
Context {X : Type}.
Variable f : X -> tok R.
Hypothesis Hf : forall x y, f x = f y -> x = y.
Variable W : list X -> Prop.
Hypothesis HW : forall ts, is_word R gi ts <-> exists xs, ts = map f xs /\ W xs.
Variable L : list X -> val R -> Prop.
Hypothesis HL : forall xs v, input_means R gi (map f xs) v <-> L xs v.
Hypothesis Hone : forall xs v v', L xs v -> L xs v' -> v = v'.
Variable F : list X -> UErr R -> Prop.
Hypothesis HF : forall xs u, constructor_fails R gi (map f xs) u <-> F xs u.

Theorem test_fallible (bm : BuildMode) em : item_of bm input em ->
  exists n, forall (bmr : BuildMode) (E SErr : Type) (into : SErr -> UErr R) xs fuel, n * S (List.length xs) <= fuel ->
  let m := run_emitted (bm := bmr) R into (of_list (map f xs)) (read_body table) fuel em : Rust.result (E := E) R in
  (forall v, L xs v -> gives_value R m v) /\ (forall u, F xs u -> gives_error R m (UserError R u)) /\
  ((forall v, ~ L xs v) -> (forall u, ~ F xs u) -> exists o, first_wrong W xs o /\ gives_error R m (ParseError R (option_map f o))).
Proof.
  intros Hem. pose proof Husable as Hus. rewrite <- Hgi in Hus. destruct (test_outcome input nullable Hparsed Hus R table Hctor Hnamed bm em Hem) as (n & Hn). rewrite Hgi in Hn.
  exists n. intros bmr E SErr into xs fuel Hfu m. specialize (Hn bmr E SErr into (map f xs) fuel (distinct_ok R gi _ Hdistinct)). rewrite map_length in Hn. specialize (Hn Hfu). fold m in Hn.
  destruct Hn as (Hn & Hc). split; [|split; [intros u Hu; apply Hc; now apply HF|]].
  - destruct Hn as [(v & H1 & H2)|(H1 & _)]; intros v' H; [|apply HL in H; destruct (H1 v' H)]. apply HL in H1. now rewrite (Hone _ _ _ H H1).
  - intros NL NF. destruct Hn as [(v & H1 & H2)|(H1 & e & H2 & H3)]; [apply HL in H1; destruct (NL v H1)|].
    destruct H2 as [(u & _ & Hu)|(k & K1 & -> & _ & K2 & K3)]; [apply HF in Hu; destruct (NF u Hu)|].
    pose proof (viable_wrong R gi Hall _ k K1 K2 K3) as Hw. destruct (wrong_map f W _ Hf HW xs _ Hw) as (o & Eo & Ho). exists o. split; [exact Ho|]. rewrite <- Eo. exact H3.
Qed.

Section Streams.
Variables gi1 gi2 : grammar_info.
Hypothesis Ht : gi_terminal_type gi1 = gi_terminal_type gi2.
Hypothesis Hr : gi_rules gi1 = gi_rules gi2.
Lemma within_same ts u : fails_within R gi1 ts u -> fails_within R gi2 ts u.
Proof.
  intros (n & rest & Hn & (r & H0 & H) & Hb). exists n, rest. split; [exact Hn|]. split.
  - exists r. rewrite <- Hr. split; [exact H0|]. destruct H as [H|(Hx & vs & Hm & Hv)]; [left; now apply (proj2 (fail_same R gi1 gi2 Ht Hr))|right]. split; [exact Hx|].
    exists vs. split; [now apply (proj2 (means_same R gi1 gi2 Ht Hr))|]. now rewrite <- (value_same R gi1 gi2 Hr).
  - destruct rest as [|s rest], (nth_error ts n) as [k|]; cbn in *; auto. now rewrite <- (matches_same R gi1 gi2 Ht).
Qed.
End Streams.

Hypothesis Hnever : forall ts u, ~ fails_within R gi ts u.

(** Streams that give [map f xs] and then an error. *)
Theorem test_stream (bm : BuildMode) em : item_of bm input em ->
  exists n, forall (bmr : BuildMode) (E SErr : Type) (into : SErr -> UErr R) xs e rest fuel, n * S (List.length xs) <= fuel ->
  let m := run_emitted (bm := bmr) R into (of_list_then (map f xs) e rest) (read_body table) fuel em : Rust.result (E := E) R in
  (exists x, first_wrong W xs (Some x) /\ gives_error R m (ParseError R (Some (f x)))) \/
  ((exists ys, W (xs ++ ys)) /\ gives_error R m (UserError R (into e))).
Proof.
  intros (span & cs & js & print & le & lo & ho & fu & ts & Ho & Ets & Hem). pose proof Husable as Hus. rewrite <- Hgi in Hus.
  pose proof Hparsed as Hp. unfold parsed_b in Hp. apply andb_true_iff in Hp as (Wf & P). destruct (reads_ok input Wf P) as (_ & Rd & _).
  unfold usable_b in Hus. apply andb_true_iff in Hus as (U1 & U4). apply andb_true_iff in U1 as (U1 & U3). apply andb_true_iff in U1 as (U1 & U2). apply andb_true_iff in U1 as (U0 & U1).
  assert (Rd' : reads_as print (trees ts) (decls_of input)) by (rewrite Ets; exact (reads_print show print _ _ U0 Rd)).
  destruct (macros_streams (bm := bm) cs js print le lo ho Ho fu ts em (decls_of input) Rd' (bound_b_ok _ U1) (hygienic_b_ok _ U2)
    (direct_first_complete _ (direct_b_ok _ nullable U3)) Hem) as (g & C & G1 & G2 & HC).
  assert (Ht : gi_terminal_type g = gi_terminal_type gi) by (rewrite G1, <- Hgi; reflexivity).
  assert (Hr : gi_rules g = gi_rules gi) by (rewrite G2, <- Hgi; reflexivity).
  exists C. intros bmr E SErr into xs e rest fuel Hfu m.
  assert (Hu : unambiguous_tokens R g (map f xs)) by (apply (unambiguous_same R gi g (eq_sym Ht) (eq_sym Hr)); apply distinct_ok; exact Hdistinct).
  destruct (HC bmr E R SErr into (read_body table) (read_describes R table Hctor SErr) (read_named R table SErr Hnamed) (map f xs) e rest fuel Hu) as ((err & Hright & Hgives) & _); [now rewrite map_length|].
  fold m in Hgives. destruct Hright as [(u & _ & Hw)|(_ & [(n & k & K1 & -> & K2 & K3)|(-> & K)])]; [rewrite G2; now apply productive_b_ok|exfalso..| |].
  - apply (within_same g gi Ht Hr) in Hw. exact (Hnever _ _ Hw).
  - left. assert (Hn : n < List.length (map f xs)) by (apply nth_error_Some; congruence).
    pose proof (viable_wrong R gi Hall (map f xs) n ltac:(lia) (begins_same R g gi Ht Hr _ K2) (fun _ Hb => K3 (begins_same R gi g (eq_sym Ht) (eq_sym Hr) _ Hb))) as Hw.
    destruct (wrong_map f W _ Hf HW xs _ Hw) as (o & Eo & Ho'). rewrite K1 in Eo. destruct o as [x|]; [|discriminate]. injection Eo as ->. eauto.
  - right. split; [|exact Hgives]. destruct (viable_word R gi Hall _ (begins_same R g gi Ht Hr _ K)) as (r & Hw). apply HW in Hw. destruct Hw as (l & El & Hl).
    apply (map_split f Hf) in El. destruct El as (ys & _ & ->). eauto.
Qed.
End Results.

(** Tables whose constructors do not fail. *)
Section NoErrors.
Variable R : rust.
Variable gi : grammar_info.
Variable table : list (reading (Raw R) (Pay R) (UVal R) (UErr R)).
Hypothesis Hctor : forall i body vars, user_ctor R i body vars = read_ctor table i body vars.
Hypothesis Hdef : forall i v, exists v', default_ctor R i v = inl v'.
Hypothesis Htable : Forall (fun r => forall vs u, rd_value r vs <> Some (inr u)) table.
Lemma rules_succeed i vars : exists v, rule_value R gi i vars = inl v.
Proof.
  unfold rule_value. destruct (nth_error (gi_rules gi) i) as [r|]; [|eauto]. destruct (pr_block r) as [b|].
  - destruct (rewrite_provided_constructor (pr_nodes r) b) as [[|body|]| | |]; eauto. rewrite Hctor. unfold read_ctor, read_body.
    destruct (find _ table) as [rd|] eqn:Hfi; [|eauto]. apply find_some in Hfi. destruct Hfi as (Hin & _). rewrite Forall_forall in Htable. specialize (Htable rd Hin).
    destruct (rd_value rd _) as [[v|u]|] eqn:Hv; eauto. destruct (Htable _ _ Hv).
  - destruct (pr_type r); [|eauto]. destruct vars as [|[j v] vars]; eauto.
Qed.
End NoErrors.
