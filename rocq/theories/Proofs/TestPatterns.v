(** The grammars of the tests with patterns (C71). *)
From Coq Require Import Arith Bool String Ascii NArith List Lia.
From Verif Require Import Base.Prelude Spec.Grammar Spec.Validity Spec.Nullable Spec.LR1 Spec.Observers Model.Error Model.LRTable Model.IndexedGrammar.
From Verif Require Import Model.TokenTree Model.Terminal Model.Constructor Model.CodeGen Model.Runtime Model.Symbol Model.FrontEnd.
From Verif Require Import Model.Diagnostics Model.CodeGenDiagnostics Model.Rust Model.Emit Model.Expand Model.TestGrammars.
From Verif Require Import Spec.Values Spec.Substitution Spec.Macro Spec.MacroPanic Spec.Diagnostics Spec.EmittedCode Spec.EmittedNames Spec.Expansion Spec.Meaning Spec.Overlaps Spec.TestLanguages Spec.TestPatterns.
From Verif Require Import Proofs.Fuel Proofs.Refutations Proofs.LR1Final Proofs.Rename Proofs.GenExamples Proofs.MacroMain Proofs.MacroExamples Proofs.DiagnosticsExamples Proofs.EmitExamples.
From Verif Require Import Proofs.ExpandMain Proofs.ExpandExamples Proofs.MacroRefute Proofs.MeaningMain Proofs.OverlapsMain Proofs.TestGrammars Proofs.TestExamples Proofs.TestAccepted.
Import ListNotations.
Open Scope string_scope.
Open Scope list_scope.

(** ** Inputs that are read by a given printer *)
Section Printed.
Variable print : list ttree -> string.
Variable input : list ttree.
Variable d : declarations.
Variable nullable : list string.
Hypothesis Hw : well_spaced_b input = true.
Hypothesis Hp : parse_declarations print (tokenize_from_stream input) = Ok d.
Hypothesis Hb : bound_b (d_rules d) = true.
Hypothesis Hh : hygienic_b (d_rules d) = true.
Hypothesis Hd : direct_b (source (d_rules d)) nullable = true.
Hypothesis Hpr : productive (source (d_rules d)).

Section Outcome.
Variable R : rust.
Variable table : list (Model.TestGrammars.reading (Raw R) (Pay R) (UVal R) (UErr R)).
Hypothesis Hctor : forall i body vars, user_ctor R i body vars = read_ctor table i body vars.
Hypothesis Hnamed : named_b table = true.

Theorem printed_outcome (bm : BuildMode) em : item_printed bm print input em ->
  exists C, forall (bmr : BuildMode) (E SErr : Type) (into : SErr -> UErr R) toks fuel, unambiguous_tokens R (decl_gi d) toks -> C * S (List.length toks) <= fuel ->
  let m := run_emitted (bm := bmr) R into (of_list toks) (read_body table) fuel em : Rust.result (E := E) R in
  ((exists v, input_means R (decl_gi d) toks v /\ gives_value R m v) \/
  ((forall v, ~ input_means R (decl_gi d) toks v) /\ exists e, right_error R (decl_gi d) toks e /\ gives_error R m e)).
Proof.
  intros (span & cs & js & le & lo & ho & fuel & ts & Ho & Ets & Hem).
  assert (Rd : reads_as print (trees ts) d) by (rewrite Ets; apply read_sound; [now apply well_spaced_ok|exact Hp]).
  destruct (macros_mean cs js print le lo ho Ho fuel ts em d Rd (bound_b_ok _ Hb) (hygienic_b_ok _ Hh)
    (direct_first_complete _ (direct_b_ok _ nullable Hd)) Hem) as (g & C & G1 & G2 & HC).
  exists C. intros bmr E SErr into toks f Hu Hf m.
  assert (Hu' : unambiguous_tokens R g toks) by (eapply unambiguous_same; [| |exact Hu]; auto).
  destruct (HC bmr E R SErr into (read_body table) (read_describes R table Hctor SErr) (read_named R table SErr Hnamed) toks f Hu' Hf)
    as ([(v & H1 & H2)|(H1 & e & H2 & H3)] & _).
  - left. exists v. split; [|exact H2]. eapply input_same; [| |exact H1]; auto.
  - right. split; [intros v Hv; apply (H1 v); eapply input_same; [| |exact Hv]; auto|]. exists e. split; [|exact H3].
    eapply error_same; [| |apply H2]; auto. now rewrite G2.
Qed.

Theorem printed_explained (bm : BuildMode) em : item_printed bm print input em ->
  exists gi C, gi_terminal_type gi = d_terminal_type d /\ gi_rules gi = d_rules d /\
  forall (bmr : BuildMode) (E SErr : Type) (into : SErr -> UErr R) toks fuel, C * S (List.length toks) <= fuel ->
  exists r ds, explains (bm := bmr) R gi into (of_list toks) ds r /\ gives R (run_emitted (bm := bmr) R into (of_list toks) (read_body table) fuel em : Rust.result (E := E) R) r.
Proof.
  intros (span & cs & js & le & lo & ho & fuel & ts & Ho & Ets & Hem).
  assert (Rd : reads_as print (trees ts) d) by (rewrite Ets; apply read_sound; [now apply well_spaced_ok|exact Hp]).
  destruct (macros_explained cs js print le lo ho Ho fuel ts em d Rd (bound_b_ok _ Hb) (hygienic_b_ok _ Hh)
    (direct_first_complete _ (direct_b_ok _ nullable Hd)) Hpr Hem) as (g & C & G1 & G2 & HC).
  exists g, C. split; [exact G1|]. split; [exact G2|]. intros bmr E SErr into toks f Hf.
  destruct (HC bmr E R SErr into (read_body table) (read_describes R table Hctor SErr) (read_named R table SErr Hnamed)) as (H & _).
  apply (H (of_list toks) (List.length toks) f); [|exact Hf].
  intros k. unfold of_list. rewrite (proj2 (nth_error_None toks (List.length toks)) (le_n _)). discriminate.
Qed.
End Outcome.

Hypothesis Hunused : unused_b (d_rules d) = true.
Hypothesis Hgood : forallb good_rule_b (d_rules d) = true.
Hypothesis Henum : exists ty, d_terminal_type d = TTEnum ty.
Hypothesis Hnames : forallb good_name_b (terminals (d_rules d)) = true.

Lemma printed_accepted (bm : BuildMode) : valid_grammar (source (d_rules d)) -> lr1_grammar (source (d_rules d)) -> always_printed bm print input.
Proof.
  intros V1 V2 span cs js le lo ho ts Ho Ets. destruct Henum as (ty & Hty).
  destruct (macros_accept (bm := bm) cs js print le lo ho Ho ts d) as (N & HN); auto.
  - now rewrite Ets.
  - now apply unused_ok.
  - apply direct_first_complete. now apply (direct_b_ok _ nullable).
  - now apply good_rules_ok.
  - rewrite Hty. now apply good_terminals_ok.
  - exists N. intros fuel Hf. destruct (HN fuel Hf) as ((_ & HN') & _). destruct (HN' (conj V1 V2)) as (em & Hem).
    pose proof (macros_same cs js print le lo ho fuel ts) as Hs. rewrite Hem in Hs.
    destruct (Expand.pub_grammar (bm := bm) span cs js print le lo ho fuel ts) as [[em'|]| | |] eqn:E; try contradiction. eauto.
Qed.

Lemma printed_valid (bm : BuildMode) (span : Type) (cs : span) js le lo ho ts : orders_ok ho -> trees ts = input -> 
  forall fuel em, Expand.grammar (bm := bm) span cs js print le lo ho fuel ts = Ok (Item span em) -> 
  valid_grammar (source (d_rules d)) /\ lr1_grammar (source (d_rules d)).
Proof.
  intros Ho Ets fuel em Hem. destruct Henum as (ty & Hty).
  destruct (macros_accept (bm := bm) cs js print le lo ho Ho ts d) as (N & HN); auto.
  - now rewrite Ets.
  - now apply unused_ok.
  - apply direct_first_complete. now apply (direct_b_ok _ nullable).
  - now apply good_rules_ok.
  - rewrite Hty. now apply good_terminals_ok.
  - apply (proj1 (HN (S (max N fuel)) ltac:(lia))). exists em. eapply le_ok; [apply grammar_le|exact Hem]. lia.
Qed.
End Printed.

(** ** Other texts for patterns *)
Section Texts.
Variable print : list ttree -> string.
Variable pats : list (list ttree).
Hypothesis Happ : forall p q, In p pats -> In q pats -> print p = print q -> p = q.

(** From a text of [print] to that of [show]. *)
Definition reshow (s : string) : string := match find (fun p => String.eqb (print p) s) pats with Some p => show p | None => s end.
Lemma find_print p : In p pats -> find (fun q => String.eqb (print q) (print p)) pats = Some p.
Proof.
  intros Hin. destruct (find (fun q => String.eqb (print q) (print p)) pats) as [q|] eqn:E.
  - apply find_some in E. destruct E as (Hq & E). apply String.eqb_eq in E. f_equal. now apply Happ.
  - pose proof (find_none _ _ E p Hin) as H. cbn in H. rewrite String.eqb_refl in H. discriminate.
Qed.
Lemma reshow_print p : In p pats -> reshow (print p) = show p.
Proof. intros H. unfold reshow. now rewrite find_print. Qed.
End Texts.

Definition change_text (f : string -> string) (s : user_symbol) : user_symbol :=
  match sparen s with PGPattern t => mk_symbol (sname s) (PGPattern (f t)) | _ => s end.

Ltac in_list := cbn; repeat first [left; reflexivity|right].
Ltac same_texts Happ := match goal with |- rename (change_text (reshow ?print ?pats)) _ = _ =>
  let f := fresh "f" in let Hf := fresh "Hf" in pose proof (reshow_print print pats Happ) as Hf;
  set (f := reshow print pats) in *; clearbody f; vm_compute; rewrite !Hf by in_list; vm_compute; reflexivity end.

Section Grammars.
Variable print : list ttree -> string.

Definition disjoint_d : declarations := Eval vm_compute in get (parse_declarations print (tokenize_from_stream disjoint_input)) no_decls.
Definition token_pattern_d : declarations := Eval vm_compute in get (parse_declarations print (tokenize_from_stream token_pattern_input)) no_decls.

Lemma disjoint_texts : tells_apart print disjoint_input ->
  rename (change_text (reshow print (written_patterns disjoint_input))) (source (d_rules disjoint_d)) = source (d_rules (decls_of disjoint_input)).
Proof. intros Happ. same_texts Happ. Qed.
Lemma token_pattern_texts : tells_apart print token_pattern_input ->
  rename (change_text (reshow print (written_patterns token_pattern_input))) (source (d_rules token_pattern_d)) = source (d_rules (decls_of token_pattern_input)).
Proof. intros Happ. same_texts Happ. Qed.

Lemma disjoint_productive : tells_apart print disjoint_input -> productive (source (d_rules disjoint_d)).
Proof. intros H. apply (rename_productive (change_text (reshow print (written_patterns disjoint_input)))). rewrite (disjoint_texts H). apply productive_b_ok. vm_compute. reflexivity. Qed.
Lemma token_pattern_productive : tells_apart print token_pattern_input -> productive (source (d_rules token_pattern_d)).
Proof. intros H. apply (rename_productive (change_text (reshow print (written_patterns token_pattern_input)))). rewrite (token_pattern_texts H). apply productive_b_ok. vm_compute. reflexivity. Qed.
End Grammars.

Lemma shown_lr1 (bm : BuildMode) input : well_spaced_b input = true -> is_ok (parse_declarations show (tokenize_from_stream input)) = true ->
  (match d_terminal_type (decls_of input) with TTEnum _ => true | _ => false end) = true ->
  direct_b (source (d_rules (decls_of input))) [] = true -> productive_b (source (d_rules (decls_of input))) = true ->
  unused_b (d_rules (decls_of input)) = true -> forallb good_rule_b (d_rules (decls_of input)) = true -> forallb good_name_b (terminals (d_rules (decls_of input))) = true ->
  item bm input <> None -> valid_grammar (source (d_rules (decls_of input))) /\ lr1_grammar (source (d_rules (decls_of input))).
Proof.
  intros H1 H2 H3 H4 H5 H6 H7 H8 Hi. destruct (reads_ok input H1 H2) as (_ & _ & Pd). unfold item, made in Hi.
  destruct (Expand.grammar (bm := bm) place whole join_places show no_lex all_literals forward 500 (placed 1 input)) as [[em|]| | |] eqn:E; try congruence.
  assert (Hty : exists ty, d_terminal_type (decls_of input) = TTEnum ty) by (destruct (d_terminal_type (decls_of input)) as [|ty]; [discriminate|eauto]).
  eapply (printed_valid show input (decls_of input) []); eauto; [now apply productive_b_ok|apply forward_ok|apply placed_trees].
Qed.

Theorem disjoint_accepted (bm : BuildMode) print : tells_apart print disjoint_input -> always_printed bm print disjoint_input.
Proof.
  intros H. assert (V : valid_grammar (source (d_rules (decls_of disjoint_input))) /\ lr1_grammar (source (d_rules (decls_of disjoint_input)))).
  { apply (shown_lr1 bm). 1-8: vm_compute; reflexivity. assert (F : (match item bm disjoint_input with Some _ => true | None => false end) = true) by (destruct bm; vm_compute; reflexivity).
    destruct (item bm disjoint_input); discriminate. }
  rewrite <- (disjoint_texts print H) in V. destruct V as (V1 & V2). apply rename_valid in V1. apply rename_lr1 in V2.
  apply (printed_accepted print disjoint_input (disjoint_d print) []); try assumption. 1,2,4,5,7: vm_compute; reflexivity.
  - now apply disjoint_productive.
  - eexists. reflexivity.
Qed.
Theorem token_pattern_accepted (bm : BuildMode) print : tells_apart print token_pattern_input -> always_printed bm print token_pattern_input.
Proof.
  intros H. assert (V : valid_grammar (source (d_rules (decls_of token_pattern_input))) /\ lr1_grammar (source (d_rules (decls_of token_pattern_input)))).
  { apply (shown_lr1 bm). 1-8: vm_compute; reflexivity. assert (F : (match item bm token_pattern_input with Some _ => true | None => false end) = true) by (destruct bm; vm_compute; reflexivity).
    destruct (item bm token_pattern_input); discriminate. }
  rewrite <- (token_pattern_texts print H) in V. destruct V as (V1 & V2). apply rename_valid in V1. apply rename_lr1 in V2.
  apply (printed_accepted print token_pattern_input (token_pattern_d print) []); try assumption. 1,2,4,5,7: vm_compute; reflexivity.
  - now apply token_pattern_productive.
  - eexists. reflexivity.
Qed.

Theorem patterns_accepted (bm : BuildMode) print input : In input [token_pattern_input; disjoint_input] -> tells_apart print input -> always_printed bm print input.
Proof. intros [<-|[<-|[]]]; [apply token_pattern_accepted|apply disjoint_accepted]. Qed.
