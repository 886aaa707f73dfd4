(** What the smallest parsers of the tests, and those with errors, compute (C69). *)
From Coq Require Import Arith Bool String Ascii NArith List Lia.
From Verif Require Import Base.Prelude Spec.Grammar Model.Error Model.TokenTree Model.Terminal Model.Constructor Model.CodeGen Model.Runtime Model.Symbol Model.FrontEnd.
From Verif Require Import Model.Rust Model.Emit Model.TestGrammars Spec.Values Spec.EmittedCode Spec.Meaning Spec.TestLanguages Spec.TestFailures.
From Verif Require Import Proofs.MacroRefute Proofs.Meaning Proofs.TestGrammars Proofs.TestLanguages Proofs.TestMain Proofs.TestFailures Proofs.TestSmall Proofs.TestStream.
Import ListNotations.
Open Scope string_scope.
Open Scope list_scope.

Lemma wrong_weaken {A} (L L' : list A -> Prop) ts o : (forall ts, L ts <-> L' ts) -> first_wrong L ts o -> first_wrong L' ts o.
Proof.
  intros H (n & H1 & H2 & (rest & H3) & H4). exists n. split; [exact H1|]. split; [exact H2|]. split; [exists rest; now apply H|]. intros Hn r Hr. apply (H4 Hn r). now apply H.
Qed.

(** ** One character *)
Theorem simple_runs (bm : BuildMode) em : item_of bm sanity_simple_input em ->
  exists n, forall (bmr : BuildMode) (E SErr : Type) (into : SErr -> Empty_set) text fuel, n * S (List.length text) <= fuel ->
  let m := run_emitted (bm := bmr) u32_rust into (of_list (map (fun c : N => TRaw c) text)) (read_body u32_readings) fuel em : Rust.result (E := E) u32_rust in
  (text = chars "a" -> gives_value u32_rust m RUnit) /\
  (text <> chars "a" -> gives_error u32_rust m (ParseError u32_rust (option_map (fun c : N => TRaw c) (unexpected (chars "a") text)))).
Proof.
  intros Hem.
  destruct (test_language sanity_simple_input [] simple_gi ltac:(checked) ltac:(checked) ltac:(checked)
    u32_rust u32_readings ltac:(reflexivity) ltac:(checked) ltac:(intros []) ltac:(all_terminals) ltac:(checked)
    (fun c : N => TRaw c) ltac:(intros x y H; now injection H) (fun text v => text = chars "a" /\ v = RUnit) simple_iff) with (bm := bm) (em := em) as (n & Hn).
  - intros xs v v' (_ & ->) (_ & ->). reflexivity.
  - exact Hem.
  - exists n. intros bmr E SErr into text fuel Hf m. destruct (Hn bmr E SErr into text fuel Hf) as (H1 & H2). split.
    + intros H. exact (H1 _ (conj H eq_refl)).
    + intros H. destruct H2 as (o & H2 & H3); [tauto|]. rewrite <- (one_wrong (chars "a") text o); [exact H3| |].
      * intros (c & [<-|[]] & ->). exact (H eq_refl).
      * eapply wrong_weaken; [|exact H2]. intros ts. split; [intros (v & -> & _); exists 97%N; cbn; auto|]. intros (c & [<-|[]] & ->). now exists RUnit.
Qed.

Theorem into_runs (bm : BuildMode) em : item_of bm auto_into_input em ->
  exists n, forall (bmr : BuildMode) (E SErr : Type) (into : SErr -> string) text fuel, n * S (List.length text) <= fuel ->
  let m := run_emitted (bm := bmr) into_rust into (of_list (map (fun c : N => TRaw c) text)) (read_body into_readings) fuel em : Rust.result (E := E) into_rust in
  (text = chars "a" -> gives_value into_rust m (RUser (VAOrB (VA 1)))) /\
  (text = chars "b" -> gives_value into_rust m (RUser (VAOrB (VB 2)))) /\
  (~ one_of (chars "ab") text -> gives_error into_rust m (ParseError into_rust (option_map (fun c : N => TRaw c) (unexpected (chars "ab") text)))).
Proof.
  intros Hem.
  destruct (test_fallible auto_into_input [] into_gi ltac:(checked) ltac:(checked) ltac:(checked)
    into_rust into_readings ltac:(reflexivity) ltac:(checked) ltac:(all_terminals) ltac:(checked)
    (fun c : N => TRaw c) ltac:(intros x y H; now injection H) (one_of (chars "ab")) into_words
    (fun text v => (text = chars "a" /\ v = RUser (VAOrB (VA 1))) \/ (text = chars "b" /\ v = RUser (VAOrB (VB 2)))) into_iff) with (bm := bm) (em := em) (F := fun (_ : list N) (_ : string) => False) as (n & Hn).
  - intros xs v v' [(E & ->)|(E & ->)] [(E' & ->)|(E' & ->)]; try reflexivity; rewrite E in E'; discriminate.
  - intros xs u. split; [apply (constructor_never into_rust into_gi into_values)|intros []].
  - exact Hem.
  - exists n. intros bmr E SErr into text fuel Hf m. destruct (Hn bmr E SErr into text fuel Hf) as (H1 & _ & H2). split; [|split].
    + intros H. apply H1. auto.
    + intros H. apply H1. auto.
    + intros H. destruct H2 as (o & H2 & H3); [|tauto|].
      * intros v [(-> & _)|(-> & _)]; apply H; [exists 97%N|exists 98%N]; cbn; auto.
      * rewrite <- (one_wrong _ text o H H2). exact H3.
Qed.

Theorem ctor_runs (bm : BuildMode) em : item_of bm fallible_ctor_input em ->
  exists n, forall (bmr : BuildMode) (E SErr : Type) (into : SErr -> string) text fuel, n * S (List.length text) <= fuel ->
  let m := run_emitted (bm := bmr) container_rust into (of_list (map (fun c : N => TRaw c) text)) (read_body into_readings) fuel em : Rust.result (E := E) container_rust in
  (one_of (chars "ab") text -> gives_value container_rust m (RUser (VContainer 1))) /\
  (one_of (chars "yz") text -> gives_error container_rust m (UserError container_rust too_big)) /\
  (~ one_of (chars "azby") text -> gives_error container_rust m (ParseError container_rust (option_map (fun c : N => TRaw c) (unexpected (chars "azby") text)))).
Proof.
  intros Hem.
  destruct (test_fallible fallible_ctor_input [] ctor_gi ltac:(checked) ltac:(checked) ltac:(checked)
    container_rust into_readings ltac:(reflexivity) ltac:(checked) ltac:(all_terminals) ltac:(checked)
    (fun c : N => TRaw c) ltac:(intros x y H; now injection H) (one_of (chars "azby")) ctor_words
    (fun text v => one_of (chars "ab") text /\ v = RUser (VContainer 1)) ctor_iff) with (bm := bm) (em := em) (F := fun text u => one_of (chars "yz") text /\ u = too_big) as (n & Hn).
  - intros xs v v' (_ & ->) (_ & ->). reflexivity.
  - exact ctor_fail_iff.
  - exact Hem.
  - exists n. intros bmr E SErr into text fuel Hf m. destruct (Hn bmr E SErr into text fuel Hf) as (H1 & H1' & H2). split; [|split].
    + intros H. apply H1. auto.
    + intros H. apply H1'. auto.
    + intros H. destruct H2 as (o & H2 & H3); [..|rewrite <- (one_wrong _ text o H H2); exact H3]; intros v ((c & Hc & ->) & _); apply H; exists c; cbn in Hc |- *; tauto.
Qed.

Theorem error_runs (bm : BuildMode) em : item_of bm into_error_input em ->
  exists n, forall (bmr : BuildMode) (E SErr : Type) (into : SErr -> string) text fuel, n * S (List.length text) <= fuel ->
  let m := run_emitted (bm := bmr) container_rust into (of_list (map (fun c : N => TRaw c) text)) (read_body into_readings) fuel em : Rust.result (E := E) container_rust in
  (one_of (chars "abc") text -> gives_value container_rust m (RUser (VContainer 1))) /\
  (one_of (chars "xyz") text -> gives_error container_rust m (UserError container_rust too_big)) /\
  (~ one_of (chars "azbycx") text -> gives_error container_rust m (ParseError container_rust (option_map (fun c : N => TRaw c) (unexpected (chars "azbycx") text)))).
Proof.
  intros Hem.
  destruct (test_fallible into_error_input [] error_gi ltac:(checked) ltac:(checked) ltac:(checked)
    container_rust into_readings ltac:(reflexivity) ltac:(checked) ltac:(all_terminals) ltac:(checked)
    (fun c : N => TRaw c) ltac:(intros x y H; now injection H) (one_of (chars "azbycx")) error_words
    (fun text v => one_of (chars "abc") text /\ v = RUser (VContainer 1)) error_iff) with (bm := bm) (em := em) (F := fun text u => one_of (chars "xyz") text /\ u = too_big) as (n & Hn).
  - intros xs v v' (_ & ->) (_ & ->). reflexivity.
  - exact error_fail_iff.
  - exact Hem.
  - exists n. intros bmr E SErr into text fuel Hf m. destruct (Hn bmr E SErr into text fuel Hf) as (H1 & H1' & H2). split; [|split].
    + intros H. apply H1. auto.
    + intros H. apply H1'. auto.
    + intros H. destruct H2 as (o & H2 & H3); [..|rewrite <- (one_wrong _ text o H H2); exact H3]; intros v ((c & Hc & ->) & _); apply H; exists c; cbn in Hc |- *; tauto.
Qed.

(** ** AddMul *)
Theorem add_mul_runs (bm : BuildMode) em : item_of bm add_mul_input em ->
  exists n, forall (bmr : BuildMode) (E SErr : Type) (into : SErr -> Empty_set) text fuel, n * S (List.length text) <= fuel ->
  let m := run_emitted (bm := bmr) u32_rust into (of_list (map (fun c : N => TRaw c) text)) (read_body u32_readings) fuel em : Rust.result (E := E) u32_rust in
  (forall k, adds_and_multiplies text k -> gives_value u32_rust m (RUser k)) /\
  ((forall k, ~ adds_and_multiplies text k) -> exists o, first_wrong (fun text => exists k, adds_and_multiplies text k) text o /\
     gives_error u32_rust m (ParseError u32_rust (option_map (fun c : N => TRaw c) o))).
Proof.
  intros Hem.
  destruct (test_language add_mul_input [] mul_gi ltac:(checked) ltac:(checked) ltac:(checked)
    u32_rust u32_readings ltac:(reflexivity) ltac:(checked) ltac:(intros []) ltac:(all_terminals) ltac:(checked)
    (fun c : N => TRaw c) ltac:(intros x y H; now injection H) (fun text v => exists k, adds_and_multiplies text k /\ v = RUser k) mul_iff) with (bm := bm) (em := em) as (n & Hn).
  - intros xs v v' (k & H & ->) (k' & H' & ->). f_equal. exact (adds_and_multiplies_one _ _ _ H H').
  - exact Hem.
  - exists n. intros bmr E SErr into text fuel Hf m. destruct (Hn bmr E SErr into text fuel Hf) as (H1 & H2). split.
    + intros k H. apply H1. eauto.
    + intros H. destruct H2 as (o & H2 & H3); [intros v (k & K & _); exact (H k K)|]. exists o. split; [|exact H3].
      eapply wrong_weaken; [|exact H2]. intros ts. split; [intros (v & k & K & _); eauto|intros (k & K); eauto].
Qed.

(** ** tests/fallible_input_stream.rs *)
Theorem stream_runs (bm : BuildMode) em : item_of bm fallible_input_stream_input em ->
  exists n, forall (bmr : BuildMode) (E SErr : Type) (into : SErr -> string) text fuel, n * S (List.length text) <= fuel ->
  let m := run_emitted (bm := bmr) u32_fallible into (of_list (map (fun c : N => TRaw c) text)) (read_body u32_readings) fuel em : Rust.result (E := E) u32_fallible in
  match add_digits text with
  | Sum k => gives_value u32_fallible m (RUser k)
  | Unexpected o => gives_error u32_fallible m (ParseError u32_fallible (option_map (fun c : N => TRaw c) o))
  end.
Proof.
  intros Hem.
  destruct (test_fallible fallible_input_stream_input [] stream_gi ltac:(checked) ltac:(checked) ltac:(checked)
    u32_fallible u32_readings ltac:(reflexivity) ltac:(checked) ltac:(all_terminals) ltac:(checked)
    (fun c : N => TRaw c) ltac:(intros x y H; now injection H) adds stream_words
    (fun text v => exists k, add_digits text = Sum k /\ v = RUser k)) with (bm := bm) (em := em) (F := fun (_ : list N) (_ : string) => False) as (n & Hn).
  - intros text v. rewrite stream_iff. split; [|intros (k & H); eauto].
    intros (text' & k & E & H). apply (map_inj _ (@raw_inj N Empty_set)) in E. subst text'. eauto.
  - intros xs v v' (k & E & ->) (k' & E' & ->). congruence.
  - intros xs u. split; [apply (constructor_never u32_fallible stream_gi stream_values)|intros []].
  - exact Hem.
  - exists n. intros bmr E SErr into text fuel Hf m. destruct (Hn bmr E SErr into text fuel Hf) as (H1 & _ & H2). destruct (add_digits text) as [k|o] eqn:Ea; [apply H1; eauto|].
    destruct H2 as (o' & H2 & H3); [intros v (k & K & _); congruence|tauto|]. apply adds_wrong in H2; [|intros (k & K); congruence]. rewrite Ea in H2. injection H2 as ->. exact H3.
Qed.

Theorem failing_stream_runs (bm : BuildMode) em : item_of bm fallible_input_stream_input em ->
  exists n, forall (bmr : BuildMode) (E SErr : Type) (into : SErr -> string) text e rest fuel, n * S (List.length text) <= fuel ->
  let m := run_emitted (bm := bmr) u32_fallible into (of_list_then (map (fun c : N => TRaw c) text) e rest) (read_body u32_readings) fuel em : Rust.result (E := E) u32_fallible in
  match add_digits text with
  | Unexpected (Some c) => gives_error u32_fallible m (ParseError u32_fallible (Some (TRaw c)))
  | _ => gives_error u32_fallible m (UserError u32_fallible (into e))
  end.
Proof.
  intros Hem.
  destruct (test_stream fallible_input_stream_input [] stream_gi ltac:(checked) ltac:(checked) ltac:(checked)
    u32_fallible u32_readings ltac:(reflexivity) ltac:(checked) ltac:(all_terminals) ltac:(checked)
    (fun c : N => TRaw c) ltac:(intros x y H; now injection H) adds stream_words (within_never u32_fallible stream_gi stream_values) bm em Hem) as (n & Hn).
  exists n. intros bmr E SErr into text e rest fuel Hf m. destruct (Hn bmr E SErr into text e rest fuel Hf) as [(x & H1 & H2)|((ys & H1) & H2)].
  - assert (Hno : ~ adds text).
    { intros Ha. destruct H1 as (i & K1 & K2 & _ & K3). assert (Hi : i < List.length text) by (apply nth_error_Some; congruence). apply (K3 Hi (skipn (S i) text)). now rewrite firstn_skipn. }
    rewrite (adds_wrong _ _ H1 Hno). exact H2.
  - pose proof (adds_begin _ _ H1) as Hb. destruct (add_digits text) as [k|[c|]]; [exact H2|destruct (Hb c eq_refl)|exact H2].
Qed.
