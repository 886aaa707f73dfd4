(** What the parsers of the tests compute (C64 - C66). *)
From Coq Require Import Arith Bool String Ascii NArith List Lia.
From Verif Require Import Base.Prelude Spec.Grammar Model.Error Model.TokenTree Model.Terminal Model.Constructor Model.CodeGen Model.Runtime Model.Symbol Model.FrontEnd.
From Verif Require Import Model.Rust Model.Emit Model.TestGrammars Spec.Values Spec.EmittedCode Spec.Meaning Spec.TestLanguages.
From Verif Require Import Proofs.MacroRefute Proofs.Meaning Proofs.TestGrammars Proofs.TestLanguages Proofs.TestCalc Proofs.TestAlike Proofs.TestSanity.
Import ListNotations.
Open Scope string_scope.
Open Scope list_scope.

Section Language.
Variable input : list ttree.
Variable nullable : list string.
Variable gi : grammar_info.
Hypothesis Hgi : decl_gi (decls_of input) = gi.
Hypothesis Hparsed : parsed_b input = true.
Hypothesis Husable : usable_b (gi_rules gi) nullable = true.
Variable R : rust.
Variable table : list (reading (Raw R) (Pay R) (UVal R) (UErr R)).
Hypothesis Hctor : forall i body vars, user_ctor R i body vars = read_ctor table i body vars.
Hypothesis Hnamed : named_b table = true.
Hypothesis Hno : UErr R -> False.
Hypothesis Hall : forall s, terminal_in (gi_rules gi) s -> exists k, sym_matches R gi s k = true.
Hypothesis Hdistinct : distinct_b R gi = true.
Context {X : Type}.
Variable f : X -> tok R.
Hypothesis Hf : forall x y, f x = f y -> x = y.
Variable L : list X -> val R -> Prop.
Hypothesis HL : forall ts v, input_means R gi ts v <-> exists xs, ts = map f xs /\ L xs v.
Hypothesis Hone : forall xs v v', L xs v -> L xs v' -> v = v'.

Theorem test_language (bm : BuildMode) em : item_of bm input em ->
  exists n, forall (bmr : BuildMode) (E SErr : Type) (into : SErr -> UErr R) xs fuel, n * S (List.length xs) <= fuel ->
  let m := run_emitted (bm := bmr) R into (of_list (map f xs)) (read_body table) fuel em : Rust.result (E := E) R in
  (forall v, L xs v -> gives_value R m v) /\
  ((forall v, ~ L xs v) -> exists o, first_wrong (fun xs => exists v, L xs v) xs o /\ gives_error R m (ParseError R (option_map f o))).
Proof.
  intros Hem. destruct (test_results input nullable gi Hgi Hparsed Husable R table Hctor Hnamed Hno Hall Hdistinct bm em Hem) as (n & Hn).
  exists n. intros bmr E SErr into xs fuel Hfu m. specialize (Hn bmr E SErr into (map f xs) fuel). rewrite map_length in Hn. specialize (Hn Hfu). fold m in Hn.
  assert (HL' : forall xs v, input_means R gi (map f xs) v <-> L xs v).
  { intros l v. rewrite HL. split; [intros (l' & E' & H); apply (map_inj f Hf) in E'; now subst l'|eauto]. }
  destruct Hn as [(v & H1 & H2)|(H1 & o & H2 & H3)].
  - apply HL' in H1. split; [|intros H; destruct (H v H1)]. intros v' H. now rewrite (Hone _ _ _ H H1).
  - split; [intros v H; apply HL' in H; destruct (H1 v H)|]. intros _. apply (wrong_map f (fun xs => exists v, L xs v)) in H2; [|exact Hf|].
    + destruct H2 as (o' & -> & H2). eauto.
    + intros ts. split; [intros (v & Hv); apply HL in Hv; destruct Hv as (l & -> & Hl); eauto|]. intros (l & -> & v & Hv). exists v. now apply HL'.
Qed.
End Language.

(** The checks for one grammar are evaluated. *)
Ltac checked := vm_compute; reflexivity.
Ltac all_terminals := let s := fresh "s" in let H := fresh "H" in intros s H; apply raw_all; [reflexivity|exact H].

(** ** tests/brainfck.rs *)
Lemma bf_all s : terminal_in (gi_rules bf_gi) s -> exists k, sym_matches code_rust bf_gi s k = true.
Proof.
  intros H. apply terminals_in in H. exists (TVariant (sname s) None). vm_compute in H. repeat (destruct H as [<-|H]; [vm_compute; reflexivity|]). destruct H.
Qed.

Theorem brainfck_runs (bm : BuildMode) em : item_of bm brainfck_input em ->
  exists n, forall (bmr : BuildMode) (E SErr : Type) (into : SErr -> Empty_set) code fuel, n * S (List.length code) <= fuel ->
  let m := run_emitted (bm := bmr) code_rust into (of_list (map bf_tok code)) (read_body code_readings) fuel em : Rust.result (E := E) code_rust in
  (brackets_match 0 code -> gives_value code_rust m (bf_val code)) /\
  (~ brackets_match 0 code -> gives_error code_rust m (ParseError code_rust (option_map bf_tok (unmatched 0 code)))).
Proof.
  intros Hem.
  destruct (test_language brainfck_input ["instruction_list"; "root"] bf_gi ltac:(checked) ltac:(checked) ltac:(checked)
    code_rust code_readings ltac:(reflexivity) ltac:(checked) ltac:(intros []) bf_all ltac:(checked) bf_tok bf_tok_inj (fun code v => brackets_match 0 code /\ v = bf_val code)) with (bm := bm) (em := em) as (n & Hn).
  - intros ts v. split; [intros H; apply bf_sound in H; destruct H as (c & -> & -> & H); eauto|]. intros (c & -> & H). now apply bf_iff.
  - intros xs v v' (_ & ->) (_ & ->). reflexivity.
  - exact Hem.
  - exists n. intros bmr E SErr into code fuel Hf m. destruct (Hn bmr E SErr into code fuel Hf) as (H1 & H2). split.
    + intros H. exact (H1 _ (conj H eq_refl)).
    + intros H. destruct H2 as (o & H2 & H3); [tauto|]. rewrite <- (bf_wrong code o); [exact H3|].
      destruct H2 as (k & K1 & K2 & (rest & v & K3 & _) & K4). exists k. repeat split; [exact K1|exact K2|eauto|]. intros Hk rest' Hr. apply (K4 Hk rest'). eauto.
Qed.

(** ** tests/test_simple.rs *)
Theorem calculator_runs (bm : BuildMode) em : item_of bm test_simple_input em ->
  exists n, forall (bmr : BuildMode) (E SErr : Type) (into : SErr -> Empty_set) text fuel, n * S (List.length text) <= fuel ->
  let m := run_emitted (bm := bmr) u32_rust into (of_list (map (fun c : N => TRaw c) text)) (read_body u32_readings) fuel em : Rust.result (E := E) u32_rust in
  (forall k, calculates text k -> gives_value u32_rust m (RUser k)) /\
  ((forall k, ~ calculates text k) -> exists o, first_wrong (fun text => exists k, calculates text k) text o /\
     gives_error u32_rust m (ParseError u32_rust (option_map (fun c : N => TRaw c) o))).
Proof.
  intros Hem.
  destruct (test_language test_simple_input [] calc_gi ltac:(checked) ltac:(checked) ltac:(checked)
    u32_rust u32_readings ltac:(reflexivity) ltac:(checked) ltac:(intros []) ltac:(all_terminals) ltac:(checked)
    (fun c : N => TRaw c) ltac:(intros x y H; now injection H) (fun text v => exists k, calculates text k /\ v = RUser k)) with (bm := bm) (em := em) as (n & Hn).
  - intros ts v. split; [intros H; apply calc_sound in H; destruct H as (t & k & -> & H1 & ->); eauto|]. intros (t & -> & H). now apply calc_iff.
  - intros xs v v' (k & H & ->) (k' & H' & ->). f_equal. exact (calculates_one _ _ _ H H').
  - exact Hem.
  - exists n. intros bmr E SErr into text fuel Hf m. destruct (Hn bmr E SErr into text fuel Hf) as (H1 & H2). split.
    + intros k H. exact (H1 _ (ex_intro _ k (conj H eq_refl))).
    + intros H. destruct H2 as (o & H2 & H3); [intros v (k & K & _); exact (H k K)|]. exists o. split; [|exact H3].
      destruct H2 as (i & K1 & K2 & (rest & v & k & K3 & _) & K4). exists i. repeat split; [exact K1|exact K2|eauto|]. intros Hi rest' (k' & Hr). apply (K4 Hi rest'). eauto.
Qed.

(** ** tests/error_messages.rs *)
Lemma ab_all s : terminal_in (gi_rules ab_gi) s -> exists k, sym_matches place_rust ab_gi s k = true.
Proof.
  intros H. apply terminals_in in H. exists (TVariant (sname s) (Some 0)). vm_compute in H. repeat (destruct H as [<-|H]; [vm_compute; reflexivity|]). destruct H.
Qed.
Lemma ab_tok_inj x y : ab_tok x = ab_tok y -> x = y.
Proof. destruct x, y; intros H; try discriminate; injection H as ->; reflexivity. Qed.

Theorem alike_runs (bm : BuildMode) em : item_of bm error_messages_input em ->
  exists n, forall (bmr : BuildMode) (E SErr : Type) (into : SErr -> Empty_set) ts fuel, n * S (List.length ts) <= fuel ->
  let m := run_emitted (bm := bmr) place_rust into (of_list (map ab_tok ts)) (read_body []) fuel em : Rust.result (E := E) place_rust in
  (all_alike ts -> gives_value place_rust m RUnit) /\
  (~ all_alike ts -> gives_error place_rust m (ParseError place_rust (option_map ab_tok (unlike ts)))).
Proof.
  intros Hem.
  destruct (test_language error_messages_input [] ab_gi ltac:(checked) ltac:(checked) ltac:(checked)
    place_rust [] ltac:(reflexivity) ltac:(checked) ltac:(intros []) ab_all ltac:(checked) ab_tok ab_tok_inj (fun ts v => all_alike ts /\ v = RUnit)) with (bm := bm) (em := em) as (n & Hn).
  - intros ts v. split; [intros H; apply ab_sound in H; destruct H as (-> & l & -> & H); eauto|]. intros (c & -> & H). now apply ab_iff.
  - intros xs v v' (_ & ->) (_ & ->). reflexivity.
  - exact Hem.
  - exists n. intros bmr E SErr into ts fuel Hf m. destruct (Hn bmr E SErr into ts fuel Hf) as (H1 & H2). split.
    + intros H. exact (H1 _ (conj H eq_refl)).
    + intros H. destruct H2 as (o & H2 & H3); [tauto|]. rewrite <- (ab_wrong ts o); [exact H3|].
      destruct H2 as (k & K1 & K2 & (rest & v & K3 & _) & K4). exists k. repeat split; [exact K1|exact K2|eauto|]. intros Hk rest' Hr. apply (K4 Hk rest'). eauto.
Qed.

(** ** tests/sanity_tests.rs: GetReq *)
Theorem requests_run (bm : BuildMode) em : item_of bm get_req_input em ->
  exists n, forall (bmr : BuildMode) (E SErr : Type) (into : SErr -> Empty_set) text fuel, n * S (List.length text) <= fuel ->
  let m := run_emitted (bm := bmr) req_rust into (of_list (map (fun c : N => TRaw c) text)) (read_body req_readings) fuel em : Rust.result (E := E) req_rust in
  (forall t uri, request text t uri -> gives_value req_rust m (RUser (VReq t uri))) /\
  ((forall t uri, ~ request text t uri) -> exists o, first_wrong (fun text => exists t uri, request text t uri) text o /\
     gives_error req_rust m (ParseError req_rust (option_map (fun c : N => TRaw c) o))).
Proof.
  intros Hem.
  destruct (test_language get_req_input [] req_gi ltac:(checked) ltac:(checked) ltac:(checked)
    req_rust req_readings ltac:(reflexivity) ltac:(checked) ltac:(intros []) ltac:(all_terminals) ltac:(checked)
    (fun c : N => TRaw c) ltac:(intros x y H; now injection H) (fun text v => exists t uri, request text t uri /\ v = RUser (VReq t uri))) with (bm := bm) (em := em) as (n & Hn).
  - intros ts v. split; [intros H; apply req_sound in H; destruct H as (x & t & uri & -> & H1 & ->); eauto 8|]. intros (x & -> & H). now apply req_iff.
  - intros xs v v' (q & u & H & ->) (q' & u' & H' & ->). destruct (request_one _ _ _ _ _ H H') as (-> & ->). reflexivity.
  - exact Hem.
  - exists n. intros bmr E SErr into text fuel Hf m. destruct (Hn bmr E SErr into text fuel Hf) as (H1 & H2). split.
    + intros t uri H. apply H1. eauto.
    + intros H. destruct H2 as (o & H2 & H3); [intros v (t & uri & K & _); exact (H t uri K)|]. exists o. split; [|exact H3].
      destruct H2 as (i & K1 & K2 & (rest & v & t & uri & K3 & _) & K4). exists i. repeat split; [exact K1|exact K2|eauto|]. intros Hi rest' (t' & uri' & Hr). apply (K4 Hi rest'). eauto.
Qed.

(** ** tests/sanity_tests.rs: TestNonLALR *)
Lemma words_one w w' c c' : In (w, c) non_lalr_words -> In (w', c') non_lalr_words -> chars w = chars w' -> c = c'.
Proof.
  intros [H|[H|[H|[H|[]]]]] [H'|[H'|[H'|[H'|[]]]]]; injection H as <- <-; injection H' as <- <-; intros E; try reflexivity; discriminate.
Qed.

Theorem paths_run (bm : BuildMode) em : item_of bm non_lalr_input em ->
  exists n, forall (bmr : BuildMode) (E SErr : Type) (into : SErr -> Empty_set) text fuel, n * S (List.length text) <= fuel ->
  let m := run_emitted (bm := bmr) path_rust into (of_list (map (fun c : N => TRaw c) text)) (read_body path_readings) fuel em : Rust.result (E := E) path_rust in
  (forall w c, In (w, c) non_lalr_words -> text = chars w -> gives_value path_rust m (RUser c)) /\
  ((forall w c, In (w, c) non_lalr_words -> text <> chars w) ->
   exists o, first_wrong (fun text => exists w c, In (w, c) non_lalr_words /\ text = chars w) text o /\
     gives_error path_rust m (ParseError path_rust (option_map (fun c : N => TRaw c) o))).
Proof.
  intros Hem.
  destruct (test_language non_lalr_input [] path_gi ltac:(checked) ltac:(checked) ltac:(checked)
    path_rust path_readings ltac:(reflexivity) ltac:(checked) ltac:(intros []) ltac:(all_terminals) ltac:(checked)
    (fun c : N => TRaw c) ltac:(intros x y H; now injection H) (fun text v => exists w c, In (w, c) non_lalr_words /\ text = chars w /\ v = RUser c)) with (bm := bm) (em := em) as (n & Hn).
  - intros ts v. split; [intros H; apply path_sound in H; destruct H as (w & c & H & -> & ->); eauto 8|]. intros (t & -> & w & c & H & -> & ->). now apply path_complete.
  - intros xs v v' (w & c & H & E & ->) (w' & c' & H' & E' & ->). f_equal. apply (words_one w w'); auto. congruence.
  - exact Hem.
  - exists n. intros bmr E SErr into text fuel Hf m. destruct (Hn bmr E SErr into text fuel Hf) as (H1 & H2). split.
    + intros w c H E'. apply H1. eauto 8.
    + intros H. destruct H2 as (o & H2 & H3); [intros v (w & c & K & E' & _); exact (H w c K E')|]. exists o. split; [|exact H3].
      destruct H2 as (i & K1 & K2 & (rest & v & w & c & K3 & K3' & _) & K4). exists i. repeat split; [exact K1|exact K2|eauto 8|]. intros Hi rest' (w' & c' & Hr & Hr'). apply (K4 Hi rest'). eauto 8.
Qed.

(** ** tests/test_large_or.rs *)
Theorem letters_run (bm : BuildMode) em : item_of bm large_or_input em ->
  exists n, forall (bmr : BuildMode) (E SErr : Type) (into : SErr -> Empty_set) text fuel, n * S (List.length text) <= fuel ->
  let m := run_emitted (bm := bmr) u32_rust into (of_list (map (fun c : N => TRaw c) text)) (read_body u32_readings) fuel em : Rust.result (E := E) u32_rust in
  (forall c, letter c -> text = [c] -> gives_value u32_rust m (RTok (TRaw c))) /\
  ((forall c, letter c -> text <> [c]) ->
   exists o, first_wrong (fun text => exists c, letter c /\ text = [c]) text o /\
     gives_error u32_rust m (ParseError u32_rust (option_map (fun c : N => TRaw c) o))).
Proof.
  intros Hem.
  destruct (test_language large_or_input [] or_gi ltac:(checked) ltac:(checked) ltac:(checked)
    u32_rust u32_readings ltac:(reflexivity) ltac:(checked) ltac:(intros []) ltac:(all_terminals) ltac:(checked)
    (fun c : N => TRaw c) ltac:(intros x y H; now injection H) (fun text v => exists c, letter c /\ text = [c] /\ v = RTok (TRaw c))) with (bm := bm) (em := em) as (n & Hn).
  - intros ts v. rewrite or_iff. split; [intros (c & H & -> & ->); exists [c]; eauto 8|]. intros (t & -> & c & H & -> & ->). eauto.
  - intros xs v v' (c & H & E & ->) (c' & H' & E' & ->). congruence.
  - exact Hem.
  - exists n. intros bmr E SErr into text fuel Hf m. destruct (Hn bmr E SErr into text fuel Hf) as (H1 & H2). split.
    + intros c H E'. apply H1. eauto 8.
    + intros H. destruct H2 as (o & H2 & H3); [intros v (c & K & E' & _); exact (H c K E')|]. exists o. split; [|exact H3].
      destruct H2 as (i & K1 & K2 & (rest & v & c & K3 & K3' & _) & K4). exists i. repeat split; [exact K1|exact K2|eauto 8|]. intros Hi rest' (c' & Hr & Hr'). apply (K4 Hi rest'). eauto 8.
Qed.
