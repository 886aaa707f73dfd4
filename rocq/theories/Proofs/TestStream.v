(** Meanings in the grammars of tests/fallible_input_stream.rs and of AddMul in
    tests/sanity_tests.rs (C69). *)
From Coq Require Import Arith Bool String Ascii NArith List Lia.
From Verif Require Import Base.Prelude Spec.Grammar Model.TokenTree Model.Terminal Model.Constructor Model.CodeGen Model.Runtime Model.Symbol Model.FrontEnd.
From Verif Require Import Model.TestGrammars Spec.Values Spec.Meaning Spec.TestLanguages Spec.TestFailures.
From Verif Require Import Proofs.MacroRefute Proofs.Meaning Proofs.TestGrammars Proofs.TestLanguages Proofs.TestCalc Proofs.TestFailures Proofs.TestSmall.
Import ListNotations.
Open Scope string_scope.
Open Scope list_scope.

(** ** Words of grammars whose constructors do not fail *)
Section Words.
Variable R : rust.
Variable gi : grammar_info.
Notation T := (total_rust R).
Lemma total_means : (forall l ts v, means R gi l ts v -> exists v', means T gi l ts v') /\ (forall ns ts vs, all_mean R gi ns ts vs -> exists vs', all_mean T gi ns ts vs').
Proof.
  apply means_ind2.
  - intros i r ts vs v Hi _ (vs' & IH) _. destruct (total_value R gi i (combine (node_indices (pr_nodes r)) vs')) as (v' & Hv). exists v'. exact (means_rule T gi i r ts vs' v' Hi IH Hv).
  - exists []. exact (am_nil T gi).
  - intros s k ns ts vs Hm _ (vs' & IH). exists (leaf_value T s k :: vs'). exact (am_symbol T gi s k ns ts vs' Hm IH).
  - intros l ts v ns ts' vs _ (v' & IH1) _ (vs' & IH2). exists (v' :: vs'). exact (am_label T gi _ _ _ _ _ _ IH1 IH2).
  - intros ns ts vs _ (vs' & IH). exists vs'. exact (am_nothing T gi _ _ _ IH).
Qed.
Hypothesis Hval : forall i vars, exists v, rule_value R gi i vars = inl v.
Lemma means_total : (forall l ts v, means T gi l ts v -> exists v', means R gi l ts v') /\ (forall ns ts vs, all_mean T gi ns ts vs -> exists vs', all_mean R gi ns ts vs').
Proof.
  apply means_ind2.
  - intros i r ts vs v Hi _ (vs' & IH) _. destruct (Hval i (combine (node_indices (pr_nodes r)) vs')) as (v' & Hv). exists v'. exact (means_rule R gi i r ts vs' v' Hi IH Hv).
  - exists []. exact (am_nil R gi).
  - intros s k ns ts vs Hm _ (vs' & IH). exists (leaf_value R s k :: vs'). exact (am_symbol R gi s k ns ts vs' Hm IH).
  - intros l ts v ns ts' vs _ (v' & IH1) _ (vs' & IH2). exists (v' :: vs'). exact (am_label R gi _ _ _ _ _ _ IH1 IH2).
  - intros ns ts vs _ (vs' & IH). exists vs'. exact (am_nothing R gi _ _ _ IH).
Qed.
Lemma words_mean ts : is_word R gi ts <-> exists v, input_means R gi ts v.
Proof.
  split.
  - intros (v & r & vs & H0 & Hm & _). destruct (proj2 means_total _ _ _ Hm) as (vs' & Hm'). destruct (Hval 0 (combine (node_indices (pr_nodes r)) vs')) as (v' & Hv).
    exists v', r, vs'. auto.
  - intros (v & r & vs & H0 & Hm & _). destruct (proj2 total_means _ _ _ Hm) as (vs' & Hm'). destruct (total_value R gi 0 (combine (node_indices (pr_nodes r)) vs')) as (v' & Hv).
    exists v', r, vs'. auto.
Qed.
End Words.

(** ** tests/fallible_input_stream.rs *)
Definition stream_gi : grammar_info := Eval vm_compute in decl_gi (decls_of fallible_input_stream_input).
Notation rust0 := u32_fallible.
Notation raw0 c := (RTok (TRaw c) : val rust0).

Lemma stream_values i vars : exists v, rule_value rust0 stream_gi i vars = inl v.
Proof.
  apply (rules_succeed rust0 stream_gi u32_readings); [reflexivity|eexists; reflexivity|].
  repeat constructor; intros vs u; cbn -[wrap to_digit N.mul N.add]; repeat match goal with |- context [match ?x with _ => _ end] => destruct x end; discriminate.
Qed.

Definition stream_means (l : string) (ts : list (tok rust0)) (v : val rust0) : Prop :=
  if String.eqb l "dig" then exists d, (d < 10)%N /\ ts = raws rust0 [digit_char d] /\ v = raw0 (digit_char d)
  else if String.eqb l "S" then exists a b, (a < 10)%N /\ (b < 10)%N /\ ts = raws rust0 [digit_char a; 43%N; digit_char b] /\ v = RUser (a + b)%N
  else exists d, (d < 10)%N /\ ts = raws rust0 [digit_char d] /\ v = RUser d.

Notation value0 i vs := (rule_value rust0 stream_gi i (combine (node_indices (match nth_error (gi_rules stream_gi) i with Some r => pr_nodes r | None => [] end)) vs)).
Notation ok0 v := (@inl (val rust0) (UErr rust0) v).
Lemma sum_value0 a b c : (a < 10)%N -> (b < 10)%N -> value0 0 [RUser a; raw0 c; RUser b] = ok0 (RUser (a + b)%N).
Proof. intros Ha Hb. change (ok0 (RUser (wrap (a + b))) = ok0 (RUser (a + b)%N)). rewrite wrap_small; [reflexivity|]. unfold u32_size. lia. Qed.
Lemma dig_value0 d : (d < 10)%N -> wrap (digit_char d + (u32_size - 48)) = d.
Proof.
  intros H. unfold wrap, digit_char. replace (48 + d + (u32_size - 48))%N with (d + 1 * u32_size)%N by (unfold u32_size; lia). rewrite N.mod_add by discriminate. apply N.mod_small. unfold u32_size. lia.
Qed.
Lemma a_value0 d : (d < 10)%N -> value0 1 [raw0 (digit_char d)] = ok0 (RUser d).
Proof. intros H. change (ok0 (RUser (wrap (digit_char d + (u32_size - 48)))) = ok0 (RUser d)). now rewrite dig_value0. Qed.
Lemma b_value0 d : (d < 10)%N -> value0 2 [raw0 (digit_char d)] = ok0 (RUser d).
Proof. intros H. change (ok0 (RUser (wrap (digit_char d + (u32_size - 48)))) = ok0 (RUser d)). now rewrite dig_value0. Qed.

Lemma stream_rules i r ts vs v : nth_error (gi_rules stream_gi) i = Some r -> spread rust0 stream_gi stream_means (pr_nodes r) ts vs ->
  rule_value rust0 stream_gi i (combine (node_indices (pr_nodes r)) vs) = inl v -> stream_means (pr_name r) ts v.
Proof.
  intros Hi Hs Hv. rule_cases i Hi.
  { destruct Hs as (t1 & t2 & v1 & vs' & -> & -> & (a & Ha & -> & ->) & k & t3 & vs2 & -> & -> & K & t4 & t5 & v2 & vs3 & -> & -> & (b & Hb & -> & ->) & -> & ->).
    apply raw_sym in K; [|reflexivity]. subst k. pose proof (eq_trans (eq_sym (sum_value0 a b 43%N Ha Hb)) Hv) as E. injection E as <-. exists a, b. auto. }
  rule_cases i Hi.
  { destruct Hs as (t1 & t2 & v1 & vs' & -> & -> & (d & Hd & -> & ->) & -> & ->). pose proof (eq_trans (eq_sym (a_value0 d Hd)) Hv) as E. injection E as <-. exists d. auto. }
  rule_cases i Hi.
  { destruct Hs as (t1 & t2 & v1 & vs' & -> & -> & (d & Hd & -> & ->) & -> & ->). pose proof (eq_trans (eq_sym (b_value0 d Hd)) Hv) as E. injection E as <-. exists d. auto. }
  do 10 (rule_cases i Hi; [one_token Hs; match goal with H : _ = inl ?v |- stream_means _ [TRaw ?c] _ => value_is H (RTok (TRaw c) : val rust0) end; cbn;
      first [exists 0%N; split; [reflexivity|split; reflexivity]|exists 1%N; split; [reflexivity|split; reflexivity]|exists 2%N; split; [reflexivity|split; reflexivity]|exists 3%N; split; [reflexivity|split; reflexivity]
            |exists 4%N; split; [reflexivity|split; reflexivity]|exists 5%N; split; [reflexivity|split; reflexivity]|exists 6%N; split; [reflexivity|split; reflexivity]|exists 7%N; split; [reflexivity|split; reflexivity]
            |exists 8%N; split; [reflexivity|split; reflexivity]|exists 9%N; split; [reflexivity|split; reflexivity]]|]).
  destruct i; discriminate.
Qed.

Lemma dig_means0 d : (d < 10)%N -> means rust0 stream_gi "dig" (raws rust0 [digit_char d]) (raw0 (digit_char d)).
Proof.
  intros H. set (r := mk_prule "dig" (Some [TIdent "char"]) [PNSymbol (mk_symbol (String "'" (String (ascii_of_N (48 + d)) "'")) PGNone)] None).
  apply (means_rule rust0 stream_gi (3 + N.to_nat d) r (raws rust0 [digit_char d]) [raw0 (digit_char d)]); subst r;
    (assert (Hd : (d = 0 \/ d = 1 \/ d = 2 \/ d = 3 \/ d = 4 \/ d = 5 \/ d = 6 \/ d = 7 \/ d = 8 \/ d = 9)%N) by lia);
    repeat (destruct Hd as [->|Hd]); try subst d; try reflexivity;
    (refine (am_symbol rust0 stream_gi _ (TRaw _) [] [] [] _ (am_nil _ _)); reflexivity).
Qed.

Lemma is_digit_char d : (d < 10)%N -> is_digit (digit_char d) = true.
Proof. intros H. unfold is_digit, digit_char. rewrite (proj2 (N.leb_le 48 (48 + d))), (proj2 (N.leb_le (48 + d) 57)) by lia. reflexivity. Qed.
Lemma digit_inv c : is_digit c = true -> exists d, (d < 10)%N /\ c = digit_char d.
Proof. unfold is_digit, digit_char. rewrite andb_true_iff, !N.leb_le. intros (H1 & H2). exists (c - 48)%N. lia. Qed.

Lemma add_digits_sum text n : add_digits text = Sum n <-> exists a b, (a < 10)%N /\ (b < 10)%N /\ text = [digit_char a; 43%N; digit_char b] /\ n = (a + b)%N.
Proof.
  split.
  - unfold add_digits. destruct text as [|x text]; [discriminate|]. destruct (is_digit x) eqn:Hx; [|discriminate]. destruct text as [|p text]; [discriminate|].
    destruct (N.eqb_spec p 43) as [->|]; [|discriminate]. destruct text as [|y text]; [discriminate|]. destruct (is_digit y) eqn:Hy; [|discriminate]. destruct text; [|discriminate].
    apply digit_inv in Hx as (a & Ha & ->). apply digit_inv in Hy as (b & Hb & ->). intros [= <-]. exists a, b. repeat split; auto. unfold digit_char. lia.
  - intros (a & b & Ha & Hb & -> & ->). unfold add_digits. rewrite (is_digit_char a Ha), (is_digit_char b Hb). cbn [negb N.eqb Pos.eqb]. f_equal. unfold digit_char. lia.
Qed.

Lemma stream_iff ts v : input_means rust0 stream_gi ts v <-> exists text n, ts = raws rust0 text /\ add_digits text = Sum n /\ v = RUser n.
Proof.
  split.
  - intros H. apply (input_rules rust0 stream_gi stream_means _ _ stream_rules) in H. destruct H as (r & H0 & H). injection H0 as <-. destruct H as (a & b & Ha & Hb & -> & ->).
    exists [digit_char a; 43%N; digit_char b], (a + b)%N. split; [reflexivity|]. split; [|reflexivity]. apply add_digits_sum. exists a, b. auto.
  - intros (text & n & -> & H & ->). apply add_digits_sum in H. destruct H as (a & b & Ha & Hb & -> & ->).
    eexists _, [RUser a; raw0 43%N; RUser b]. split; [reflexivity|]. split; [|exact (sum_value0 a b 43%N Ha Hb)].
    apply (am_label rust0 stream_gi "A" (raws rust0 [digit_char a]) (RUser a)).
    + refine (unit_rule rust0 stream_gi 1 _ _ _ _ _ _ _ eq_refl (dig_means0 a Ha) (a_value0 a Ha)).
    + apply (am_symbol rust0 stream_gi (mk_symbol "'+'" PGNone) (TRaw 43%N)); [reflexivity|]. apply unit_mean.
      refine (unit_rule rust0 stream_gi 2 _ _ _ _ _ _ _ eq_refl (dig_means0 b Hb) (b_value0 b Hb)).
Qed.

(** The error of [add_digits] is at the first wrong character. *)
Definition adds (text : list N) : Prop := exists n, add_digits text = Sum n.
Lemma adds_iff text : adds text <-> exists a b, (a < 10)%N /\ (b < 10)%N /\ text = [digit_char a; 43%N; digit_char b].
Proof.
  split; [intros (n & H); apply add_digits_sum in H as (a & b & Ha & Hb & -> & _); eauto|intros (a & b & Ha & Hb & ->); exists (a + b)%N; apply add_digits_sum; eauto 8].
Qed.
Lemma adds_wrong text o : first_wrong adds text o -> ~ adds text -> add_digits text = Unexpected o.
Proof.
  intros (n & Hn & -> & (rest & Hw) & Hbad) Hno. apply adds_iff in Hw as (a & b & Ha & Hb & Hw).
  assert (Hb' : n < List.length text -> forall x y r, (x < 10)%N -> (y < 10)%N -> firstn (S n) text ++ r <> [digit_char x; 43%N; digit_char y]).
  { intros Hl x y r Hx Hy E. apply (Hbad Hl r). apply adds_iff. eauto. }
  pose proof (is_digit_char a Ha) as Da. pose proof (is_digit_char b Hb) as Db.
  destruct text as [|c1 text]; [destruct n; [reflexivity|cbn in Hn; lia]|]. cbn [add_digits].
  destruct n as [|n].
  { destruct (is_digit c1) eqn:D; [exfalso|reflexivity]. apply digit_inv in D as (x & Hx & ->). exact (Hb' ltac:(cbn; lia) x 0%N [43%N; 48%N] Hx ltac:(lia) eq_refl). }
  cbn [firstn app] in Hw. injection Hw as -> Hw. rewrite Da. cbn [negb nth_error].
  destruct text as [|c2 text]; [destruct n; reflexivity|]. destruct n as [|n].
  { destruct (N.eqb_spec c2 43) as [->|]; [exfalso|reflexivity]. exact (Hb' ltac:(cbn; lia) a 0%N [48%N] Ha ltac:(lia) eq_refl). }
  cbn [firstn app] in Hw. injection Hw as -> Hw. cbn [N.eqb Pos.eqb negb nth_error].
  destruct text as [|c3 text]; [destruct n; reflexivity|]. destruct n as [|n].
  { destruct (is_digit c3) eqn:D; [exfalso|reflexivity]. apply digit_inv in D as (x & Hx & ->). exact (Hb' ltac:(cbn; lia) a x [] Ha Hx eq_refl). }
  cbn [firstn app] in Hw. injection Hw as -> Hw. rewrite Db. cbn [negb nth_error]. apply app_eq_nil in Hw as (Hw & _).
  destruct text as [|c4 text]; [exfalso; apply Hno; apply adds_iff; eauto|]. destruct n; [reflexivity|discriminate].
Qed.
Lemma adds_begin text ys : adds (text ++ ys) -> forall c, add_digits text <> Unexpected (Some c).
Proof.
  intros H c. apply adds_iff in H as (a & b & Ha & Hb & H). pose proof (is_digit_char a Ha) as Da. pose proof (is_digit_char b Hb) as Db.
  destruct text as [|c1 text]; [discriminate|]. cbn [app] in H. injection H as -> H. cbn [add_digits]. rewrite Da. cbn [negb].
  destruct text as [|c2 text]; [discriminate|]. cbn [app] in H. injection H as -> H. cbn [N.eqb Pos.eqb negb].
  destruct text as [|c3 text]; [discriminate|]. cbn [app] in H. injection H as -> H. rewrite Db. cbn [negb]. apply app_eq_nil in H as (-> & _). discriminate.
Qed.
Lemma stream_words ts : is_word rust0 stream_gi ts <-> exists text, ts = raws rust0 text /\ adds text.
Proof.
  rewrite (words_mean rust0 stream_gi stream_values). split.
  - intros (v & H). apply stream_iff in H as (text & n & -> & H & _). exists text. split; [reflexivity|]. now exists n.
  - intros (text & -> & n & H). exists (RUser n). apply stream_iff. eauto.
Qed.

(** ** AddMul *)
Definition mul_gi : grammar_info := Eval vm_compute in decl_gi (decls_of add_mul_input).
Notation uraws text := (raws u32_rust text).
Definition is_prod23 (ns : list (list N)) : Prop := ns <> [] /\ Forall two_or_three ns.
Definition is_sum23 (ps : list (list (list N))) : Prop := ps <> [] /\ Forall is_prod23 ps.
Lemma two_number n : two_or_three n -> is_number n.
Proof. intros [->| ->]; (split; [discriminate|repeat constructor]). Qed.
Lemma sum23 ps : is_sum23 ps <-> is_sum ps /\ Forall (Forall two_or_three) ps.
Proof.
  unfold is_sum23, is_sum, is_prod23, is_product. split.
  - intros (H1 & H2). split; [split; [exact H1|]|]; (eapply Forall_weaken; [|exact H2]); intros p (P1 & P2); [split; [exact P1|]|exact P2]. eapply Forall_weaken; [|exact P2]. exact two_number.
  - intros ((H1 & H2) & H3). split; [exact H1|]. rewrite Forall_forall in *. intros p Hp. split; [apply (H2 p Hp)|apply (H3 p Hp)].
Qed.

Definition mul_means (l : string) (ts : list (tok u32_rust)) (v : val u32_rust) : Prop :=
  if String.eqb l "V" then exists n, two_or_three n /\ ts = uraws (number_text n) /\ v = num_val (number_value n)
  else if String.eqb l "P" then exists ns, is_prod23 ns /\ ts = uraws (product_text ns) /\ v = num_val (product_value ns)
  else exists ps, is_sum23 ps /\ ts = uraws (sum_text ps) /\ v = num_val (sum_value ps).

Notation valuem i vs := (rule_value u32_rust mul_gi i (combine (node_indices (match nth_error (gi_rules mul_gi) i with Some r => pr_nodes r | None => [] end)) vs)).
Notation okm v := (@inl (val u32_rust) (UErr u32_rust) v).
Notation rawm c := (RTok (TRaw c) : val u32_rust).
Lemma mul_value0 v : valuem 0 [v] = okm v. Proof. reflexivity. Qed.
Lemma mul_value1 a b c : valuem 1 [num_val a; rawm c; num_val b] = okm (num_val (a + b)).
Proof. change (okm (RUser (wrap (wrap a + wrap b))) = okm (num_val (a + b))). now rewrite wrap_add. Qed.
Lemma mul_value2 v : valuem 2 [v] = okm v. Proof. reflexivity. Qed.
Lemma mul_value3 a b c : valuem 3 [num_val a; rawm c; num_val b] = okm (num_val (a * b)).
Proof. change (okm (RUser (wrap (wrap a * wrap b))) = okm (num_val (a * b))). now rewrite wrap_mul. Qed.
Lemma mul_value4 v : valuem 4 [v] = okm v. Proof. reflexivity. Qed.

Lemma mul_rules i r ts vs v : nth_error (gi_rules mul_gi) i = Some r -> spread u32_rust mul_gi mul_means (pr_nodes r) ts vs ->
  rule_value u32_rust mul_gi i (combine (node_indices (pr_nodes r)) vs) = inl v -> mul_means (pr_name r) ts v.
Proof.
  intros Hi Hs Hv. rule_cases i Hi.
  { destruct Hs as (t1 & t2 & v1 & vs' & -> & -> & (ps & H1 & -> & ->) & -> & ->).
    pose proof (eq_trans (eq_sym (mul_value0 _)) Hv) as E. injection E as <-. rewrite app_nil_r. exists ps. auto. }
  rule_cases i Hi.
  { destruct Hs as (t1 & t2 & v1 & vs' & -> & -> & (ps & H1 & -> & ->) & k & t3 & vs2 & -> & -> & K & t4 & t5 & v2 & vs3 & -> & -> & (p & H2 & -> & ->) & -> & ->).
    apply raw_sym in K; [|reflexivity]. subst k. pose proof (eq_trans (eq_sym (mul_value1 (sum_value ps) (product_value p) 43%N)) Hv) as E. injection E as <-.
    exists (ps ++ [p]). split; [split; [apply snoc_not_nil|apply Forall_app; split; [apply H1|constructor; [exact H2|constructor]]]|].
    rewrite sum_text_snoc, sum_snoc by apply H1. rewrite app_nil_r, map_app. auto. }
  rule_cases i Hi.
  { destruct Hs as (t1 & t2 & v1 & vs' & -> & -> & (p & H1 & -> & ->) & -> & ->).
    pose proof (eq_trans (eq_sym (mul_value2 _)) Hv) as E. injection E as <-. rewrite app_nil_r. exists [p]. rewrite sum_one. repeat split; try discriminate. repeat constructor; apply H1. }
  rule_cases i Hi.
  { destruct Hs as (t1 & t2 & v1 & vs' & -> & -> & (ps & H1 & -> & ->) & k & t3 & vs2 & -> & -> & K & t4 & t5 & v2 & vs3 & -> & -> & (p & H2 & -> & ->) & -> & ->).
    apply raw_sym in K; [|reflexivity]. subst k. pose proof (eq_trans (eq_sym (mul_value3 (product_value ps) (number_value p) 42%N)) Hv) as E. injection E as <-.
    exists (ps ++ [p]). split; [split; [apply snoc_not_nil|apply Forall_app; split; [apply H1|constructor; [exact H2|constructor]]]|].
    rewrite product_text_snoc, product_snoc by apply H1. rewrite app_nil_r, map_app. auto. }
  rule_cases i Hi.
  { destruct Hs as (t1 & t2 & v1 & vs' & -> & -> & (p & H1 & -> & ->) & -> & ->).
    pose proof (eq_trans (eq_sym (mul_value4 _)) Hv) as E. injection E as <-. rewrite app_nil_r. exists [p]. rewrite product_one. split; [|auto]. split; [discriminate|]. constructor; [exact H1|constructor]. }
  rule_cases i Hi.
  { one_token Hs. value_is Hv (RUser 2%N : val u32_rust). exists [2%N]. split; [now left|auto]. }
  rule_cases i Hi.
  { one_token Hs. value_is Hv (RUser 3%N : val u32_rust). exists [3%N]. split; [now right|auto]. }
  destruct i; discriminate.
Qed.

Lemma two_means n : two_or_three n -> means u32_rust mul_gi "V" (uraws (number_text n)) (num_val (number_value n)).
Proof. intros [->| ->]; [eapply (leaf_rule u32_rust mul_gi 5)|eapply (leaf_rule u32_rust mul_gi 6)]; reflexivity. Qed.
Lemma mul_product ns : is_prod23 ns -> means u32_rust mul_gi "P" (uraws (product_text ns)) (num_val (product_value ns)).
Proof.
  intros (Hne & Hns). induction ns as [|n ns IH] using rev_ind; [congruence|]. apply Forall_app in Hns. destruct Hns as (H1 & H2). inversion H2 as [|? ? Hn _]. subst.
  destruct ns as [|n' ns'].
  - cbn [app]. rewrite product_one. exact (unit_rule u32_rust mul_gi 4 _ _ _ _ _ _ _ eq_refl (two_means n Hn) (mul_value4 _)).
  - set (ns := n' :: ns') in *. rewrite product_snoc, product_text_snoc, map_app by discriminate.
    apply (means_rule u32_rust mul_gi 3 _ _ [num_val (product_value ns); rawm 42%N; num_val (number_value n)] _ eq_refl); [|exact (mul_value3 _ _ _)].
    apply (am_label u32_rust mul_gi "P"); [apply IH; [discriminate|exact H1]|]. apply (am_symbol u32_rust mul_gi (mk_symbol "'*'" PGNone) (TRaw 42%N)); [reflexivity|]. apply unit_mean. now apply two_means.
Qed.
Lemma mul_sum ps : is_sum23 ps -> means u32_rust mul_gi "A" (uraws (sum_text ps)) (num_val (sum_value ps)).
Proof.
  intros (Hne & Hps). induction ps as [|p ps IH] using rev_ind; [congruence|]. apply Forall_app in Hps. destruct Hps as (H1 & H2). inversion H2 as [|? ? Hp _]. subst.
  destruct ps as [|p' ps'].
  - cbn [app]. rewrite sum_one. exact (unit_rule u32_rust mul_gi 2 _ _ _ _ _ _ _ eq_refl (mul_product p Hp) (mul_value2 _)).
  - set (ps := p' :: ps') in *. rewrite sum_snoc, sum_text_snoc, map_app by discriminate.
    apply (means_rule u32_rust mul_gi 1 _ _ [num_val (sum_value ps); rawm 43%N; num_val (product_value p)] _ eq_refl); [|exact (mul_value1 _ _ _)].
    apply (am_label u32_rust mul_gi "A"); [apply IH; [discriminate|exact H1]|]. apply (am_symbol u32_rust mul_gi (mk_symbol "'+'" PGNone) (TRaw 43%N)); [reflexivity|]. apply unit_mean. now apply mul_product.
Qed.
Lemma mul_iff ts v : input_means u32_rust mul_gi ts v <-> exists text, ts = uraws text /\ exists n, adds_and_multiplies text n /\ v = RUser n.
Proof.
  split.
  - intros H. apply (input_rules u32_rust mul_gi mul_means _ _ mul_rules) in H. destruct H as (r & Hr & H). injection Hr as <-.
    destruct H as (ps & H1 & -> & ->). apply sum23 in H1. exists (sum_text ps). split; [reflexivity|]. exists (wrap (sum_value ps)). split; [exists ps; split; [|split]; [apply H1|apply H1|auto]|reflexivity].
  - intros (text & -> & n & (ps & H1 & H2 & -> & ->) & ->). exact (unit_input u32_rust mul_gi _ _ _ _ _ _ _ eq_refl (mul_sum ps (proj2 (sum23 ps) (conj H1 H2))) (mul_value0 _)).
Qed.
Lemma adds_and_multiplies_one text n n' : adds_and_multiplies text n -> adds_and_multiplies text n' -> n = n'.
Proof. intros (ps & H1 & _ & -> & ->) (ps' & H1' & _ & E & ->). apply sum_text_inj in E; auto. now subst. Qed.
