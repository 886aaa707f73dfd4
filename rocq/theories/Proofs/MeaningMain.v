(** Emitted parsers compute meanings (C63). *)
From Coq Require Import Arith Bool String Ascii NArith List Lia.
From Verif Require Import Base.Prelude Spec.Grammar Spec.Observers Spec.Values Spec.Nullable Spec.EmittedCode Spec.Meaning.
From Verif Require Import Model.TokenTree Model.Terminal Model.Constructor Model.CodeGen Model.Runtime Model.Rust Model.Emit.
From Verif Require Import Model.Symbol Model.FrontEnd Model.Diagnostics Model.Expand.
From Verif Require Import Spec.Macro Spec.Diagnostics Spec.Expansion.
From Verif Require Import Proofs.Fuel Proofs.GenMain Proofs.EmitRun Proofs.EmitMain Proofs.StepsFinal Proofs.Meaning Proofs.Causes Proofs.FailMain Proofs.MacroMain Proofs.ExpandMain.
Import ListNotations.
Open Scope string_scope.
Open Scope list_scope.

Lemma runs_longer {bm : BuildMode} {E : Type} (R : rust) {SErr : Type} (into : SErr -> UErr R) input f f' p x : f <= f' ->
  parse_fallible (E := E) R into input f p = Ok x -> parse_fallible (E := E) R into input f' p = Ok x.
Proof. intros Hf. apply le_ok. unfold parse_fallible. apply le_while; [exact Hf|]. intros. apply le_refl. Qed.

Section Generated.
Context {bmg : BuildMode}.
Variable literal_ok : string -> bool.
Variable gi : grammar_info.
Variable p : program.
Hypothesis Hgen : generated (bm := bmg) literal_ok gi p.
Hypothesis Hfirst : Observers.first_complete (bm := bmg) (source (gi_rules gi)).

Lemma meaning_run {bm : BuildMode} {E : Type} (R : rust) {SErr : Type} (into : SErr -> UErr R) toks v :
  unambiguous_tokens R gi toks -> input_means R gi toks v ->
  exists N st, forall fuel, N < fuel -> parse_fallible (E := E) R into (of_list toks) fuel p = Ok (st, inl v).
Proof.
  intros Hu Hm. apply meaning_iff in Hm. destruct Hm as (t & Ht & Hv).
  destruct (main_sentence literal_ok gi (E := E) R p Hgen into toks t Hfirst Hu Ht) as (N & st & Hrun & _).
  rewrite Hv in Hrun. eauto.
Qed.

Theorem meaning_unique (R : rust) toks v v' : unambiguous_tokens R gi toks -> input_means R gi toks v -> input_means R gi toks v' -> v = v'.
Proof.
  intros Hu H1 H2. 
  destruct (meaning_run (bm := true) (E := unit) (SErr := Empty_set) R (fun e => match e with end) toks v Hu H1) as (N1 & st1 & R1).
  destruct (meaning_run (bm := true) (E := unit) (SErr := Empty_set) R (fun e => match e with end) toks v' Hu H2) as (N2 & st2 & R2).
  specialize (R1 (S (N1 + N2)) ltac:(lia)). specialize (R2 (S (N1 + N2)) ltac:(lia)). rewrite R1 in R2. now injection R2.
Qed.

Lemma fails_run (bm : BuildMode) (E : Type) (R : rust) (SErr : Type) (into : SErr -> UErr R) toks u :
  unambiguous_tokens R gi toks -> constructor_fails R gi toks u ->
  exists N st, forall fuel, N < fuel -> parse_fallible (E := E) R into (of_list toks) fuel p = Ok (st, inr (UserError R u)).
Proof.
  intros Hu Hc. destruct (generated_setup literal_ok gi p Hgen) as (F & ks & acts & gts & Hsu & Hfc & Hd & Hp).
  exact (run_fails (E := E) literal_ok R gi F ks acts gts Hsu p (Hp _ p Hgen) Hd into toks u (Hfc Hfirst) Hu Hc).
Qed.

Lemma run_errs (bm : BuildMode) (E : Type) (R : rust) (SErr : Type) (into : SErr -> UErr R) toks fuel st u :
  productive (source (gi_rules gi)) -> parse_fallible (E := E) R into (of_list toks) fuel p = Ok (st, inr (UserError R u)) -> constructor_fails R gi toks u.
Proof.
  intros Hpr Hr. destruct (generated_setup literal_ok gi p Hgen) as (F & ks & acts & gts & Hsu & Hfc & Hd & Hp).
  exact (error_fails (E := E) literal_ok R gi F ks acts gts Hsu p (Hp _ p Hgen) Hd into toks fuel st u Hpr Hr).
Qed.

Lemma starts_firstn {A X : Type} (l u : list A) : Values.starts (of_list l : nat -> option (A + X)) u -> u = firstn (List.length u) l.
Proof.
  revert l. induction u as [|a u IH]; intros l H; [reflexivity|].
  pose proof (H 0 a eq_refl) as H0. unfold of_list in H0. destruct l as [|b l]; [discriminate|]. cbn in H0. injection H0 as ->. cbn. f_equal.
  apply IH. intros i x Hx. exact (H (S i) x Hx).
Qed.

Lemma error_right (bm : BuildMode) (E : Type) (R : rust) (SErr : Type) (into : SErr -> UErr R) toks fuel st e :
  productive (source (gi_rules gi)) -> unambiguous_tokens R gi toks ->
  parse_fallible (E := E) R into (of_list toks) fuel p = Ok (st, inr e) -> right_error R gi toks e.
Proof.
  intros Hpr Hu Hr. destruct e as [o|k|u].
  - right. destruct (@main_error bmg literal_ok gi bm E R p Hgen SErr into (of_list toks) fuel st o Hr) as (u & H1 & H2 & H3 & H4 & H5).
    pose proof (starts_firstn _ _ H1) as Eu. set (n := List.length u) in *.
    assert (Hn : n <= List.length toks). { unfold n. rewrite Eu, firstn_length. apply Nat.le_min_r. }
    assert (Ho : o = nth_error toks n).
    { unfold of_list in H2. destruct (nth_error toks n), o; cbn in H2; congruence. }
    exists n. split; [exact Hn|]. split; [now rewrite Ho|]. split; [|split].
    + intros x Hx. destruct (fails_run bm E R SErr into toks x Hu Hx) as (N & st' & HN). specialize (HN (S (N + fuel)) ltac:(lia)).
      rewrite (runs_longer R into (of_list toks) fuel (S (N + fuel)) p _ ltac:(lia) Hr) in HN. discriminate.
    + destruct (H4 Hpr) as (us & vs & H6 & H7). exists us, vs. rewrite <- Eu. auto.
    + intros Hlt (us & vs & Hus & Hlang). destruct (nth_error toks n) as [k|] eqn:Ek; [|apply nth_error_None in Ek; lia]. subst o.
      assert (Ef : firstn (S n) toks = u ++ [k]).
      { rewrite Eu. clear - Ek. revert toks Ek. induction n as [|n IH]; intros [|a l] H; cbn in *; try discriminate; [now injection H as ->|]. now rewrite (IH l H). }
      rewrite Ef in Hus. refine (H5 Hfirst _ us vs Hus _ Hlang); [|discriminate].
      intros k' s s' Hin. apply (Hu k' s s'). cbn in Hin. change (In k' (u ++ [k])) in Hin. rewrite <- Ef in Hin. rewrite <- (firstn_skipn (S n) toks). apply in_or_app. now left.
  - exfalso. destruct (generated_causes bmg literal_ok gi p Hgen bm E R SErr into (of_list toks) fuel st _ Hr) as (ds & _ & _ & _ & _ & Hc).
    inversion Hc as [| k' s s' ty ? ? ? Hne Hs Hs' Hm Hm' Hin| |]; subst. apply Hne. apply (Hu k s s'); auto.
    unfold of_list in Hin. destruct (nth_error toks (List.length (Values.tokens_of R ds))) eqn:En; [|discriminate]. injection Hin as ->. eapply nth_error_In; eauto.
  - left. exists u. split; [reflexivity|]. eapply run_errs; eauto.
Qed.

Theorem emitted_means : hygienic_rules (gi_rules gi) ->
  exists C, forall (bm : BuildMode) (E : Type) (R : rust) (SErr : Type) (into : SErr -> UErr R) bv, describes R SErr bv -> depends_on_named R SErr bv ->
  forall vis name ety rt toks fuel, unambiguous_tokens R gi toks -> C * S (List.length toks) <= fuel ->
  let m := run_emitted R into (of_list toks) bv fuel (emit vis name ety (gi_terminal_type gi) rt p) : result (E := E) R in
  ((exists v, input_means R gi toks v /\ gives_value R m v) \/
  ((forall v, ~ input_means R gi toks v) /\ exists e, (productive (source (gi_rules gi)) -> right_error R gi toks e) /\ gives_error R m e)) /\
  (forall u, constructor_fails R gi toks u -> gives_error R m (UserError R u)).
Proof.
  intros Hh. destruct (generated_linear bmg literal_ok gi p Hgen) as (C & HC). exists C.
  intros bm E R SErr into bv H1 H2 vis name ety rt toks fuel Hu Hf m.
  assert (Hn : forall k, of_list (S := SErr) toks (List.length toks) <> Some (inl k)).
  { intros k. unfold of_list. rewrite (proj2 (nth_error_None toks (List.length toks))); [discriminate|lia]. }
  destruct (HC bm E R SErr into (of_list toks) (List.length toks) Hn (or_introl Hfirst) fuel Hf) as (st & r & Hr).
  pose proof (@emitted_runs bmg literal_ok gi p bm E R SErr into (of_list toks) bv Hgen H1 H2 Hh vis name ety rt fuel) as Hs.
  unfold same_run in Hs. rewrite Hr in Hs. destruct Hs as (stack & Hs). fold m in Hs. split.
  2:{ intros u Hx. destruct (fails_run bm E R SErr into toks u Hu Hx) as (N & st' & HN). specialize (HN (S (N + fuel)) ltac:(lia)).
      rewrite (runs_longer R into (of_list toks) fuel (S (N + fuel)) p _ ltac:(lia) Hr) in HN. injection HN as _ ->. eexists. exact Hs. }
  destruct r as [v|e].
  - left. exists v. split; [|eexists; exact Hs]. apply meaning_iff.
    destruct (main_value literal_ok gi R p Hgen into (of_list toks) fuel st v Hr) as (ts & d & H3 & H4 & H5 & _).
    assert (ts = toks) as ->; [|eauto].
    clear - H3. revert toks H3. induction ts as [|a ts IH]; intros toks H3.
    + specialize (H3 0 (le_n _)). unfold of_list in H3. destruct toks; [reflexivity|discriminate].
    + destruct toks as [|b toks]; [specialize (H3 0 (Nat.le_0_l _)); discriminate|].
      pose proof (H3 0 (Nat.le_0_l _)) as H0. unfold of_list in H0. cbn in H0. injection H0 as ->. f_equal. apply IH.
      intros n Hle. exact (H3 (S n) ltac:(cbn; lia)).
  - right. split; [|exists e; split; [|eexists; exact Hs]; intros Hpr; exact (error_right bm E R SErr into toks fuel st e Hpr Hu Hr)]. intros v Hm. destruct (meaning_run (bm := bm) (E := E) R into toks v Hu Hm) as (N & st' & HN).
    specialize (HN (S (N + fuel)) ltac:(lia)). rewrite (runs_longer R into (of_list toks) fuel (S (N + fuel)) p _ ltac:(lia) Hr) in HN. discriminate.
Qed.
End Generated.

Section Macros.
Context {span : Type}.
Variable call_site : span.
Variable join_spans : span -> span -> option span.
Variable print : list ttree -> string.
Variable lex_error : string -> string.
Variable literal_ok : string -> bool.
Context {bm : BuildMode}.
Variable ho : hash_orders.
Hypothesis Ho : orders_ok ho.

Theorem macros_mean fuel ts em d : reads_as print (trees ts) d -> defaults_bound (d_rules d) -> hygienic_rules (d_rules d) ->
  first_complete (bm := bm) (source (d_rules d)) ->
  Expand.grammar span call_site join_spans print lex_error literal_ok ho fuel ts = Ok (Item span em) \/
  pub_grammar span call_site join_spans print lex_error literal_ok ho fuel ts = Ok (Item span em) ->
  exists gi C, gi_terminal_type gi = d_terminal_type d /\ gi_rules gi = d_rules d /\
  forall (bmr : BuildMode) (E : Type) (R : rust) (SErr : Type) (into : SErr -> UErr R) bv, describes R SErr bv -> depends_on_named R SErr bv ->
  forall toks fuel', unambiguous_tokens R gi toks -> C * S (List.length toks) <= fuel' ->
  let m := run_emitted (bm := bmr) R into (of_list toks) bv fuel' em : Rust.result (E := E) R in
  ((exists v, input_means R gi toks v /\ gives_value R m v) \/
  ((forall v, ~ input_means R gi toks v) /\ exists e, (productive (source (gi_rules gi)) -> right_error R gi toks e) /\ gives_error R m e)) /\
  (forall u, constructor_fails R gi toks u -> gives_error R m (UserError R u)).
Proof.
  intros Rd Db Hy Fc H. apply macros_item in H as [vis H]. destruct (expand_built (bm := bm) call_site join_spans print lex_error literal_ok ho fuel ts vis em Ho H) as (d' & p & P & Ne & B & ->).
  destruct (read_complete print _ _ Rd) as (d2 & P2 & Sm). rewrite P in P2. injection P2 as <-.
  destruct Sm as (En & Et & Ee & Er & _). rewrite <- En, <- Et, <- Ee, <- Er.
  destruct (macro_generated print literal_ok ho fuel _ p d Ho Rd Db B) as (gi & Gt & Gr & _ & Hg). rewrite <- Gr in Hy, Fc.
  destruct (emitted_means literal_ok gi p Hg Fc Hy) as (C & HC). exists gi, C. split; [assumption|]. split; [assumption|].
  rewrite <- Gt. intros bmr E R SErr into bv H1 H2 toks fuel' Hu Hf. exact (HC bmr E R SErr into bv H1 H2 _ _ _ _ toks fuel' Hu Hf).
Qed.
End Macros.
