(** The causes of the errors of the generated parser. *)
From Coq Require Import Arith Bool String NArith List Lia Permutation.
From Verif Require Import Base.Prelude Spec.Grammar Spec.Validity Spec.Nullable Spec.Observers Spec.States Model.Error.
From Verif Require Import Model.BitSet Model.FixedMap Model.Vocabulary Model.IndexedGrammar Model.FirstMap.
From Verif Require Import Model.Position Model.Closure Model.LRTable Model.StateMap Model.ParseSimulator.
From Verif Require Import Model.TokenTree Model.Terminal Model.Constructor Model.CodeGen Model.Runtime Spec.Values.
From Verif Require Import Proofs.WP Proofs.BitSetProofs Proofs.FixedMapProofs Proofs.VocabProofs.
From Verif Require Import Proofs.IndexedProofs Proofs.IndexedBuild Proofs.IndexedMain Proofs.FirstProofs.
From Verif Require Import Proofs.ClosureProofs Proofs.ItemSets Proofs.TableProofs Proofs.TableBuild.
From Verif Require Import Proofs.Fuel Proofs.Machine Proofs.MixedRuns Proofs.ParserFinal Proofs.RecognitionFinal Proofs.IndexedFinal Proofs.LR1Proofs Proofs.LR1Final Proofs.StatesFinal Proofs.TableFinal Proofs.StateMapFinal Proofs.GenTable Proofs.ConstructorProofs Proofs.GenCode Proofs.GenRun Proofs.GenPath Proofs.GenFinal Proofs.GenEnds Proofs.GenLang Proofs.GenMain Spec.Causes.
Import ListNotations.

Section Causes.
Context {bm : BuildMode} {E : Type}.
Variable literal_ok : string -> bool.
Variable R : rust.
Variable gi : grammar_info.
Variable F : first_table.
Variable ks : list kernel.
Variable acts : nat -> aug nat -> option action.
Variable gts : nat -> nat -> option nat.
Hypothesis Hsu : setup gi F ks acts gts.
Variable prog : program.
Hypothesis Hprog : program_ok literal_ok gi acts gts prog.
Hypothesis Hdef : defaults_bound (gi_rules gi).
Context {SErr : Type}.
Variable into : SErr -> UErr R.
Variable input : nat -> option (tok R + SErr).
Local Notation g := (source (gi_rules gi)).
Local Notation ig := (gi_grammar gi).
Local Notation toks := (toks R).
Local Notation forest := (forest R).
Local Notation kstep := (kstep R gi acts gts).
Local Notation kmoves := (kmoves literal_ok R gi acts gts input).
Local Notation item_ok := (item_ok literal_ok R gi).
Local Notation log_of := (log_of R gi).
Local Notation evaluates := (evaluates R gi).
Local Notation calls := (calls R gi).
Local Notation run fuel := (parse_fallible (E := E) R into input fuel prog).

Lemma evaluates_value d : evaluates d <-> exists v, has_value R gi d v.
Proof.
  unfold evaluates, Causes.evaluates, has_value. destruct (eval R gi d) as [lg r]. simpl. split.
  - intros (v & ->). eauto.
  - intros (v & lg' & Hx). injection Hx as _ ->. eauto.
Qed.

Lemma moves_values stk stk' : kmoves stk stk' -> Forall (fun x => evaluates (snd x)) stk -> Forall (fun x => evaluates (snd x)) stk'.
Proof.
  induction 1 as [|stk stk' stk'' (o & x & rest & v & _ & _ & Hk & -> & Hv) _ IH]; auto. intros Hf. apply IH. constructor; [apply evaluates_value; eauto|].
  inversion Hk; subst; auto. apply Forall_app in Hf. tauto.
Qed.

Lemma forest_values stk : Forall (fun x => evaluates (snd x)) stk <-> Forall evaluates (forest stk).
Proof.
  rewrite (forest_rev R). rewrite !Forall_forall. setoid_rewrite in_map_iff. setoid_rewrite <- in_rev. split.
  - intros Hx d (x & <- & Hin). auto.
  - intros Hx x Hin. apply Hx. eauto.
Qed.

Lemma log_calls stk : Forall evaluates (forest stk) -> log_of stk = flat_map calls (forest stk).
Proof.
  unfold GenRun.log_of. induction 1 as [|d ds Hd _ IH]; simpl; auto. rewrite IH. f_equal. apply evaluates_value in Hd as (v & lg & He).
  rewrite He. simpl. eapply eval_calls; eauto.
Qed.

Lemma values_list ds : Forall evaluates ds -> exists vs, Forall2 (has_value R gi) ds vs /\ vs = map (value_of R gi) ds.
Proof.
  intros Hf. exists (map (value_of R gi) ds). split; auto. induction Hf as [|d ds Hd _ IH]; simpl; constructor; auto.
  apply evaluates_value in Hd as (v & lg & He). exists lg. unfold value_of. rewrite He. reflexivity.
Qed.

(** The log and the error of a rule whose nodes have values. *)
Lemma node_error i cs lg e : Forall evaluates cs -> eval R gi (Node i cs) = (lg, inr e) ->
  lg = calls (Node i cs) /\ exists vs, Forall2 (fun c v => snd (eval R gi c) = inl v) cs vs /\ rule_value R gi i (combine (indices_of gi i) vs) = inr e.
Proof.
  intros Hc He. destruct (values_list _ Hc) as (vs & Hvs & Hmap). rewrite (eval_node R gi i cs vs Hvs) in He. injection He as <- He. split.
  - simpl. rewrite Hmap. f_equal. rewrite flat_map_concat_map. f_equal. apply map_ext_in. intros d Hd. rewrite Forall_forall in Hc.
    apply Hc, evaluates_value in Hd as (v & lg & Hx). rewrite Hx. simpl. eapply eval_calls; eauto.
  - exists vs. split; auto. clear -Hvs. induction Hvs as [|d v ds vs (lg & Hx) _ IH]; constructor; auto. rewrite Hx. reflexivity.
Qed.

Lemma root_well_formed ts d : parses_tokens R gi ts d -> well_formed R gi d.
Proof.
  intros (_ & Hm & r & tr & Hr & D & Ht). split; auto. exists (Production (symbol r)). rewrite Ht.
  rewrite <- (app_nil_r (map fst (leaves d))). econstructor; eauto. constructor.
Qed.

Theorem error_has_cause fuel st err : run fuel = Ok (st, inr err) ->
  exists ds, Forall (well_formed R gi) ds /\ starts input (tokens_of R ds) /\
  s_calls R (st_stream R st) = S (length (tokens_of R ds)) /\ st_log R st = flat_map calls ds /\
  error_cause R gi into ds (input (length (tokens_of R ds))) err.
Proof.
  intros Hrun. destruct (run_cases (E := E) literal_ok R gi F ks acts gts Hsu prog Hprog Hdef into input fuel) as [Hd|(st' & res & stk & Hr & Hm & Hk & Hs & Hv & Hi & Hin)]; [congruence|].
  rewrite Hrun in Hr. injection Hr as <- <-. pose proof (moves_values _ _ Hm (Forall_nil _)) as Hvals. apply forest_values in Hvals as Hfv.
  pose proof (forest_well_formed literal_ok R gi _ Hi) as Hw. rewrite Hs. cbn [s_calls].
  inversion Hk as [e B1 HH HL|k ty B1 B2 B3 B4 HH HL|o x rest e log B1 B2 B3 B4 HH HL|log res B1 B2 B3 HH HL|o B1 B2 B3 HH HL]; subst.
  - exists (forest stk). split; auto. split; auto. split; auto. split; [apply log_calls; auto|]. change (tokens_of R (forest stk)) with (toks stk). rewrite B1. constructor; auto.
  - exists (forest stk). split; auto. split; auto. split; auto. split; [apply log_calls; auto|]. change (tokens_of R (forest stk)) with (toks stk). unfold next_is in B1. rewrite B1.
    destruct B4 as (sy & sy' & i & i' & x & x' & Hne & A1 & A2 & _ & _ & A5 & A6).
    apply cause_overlap with (s := sy) (s' := sy') (ty := ty); auto; eapply (su_voc _ _ _ _ _ Hsu); eauto.
  - pose proof (kstep_items literal_ok R gi F ks acts gts Hsu _ _ _ Hv Hi B3) as Hi'. pose proof (forest_well_formed literal_ok R gi _ Hi') as Hw'.
    inversion B3 as [k sy i s' C1 C2 C3|o' a a' j r popped rst s' C1 C2 C3 C4 C5 C6 C7]; subst; [discriminate B4|].
    simpl snd in B4. apply Forall_app in Hvals as (Hv1 & Hv2). apply forest_values in Hv1, Hv2.
    destruct (node_error _ _ _ _ Hv1 B4) as (-> & vs & D1 & D2).
    assert (Htk : tokens_of R (forest rest ++ [Node (original_index r) (forest popped)]) = toks (popped ++ rest)).
    { unfold tokens_of, GenRun.toks. rewrite forest_app, !flat_map_app, flat_map_one. reflexivity. }
    exists (forest rest ++ [Node (original_index r) (forest popped)]). split; [exact Hw'|]. rewrite Htk. split; auto. split; auto. split.
    + rewrite log_of_cons, log_calls by auto. cbn [snd]. rewrite B4. cbn [fst]. rewrite flat_map_app, flat_map_one. reflexivity.
    + unfold next_is in B1. rewrite B1. eapply cause_constructor; eauto.
  - destruct res as [v|e]; [discriminate|]. injection HH as <-. destruct (accept_tree literal_ok R gi F ks acts gts Hsu _ Hv Hi B2) as (Hp & _).
    destruct (node_error _ _ _ _ Hfv B3) as (-> & vs & D1 & D2).
    assert (Htk : tokens_of R [Node 0 (forest stk)] = toks stk) by (unfold tokens_of, GenRun.toks; rewrite flat_map_one; reflexivity).
    exists [Node 0 (forest stk)]. split; [constructor; [eapply root_well_formed; eauto|constructor]|]. rewrite Htk. split; auto. split; auto. split; [rewrite flat_map_one; auto|].
    unfold next_is in B1. rewrite B1. eapply (cause_constructor R gi into _ None []); eauto. reflexivity.
  - exists (forest stk). split; auto. split; auto. split; auto. split; [apply log_calls; auto|]. change (tokens_of R (forest stk)) with (toks stk). unfold next_is in B1. rewrite B1. constructor; auto.
Qed.
End Causes.

Theorem generated_causes (bmg : BuildMode) literal_ok gi p : generated (bm := bmg) literal_ok gi p ->
  forall (bm : BuildMode) (E : Type) (R : rust) (SErr : Type) (into : SErr -> UErr R) input fuel st err,
  parse_fallible (E := E) R into input fuel p = Ok (st, inr err) ->
  exists ds, Forall (well_formed R gi) ds /\ starts input (tokens_of R ds) /\
  s_calls R (st_stream R st) = S (length (tokens_of R ds)) /\ st_log R st = flat_map (calls R gi) ds /\
  error_cause R gi into ds (input (length (tokens_of R ds))) err.
Proof.
  intros Hg bm E R SErr into input fuel st err Hr. destruct (generated_setup literal_ok gi p Hg) as (F & ks & acts & gts & Hsu & _ & Hd & Hp).
  exact (error_has_cause literal_ok R gi F ks acts gts Hsu p (Hp _ p Hg) Hd into input fuel st err Hr).
Qed.
