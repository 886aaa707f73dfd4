(** The generated parser: the properties, for all accepted grammars. *)
From Coq Require Import Arith Bool String NArith List Lia Permutation.
From Verif Require Import Base.Prelude Spec.Grammar Spec.Validity Spec.Nullable Spec.Observers Spec.States Model.Error.
From Verif Require Import Model.BitSet Model.FixedMap Model.Vocabulary Model.IndexedGrammar Model.FirstMap.
From Verif Require Import Model.Position Model.Closure Model.LRTable Model.StateMap Model.ParseSimulator.
From Verif Require Import Model.TokenTree Model.Terminal Model.Constructor Model.CodeGen Model.Runtime Spec.Values.
From Verif Require Import Proofs.WP Proofs.BitSetProofs Proofs.FixedMapProofs Proofs.VocabProofs.
From Verif Require Import Proofs.IndexedProofs Proofs.IndexedBuild Proofs.IndexedMain Proofs.FirstProofs.
From Verif Require Import Proofs.ClosureProofs Proofs.ItemSets Proofs.TableProofs Proofs.TableBuild.
From Verif Require Import Proofs.Fuel Proofs.Machine Proofs.ParserFinal Proofs.RecognitionFinal Proofs.IndexedFinal Proofs.LR1Proofs Proofs.LR1Final Proofs.StatesFinal Proofs.TableFinal Proofs.StateMapFinal Proofs.GenTable Proofs.ConstructorProofs Proofs.GenCode Proofs.GenRun Proofs.GenPath Proofs.GenFinal Proofs.GenEnds Proofs.GenLang.
Import ListNotations.

Definition opt_list {A} (o : option A) : list A := match o with Some a => [a] | None => [] end.

Lemma eval_calls R gi : forall (d : dtree R) log v, eval R gi d = (log, inl v) -> log = calls R gi d.
Proof.
  fix IH 1. intros [[s k]|i ds] log v He; simpl in *; [injection He as <- _; reflexivity|].
  destruct (in_order R (map (eval R gi) ds)) as [lg [vs|e]] eqn:Hd; [|discriminate]. injection He as <- _.
  assert (Hl : lg = flat_map (calls R gi) ds /\ vs = map (value_of R gi) ds).
  { revert lg vs Hd. induction ds as [|d ds IHd]; simpl; intros lg vs Hd; [injection Hd as <- <-; auto|].
    destruct (eval R gi d) as [l1 [v1|e1]] eqn:H1; [|discriminate]. destruct (in_order R (map (eval R gi) ds)) as [l2 [v2|e2]] eqn:H2; [|discriminate].
    injection Hd as <- <-. destruct (IHd _ _ eq_refl) as (<- & <-). split; f_equal; [eapply IH; eauto|]. unfold value_of. rewrite H1. reflexivity. }
  destruct Hl as (-> & ->). reflexivity.
Qed.

Lemma run_agree {bm : BuildMode} {E SErr} R (into : SErr -> UErr R) p input input' N : (forall i, i < N -> input i = input' i) ->
  forall fuel st r, parse_fallible (E := E) R into input fuel p = Ok (st, r) -> 0 < N -> s_calls R (st_stream R st) <= N -> parse_fallible (E := E) R into input' fuel p = Ok (st, r).
Proof.
  intros Hag fuel st r Hr HN Hc. pose proof (proj2 (run_ext (E := E) R into input input' p N Hag fuel _ _ _ Hr) Hc) as Hx.
  unfold parse_fallible, state_new, stream_new in *. rewrite <- (Hag 0 HN). exact Hx.
Qed.

Section Main.
Context {bmg : BuildMode}.
Variable literal_ok : string -> bool.
Variable gi : grammar_info.
Local Notation generated := (generated (bm := bmg)).
Local Notation first_complete := (first_complete (bm := bmg)).
Local Notation g := (source (gi_rules gi)).

Lemma generated_setup p : generated literal_ok gi p -> exists F ks acts gts, setup gi F ks acts gts /\
  (first_complete g -> Fclosed (gi_grammar gi) F) /\ defaults_bound (gi_rules gi) /\
  forall bm' p', Values.generated (bm := bm') literal_ok gi p' -> program_ok literal_ok gi acts gts p'.
Proof.
  intros (Hd & ho & Ha & Ho & Hg). destruct (accepted_setup_first gi Ha) as (F & ks & acts & gts & Hsu & Hf).
  exists F, ks, acts, gts. split; auto. split; auto. split; auto. intros bm' p' (_ & ho' & _ & Ho' & Hg'). eapply generated_ok; eauto.
Qed.

Section One.
Context {bm : BuildMode} {E : Type}.
Variable R : rust.
Variable p : program.
Hypothesis Hgen : generated literal_ok gi p.

Section Stream.
Context {SErr : Type}.
Variable into : SErr -> UErr R.

Section Input.
Variable input : nat -> option (tok R + SErr).
Local Notation run fuel := (parse_fallible (E := E) R into input fuel p).

Lemma main_defined fuel : run fuel = Diverge \/ exists st r, run fuel = Ok (st, r).
Proof.
  destruct (generated_setup p Hgen) as (F & ks & acts & gts & Hsu & _ & Hd & Hp).
  destruct (run_cases (E := E) literal_ok R gi F ks acts gts Hsu p (Hp _ p Hgen) Hd into input fuel) as [->|(st & r & _ & -> & _)]; eauto.
Qed.

Lemma main_value fuel st v : run fuel = Ok (st, inl v) ->
  exists ts d, (forall n, n <= length ts -> input n = of_list ts n) /\ parses_tokens R gi ts d /\ snd (eval R gi d) = inl v /\ st_log R st = calls R gi d /\ map fst (st_log R st) = postorder d.
Proof.
  intros Hr. destruct (generated_setup p Hgen) as (F & ks & acts & gts & Hsu & _ & Hd & Hp).
  destruct (run_value (E := E) literal_ok R gi F ks acts gts Hsu p (Hp _ p Hgen) Hd into input fuel st v Hr) as (ts & d & H1 & H2 & _ & H4 & H5).
  exists ts, d. split.
  { intros n Hn. unfold of_list. destruct (nth_error ts n) as [k|] eqn:Hk; [simpl; apply H1; auto|]. apply nth_error_None in Hk. assert (n = length ts) as -> by lia. auto. }
  split; auto. rewrite H5. split; auto. split; [eapply eval_calls; eauto|eapply eval_postorder; eauto].
Qed.

Lemma main_visible st : visits R into input p st -> exists ds, Forall (well_formed R gi) ds /\ starts input (tokens_of R ds) /\
  st_stream R st = mk_stream R (S (length (tokens_of R ds))) (input (length (tokens_of R ds))) /\
  Forall2 (shows R gi) ds (rev (map snd (removelast (st_stack R st)))) /\
  map fst (st_log R st) = flat_map postorder ds.
Proof.
  intros Hv. destruct (generated_setup p Hgen) as (F & ks & acts & gts & Hsu & _ & Hd & Hp).
  destruct (visits_rel literal_ok R gi F ks acts gts Hsu p (Hp _ p Hgen) Hd into input st Hv) as (stk & Hrel).
  eapply rel_visible; eauto.
Qed.

Lemma main_final_stream fuel st r : run fuel = Ok (st, r) -> exists ts, starts input ts /\ st_stream R st = mk_stream R (S (length ts)) (input (length ts)).
Proof.
  intros Hr. destruct (generated_setup p Hgen) as (F & ks & acts & gts & Hsu & _ & Hd & Hp).
  destruct (run_cases (E := E) literal_ok R gi F ks acts gts Hsu p (Hp _ p Hgen) Hd into input fuel) as [He|(st' & r' & stk & He & _ & _ & Hs & _ & _ & Hst)]; [congruence|].
  rewrite Hr in He. injection He as <- <-. exists (toks R stk). auto.
Qed.

Lemma starts_none ts i : starts input ts -> input i = None -> length ts <= i.
Proof.
  intros Hs Hi. destruct (le_lt_dec (length ts) i) as [|Hlt]; auto. exfalso. destruct (nth_error ts i) as [k|] eqn:Hk; [|apply nth_error_None in Hk; lia].
  rewrite (Hs _ _ Hk) in Hi. discriminate.
Qed.

Lemma main_after_none st i : visits R into input p st -> input i = None -> s_calls R (st_stream R st) <= S i.
Proof.
  intros Hv Hi. destruct (main_visible st Hv) as (ds & _ & Hs & -> & _). simpl. pose proof (starts_none _ _ Hs Hi). lia.
Qed.

Lemma main_after_none_final fuel st r i : run fuel = Ok (st, r) -> input i = None -> s_calls R (st_stream R st) <= S i.
Proof. intros Hr Hi. destruct (main_final_stream _ _ _ Hr) as (ts & Hs & ->). simpl. pose proof (starts_none _ _ Hs Hi). lia. Qed.

Lemma main_error fuel st o : run fuel = Ok (st, inr (ParseError R o)) ->
  exists u, starts input u /\ input (length u) = option_map inl o /\ s_calls R (st_stream R st) = S (length u) /\
  (productive g -> exists us vs, Forall2 (fun s k => sym_matches R gi s k = true) us u /\ language g (us ++ vs)) /\
  (first_complete g -> unambiguous_tokens R gi (u ++ opt_list o) ->
   forall us vs, Forall2 (fun s k => sym_matches R gi s k = true) us (u ++ opt_list o) -> (o = None -> vs = []) -> ~ language g (us ++ vs)).
Proof.
  intros Hr. destruct (generated_setup p Hgen) as (F & ks & acts & gts & Hsu & Hfc & Hd & Hp).
  destruct (run_cases (E := E) literal_ok R gi F ks acts gts Hsu p (Hp _ p Hgen) Hd into input fuel) as [He|(st' & r' & stk & He & Hm & Hk & Hs & Hv & Hi & Hst)]; [congruence|].
  rewrite Hr in He. injection He as <- <-. exists (toks R stk). inversion Hk as [| | |log res B1 B2 B3 HH|o' B1 B2 B3]; subst; [destruct res; discriminate|].
  split; auto. split; [exact B1|]. split; [rewrite Hs; reflexivity|]. split.
  - intros Hpr. eapply viable; eauto.
  - intros Hf Hu us vs Hus Ho. eapply (blocked_impossible literal_ok R gi F ks acts gts Hsu input stk o); eauto.
Qed.

Lemma main_overlap st q v rest k : debug_assertions = true -> (exists ty, gi_terminal_type gi = TTEnum ty) ->
  visits R into input p st -> st_stack R st = (q, v) :: rest -> s_next R (st_stream R st) = Some (inl k) ->
  (exists st', loop_step (E := E) R into input p st = Ok (inr (st', inr (OverlappingTokenMatchers R k)))) <->
  exists s s', s <> s' /\ expects gi q s /\ expects gi q s' /\ sym_matches R gi s k = true /\ sym_matches R gi s' k = true.
Proof.
  intros Hdb Hty Hv Hst Hn. destruct (generated_setup p Hgen) as (F & ks & acts & gts & Hsu & Hfc & Hd & Hp).
  apply (step_overlap (E := E) literal_ok R gi F ks acts gts Hsu p (Hp _ p Hgen) Hd into input st q v rest k); auto.
Qed.
End Input.

Lemma main_stream_error toks e rest fuel st r : parse_fallible (E := E) R into (of_list_then toks e rest) fuel p = Ok (st, r) ->
  s_calls R (st_stream R st) <= S (length toks) /\ (exists err, r = inr err) /\
  (s_calls R (st_stream R st) = S (length toks) -> r = inr (UserError R (into e))) /\
  (s_calls R (st_stream R st) <= length toks -> forall input', starts input' toks -> parse_fallible (E := E) R into input' fuel p = Ok (st, r)) /\
  forall rest', parse_fallible (E := E) R into (of_list_then toks e rest') fuel p = Ok (st, r).
Proof.
  intros Hr. set (input := of_list_then toks e rest) in *. destruct (generated_setup p Hgen) as (F & ks & acts & gts & Hsu & _ & Hd & Hp).
  destruct (run_cases (E := E) literal_ok R gi F ks acts gts Hsu p (Hp _ p Hgen) Hd into input fuel) as [He|(st' & r' & stk & He & _ & Hk & Hs & _ & _ & Hst)]; [congruence|].
  rewrite Hr in He. injection He as <- <-.
  assert (Hat : input (length toks) = Some (inr e)) by (unfold input, of_list_then; rewrite Nat.ltb_irrefl, Nat.eqb_refl; reflexivity).
  assert (Hle : length (GenRun.toks R stk) <= length toks).
  { destruct (le_lt_dec (length (GenRun.toks R stk)) (length toks)) as [|Hlt]; auto. exfalso.
    destruct (nth_error (GenRun.toks R stk) (length toks)) as [k|] eqn:Hn; [|apply nth_error_None in Hn; lia]. rewrite (Hst _ _ Hn) in Hat. discriminate. }
  rewrite Hs. cbn [s_calls]. split; [lia|].
  assert (Hbefore : forall i, i < length toks -> exists k, nth_error toks i = Some k /\ input i = Some (inl k)).
  { intros i Hi. destruct (nth_error toks i) as [k|] eqn:Hn; [|apply nth_error_None in Hn; lia]. exists k. split; auto.
    unfold input, of_list_then. apply Nat.ltb_lt in Hi. rewrite Hi, Hn. reflexivity. }
  assert (Hend : length (GenRun.toks R stk) = length toks -> r = inr (UserError R (into e))).
  { intros Hl. destruct Hk as [e' A|k ty A B C D|o x l e' log A B C D|log res A B C|o A B C]; unfold next_is in *; rewrite Hl, Hat in A; try discriminate; try (destruct o; discriminate).
    congruence. }
  split.
  { destruct (Nat.eq_dec (length (GenRun.toks R stk)) (length toks)) as [Hl|Hne]; [rewrite (Hend Hl); eauto|].
    destruct (Hbefore (length (GenRun.toks R stk))) as (k & _ & Hin); [lia|].
    destruct Hk as [e' A|k' ty A B C D|o x l e' log A B C D|log res A B C|o A B C]; eauto. red in A. rewrite Hin in A. discriminate. }
  split; [intros Hl; apply Hend; lia|].
  split.
  - intros Hl input' Hs'. assert (Hag : forall i, i < length toks -> input i = input' i).
    { intros i Hi. destruct (Hbefore i Hi) as (k & Hn & ->). symmetry. apply Hs'. auto. }
    apply (run_agree R into p input input' (length toks) Hag _ _ _ Hr); [lia|]. rewrite Hs. simpl. lia.
  - intros rest'. apply (run_agree R into p input _ (S (length toks))); auto; [|lia|rewrite Hs; simpl; lia].
    intros i Hi. unfold input, of_list_then. destruct (i <? length toks) eqn:H1; auto. apply Nat.ltb_ge in H1. assert (i = length toks) as -> by lia. rewrite Nat.eqb_refl. auto.
Qed.

Lemma main_sentence ts d : first_complete g -> unambiguous_tokens R gi ts -> parses_tokens R gi ts d ->
  exists N st, (forall fuel, N < fuel -> parse_fallible (E := E) R into (of_list ts) fuel p =
      Ok (st, match snd (eval R gi d) with inl v => inl v | inr e => inr (UserError R e) end)) /\
    st_log R st = fst (eval R gi d).
Proof.
  intros Hf Hu Hpt. destruct (generated_setup p Hgen) as (F & ks & acts & gts & Hsu & Hfc & Hd & Hp).
  destruct (run_sentence (E := E) literal_ok R gi F ks acts gts Hsu p (Hp _ p Hgen) Hd into (Hfc Hf) ts d Hu Hpt) as (N & st & H1 & H2 & _). eauto.
Qed.

Lemma main_ends input : (exists M, forall k, input M <> Some (inl k)) ->
  first_complete g \/ (debug_assertions = true /\ exists ty, gi_terminal_type gi = TTEnum ty) \/
  (forall i k, input i = Some (inl k) -> unambiguous_tokens R gi [k]) ->
  exists N st r, forall fuel, N < fuel -> parse_fallible (E := E) R into input fuel p = Ok (st, r).
Proof.
  intros Hend Hc. destruct (generated_setup p Hgen) as (F & ks & acts & gts & Hsu & Hfc & Hd & Hp).
  apply (run_ends (E := E) literal_ok R gi F ks acts gts Hsu p (Hp _ p Hgen) Hd into input); auto.
  destruct Hc as [Hf|[(Hdb & Hty)|Hu]]; [left; auto|right..].
  - intros stk o Hn Hcl. apply (single_clear R gi acts). intros (k & -> & Ho). exact (Hcl Hdb Hty k eq_refl Ho).
  - intros stk o Hn _. destruct o as [k|]; [|apply single_none]. apply (single_unambiguous R gi F ks acts gts Hsu [k]); [eapply Hu; exact Hn|].
    intros k' Hk. injection Hk as <-. simpl. auto.
Qed.

Lemma main_simulated ts w : unambiguous_tokens R gi ts -> constructors_succeed R gi -> Forall (terminal_in (gi_rules gi)) w ->
  Forall2 (fun s k => sym_matches R gi s k = true) w ts ->
  exists N b st res, forall fuel, N < fuel ->
    parse_stream (E := E) fuel (mk_parser (gi_grammar gi) (gi_table gi)) w = Ok b /\
    parse_fallible (E := E) R into (of_list ts) fuel p = Ok (st, res) /\
    match res with inl _ => b = true | inr (ParseError _ _) => b = false | _ => False end.
Proof.
  intros Hu Hc Hw Hm. destruct (generated_setup p Hgen) as (F & ks & acts & gts & Hsu & Hfc & Hd & Hp).
  apply (run_simulated (E := E) literal_ok R gi F ks acts gts Hsu p (Hp _ p Hgen) Hd into ts w Hu Hc Hw Hm).
Qed.
End Stream.
End One.

(** Two builds of the parser. *)
Section Two.
Context {E : Type}.
Variable R : rust.
Variables bm1 bm2 bmg2 : BuildMode.
Variables p1 p2 : program.
Hypothesis Hg1 : generated literal_ok gi p1.
Hypothesis Hg2 : Values.generated (bm := bmg2) literal_ok gi p2.
Context {SErr : Type}.
Variable into : SErr -> UErr R.
Variable input : nat -> option (tok R + SErr).

Lemma same_observed m1 m2 : same_outcome (E := E) (SErr := SErr) R m1 m2 -> observed m1 = observed m2.
Proof.
  intros [(-> & ->)|([s1 r1] & [s2 r2] & -> & -> & H1 & H2 & H3)]; auto. simpl in *. subst. rewrite H2, H3. reflexivity.
Qed.

Lemma main_same_unambiguous fuel : (forall k, (exists n, input n = Some (inl k)) -> unambiguous_tokens R gi [k]) ->
  observed (parse_fallible (bm := bm1) (E := E) R into input fuel p1) = observed (parse_fallible (bm := bm2) (E := E) R into input fuel p2).
Proof.
  intros Hu. destruct (generated_setup p1 Hg1) as (F & ks & acts & gts & Hsu & _ & Hd & Hp).
  assert (Hsg : forall stk o, next_is R input stk o -> single R gi acts stk o).
  { intros stk o Hn. destruct o as [k|]; [|eapply single_none; eauto]. apply (single_unambiguous R gi F ks acts gts Hsu [k]).
    - apply Hu. exists (length (GenRun.toks R stk)). exact Hn.
    - intros k' He. injection He as ->. simpl. auto. }
  apply same_observed.
  destruct (run_same (E := E) literal_ok R gi F ks acts gts Hsu Hd bm1 bm2 p1 p2 (Hp _ p1 Hg1) (Hp _ p2 Hg2) into input fuel
    (state_new R input (p_root p1, RUnit)) (state_new R input (p_root p2, RUnit)) []) as [Hs|(st & k & Hx)].
  - apply (rel_new literal_ok R gi acts gts p1 (Hp _ p1 Hg1)).
  - apply (rel_new literal_ok R gi acts gts p2 (Hp _ p2 Hg2)).
  - intros stk o Hn. left. auto.
  - exact Hs.
  - exfalso. destruct (run_cases (bm := bm1) (E := E) literal_ok R gi F ks acts gts Hsu p1 (Hp _ p1 Hg1) Hd into input fuel) as [He|(st' & r' & stk & He & _ & Hk & _)];
      unfold parse_fallible in He; rewrite Hx in He; [discriminate|]. injection He as <- <-. 
    inversion Hk as [|k' ty A B C D| |log res A B C HH|]; subst; [|destruct res; discriminate]. eapply single_no_overlap; eauto.
Qed.

Lemma overlap_dec acts stk k : overlap R gi acts stk k \/ ~ overlap R gi acts stk k.
Proof.
  pose (ids := seq 0 (length (id_map (ivocab (gi_grammar gi))))).
  pose (f := fun i i' => match nth_error (id_map (ivocab (gi_grammar gi))) i, nth_error (id_map (ivocab (gi_grammar gi))) i',
      acts (top (bare R stk)) (Token i), acts (top (bare R stk)) (Token i') with
    | Some s, Some s', Some _, Some _ => negb (eqb s s') && sym_matches R gi s k && sym_matches R gi s' k
    | _, _, _, _ => false end).
  destruct (existsb (fun i => existsb (f i) ids) ids) eqn:Hx.
  - left. apply existsb_exists in Hx as (i & _ & Hx). apply existsb_exists in Hx as (i' & _ & Hx). unfold f in Hx.
    destruct (nth_error _ i) as [s|] eqn:H1; [|discriminate]. destruct (nth_error _ i') as [s'|] eqn:H2; [|discriminate].
    destruct (acts _ (Token i)) as [x|] eqn:H3; [|discriminate]. destruct (acts _ (Token i')) as [x'|] eqn:H4; [|discriminate].
    apply andb_true_iff in Hx as (Hx & H6). apply andb_true_iff in Hx as (H5 & H7). exists s, s', i, i', x, x'. repeat split; auto.
    intros ->. unfold eqb in H5. destruct (eq_dec s' s'); [discriminate|tauto].
  - right. intros (s & s' & i & i' & x & x' & Hne & A1 & B1 & A2 & B2 & A3 & B3).
    assert (Ht : existsb (fun i => existsb (f i) ids) ids = true); [|congruence].
    assert (Hin : forall j t, nth_error (id_map (ivocab (gi_grammar gi))) j = Some t -> In j ids).
    { intros j t Hj. unfold ids. apply in_seq. split; [lia|]. simpl. apply nth_error_Some. congruence. }
    apply existsb_exists. exists i. split; [eapply Hin; eauto|]. apply existsb_exists. exists i'. split; [eapply Hin; eauto|].
    unfold f. unfold tok_rel in *. rewrite A1, B1, A2, B2, A3, B3. unfold eqb. destruct (eq_dec s s'); [tauto|reflexivity].
Qed.

Lemma main_same_checked fuel : debug_assertions (BuildMode := bm1) = true -> (exists ty, gi_terminal_type gi = TTEnum ty) ->
  (forall st k, parse_fallible (bm := bm1) (E := E) R into input fuel p1 <> Ok (st, inr (OverlappingTokenMatchers R k))) ->
  observed (parse_fallible (bm := bm1) (E := E) R into input fuel p1) = observed (parse_fallible (bm := bm2) (E := E) R into input fuel p2).
Proof.
  intros Hdb Hty Hno. destruct (generated_setup p1 Hg1) as (F & ks & acts & gts & Hsu & _ & Hd & Hp). apply same_observed.
  destruct (run_same (E := E) literal_ok R gi F ks acts gts Hsu Hd bm1 bm2 p1 p2 (Hp _ p1 Hg1) (Hp _ p2 Hg2) into input fuel
    (state_new R input (p_root p1, RUnit)) (state_new R input (p_root p2, RUnit)) []) as [Hs|(st & k & Hx)].
  - apply (rel_new literal_ok R gi acts gts p1 (Hp _ p1 Hg1)).
  - apply (rel_new literal_ok R gi acts gts p2 (Hp _ p2 Hg2)).
  - intros stk o Hn. destruct o as [k|]; [|left; apply single_none]. destruct (overlap_dec acts stk k) as [Ho|Ho]; [right; eauto 6|left].
    apply single_clear. intros (k' & He & Hx). injection He as <-. auto.
  - exact Hs.
  - exfalso. eapply Hno. exact Hx.
Qed.
End Two.

(** Code generation. *)
Section Gen.
Context {bm : BuildMode}.
Variable ho : hash_orders.
Hypothesis Hacc : accepted gi.
Hypothesis Hho : orders_ok ho.

Lemma root_clean : indexes g (gi_grammar gi) -> root_unused (gi_rules gi) -> rootclean (gi_grammar gi).
Proof.
  intros Hix Hu Hin. destruct (wf_root _ (ix_wf _ _ Hix)) as (ir & m & Hir & H0 & Hm & _). unfold rnodes in Hin. rewrite Hir in Hin.
  destruct (ix_rule_bwd g _ Hix _ _ Hir) as (r & Hr & Hl & _ & Hf). simpl in Hf, Hl. rewrite (ix_root _ _ Hix _ Hir) in Hr.
  destruct (Forall2_in_r _ _ _ _ Hf Hin) as (nd & Hnd & Hrel). destruct nd as [a|lab]; simpl in Hrel; [tauto|].
  unfold source in Hr. rewrite nth_error_map in Hr. destruct (nth_error (gi_rules gi) 0) as [pr|] eqn:Hpr; [|discriminate]. injection Hr as <-.
  apply (Hu pr Hpr). simpl in *. apply in_map_iff in Hnd as ([l|s|] & He & Hx); try discriminate. injection He as ->.
  rewrite H0 in Hl. rewrite (ilabel_fun _ _ _ _ Hl Hrel). exact Hx.
Qed.

Lemma main_generates : names_usable gi -> root_unused (gi_rules gi) ->
  match generate_parser literal_ok ho gi with
  | Ok p => True
  | Err e => (exists i, build_constructor (gi_rules gi) i = Err e) \/
             (exists s ty, terminal_in (gi_rules gi) s /\ gi_terminal_type gi = TTRaw ty /\ as_literal literal_ok s = Err e)
  | Panic _ | Diverge => False
  end.
Proof.
  intros Hn Hr. destruct (accepted_setup literal_ok gi Hacc) as (F & ks & acts & gts & Hsu).
  pose proof (generate_wp literal_ok ho gi Hho False (or_intror Hn) (or_intror (root_clean (su_ix _ _ _ _ _ Hsu) Hr)) F ks acts gts Hsu) as Hw.
  destruct (generate_parser literal_ok ho gi) as [p|e|w|]; simpl in Hw; auto. destruct Hw as [(i & _ & _ & Hw)|Hw]; [left; eauto|right; exact Hw].
Qed.

End Gen.

(** Types. *)
Section Types.
Variable p : program.
Hypothesis Hgen : generated literal_ok gi p.
Variable F : first_table.
Variable ks : list kernel.
Variable acts : nat -> aug nat -> option action.
Variable gts : nat -> nat -> option nat.
Hypothesis Hsu : setup gi F ks acts gts.
Hypothesis Hp : program_ok literal_ok gi acts gts p.
Local Notation n := (num_states (gi_table gi)).
Let Hix := su_ix _ _ _ _ _ Hsu.
Let Hok := su_ok _ _ _ _ _ Hsu.
Let Heps := su_eps _ _ _ _ _ Hsu.

Lemma incoming s : s < n -> s <> 0 -> exists s0 X, s0 < n /\ iedge acts gts s0 X s.
Proof.
  intros Hs Hs0. destruct (state_map_ok (bm := true) g _ Hix F _ ks acts gts Hok (fun m => m) (fun m => Permutation_refl m)) as (sm & _ & _ & Hsm).
  destruct (Hsm s Hs) as (l & ty & _ & _ & _ & _ & Hx). destruct (Hx Hs0) as (X & _ & (s0 & He) & _).
  apply (edge_iff g _ Hix F _ ks acts gts Hok) in He as (Hb & X' & _ & He). eauto.
Qed.

Lemma state_typed s nd s0 X : s0 < n -> s < n -> iedge acts gts s0 X s -> prel gi nd X -> exists ty, nth_error (p_types p) s = Some ty /\ node_type gi nd = Some ty.
Proof.
  intros Hs0 Hs He Hr. destruct (po_types _ _ _ _ _ Hp) as (Hl & Ht). destruct (nth_error (p_types p) s) as [ty|] eqn:Hty; [|apply nth_error_None in Hty; lia].
  exists ty. split; auto. exact (proj2 (Ht s ty Hty) s0 X nd Hs0 He Hr).
Qed.

Lemma bound_typed pns k ss bs fin : bound gi acts gts pns k ss bs fin -> ss <> [] ->
  map b_var bs = rev (seq 0 k) /\ forall b, In b bs -> exists nd, nth_error pns (b_var b) = Some nd /\ pnode_is_epsilon nd = false /\ b_arms b <> [] /\ b_destruct b = node_field nd /\
    forall s, In s (b_arms b) -> exists ty, nth_error (p_types p) s = Some ty /\ node_type gi nd = Some ty.
Proof.
  induction 1 as [ss|q ss arms nd bs ss' fin Hn He Harms Hs Hb IH]; intros Hne.
  - split; [reflexivity|intros b []].
  - assert (Hne' : ss' <> []).
    { destruct ss as [|s ss]; [congruence|]. destruct (Hs s (or_introl eq_refl)) as (H1 & H2 & H3). destruct (incoming s H1 H2) as (s0 & X & H4 & H5).
      destruct (H3 _ _ H4 H5) as (_ & Hin). intros ->. destruct Hin. }
    destruct (IH Hne') as (IH1 & IH2). split.
    + replace (seq 0 (S q)) with (seq 0 (q + 1)) by (f_equal; lia). rewrite seq_app, rev_app_distr. simpl. rewrite IH1. reflexivity.
    + intros b [<-|Hin]; [|auto]. cbn [b_var b_arms b_destruct]. exists nd. split; auto. split; auto. split.
      { intros ->. destruct ss as [|s ss]; [congruence|]. apply (Harms s). simpl. auto. }
      split; auto. intros s Hin. apply Harms in Hin. destruct (Hs s Hin) as (H1 & H2 & H3). destruct (incoming s H1 H2) as (s0 & X & H4 & H5).
      destruct (H3 _ _ H4 H5) as (H6 & _). eapply state_typed; eauto.
Qed.

Lemma types_pops i bs : pops p i bs -> exists r, nth_error (gi_rules gi) i = Some r /\ map b_var bs = rev (node_indices (pr_nodes r)) /\
  forall b, In b bs -> exists nd, nth_error (pr_nodes r) (b_var b) = Some nd /\ b_arms b <> [] /\ b_destruct b = node_field nd /\
    forall s, In s (b_arms b) -> exists ty, nth_error (p_types p) s = Some ty /\ node_type gi nd = Some ty.
Proof.
  intros (c & Hc & Hcase). apply In_nth_error in Hc as (s & Hs). destruct (po_states _ _ _ _ _ Hp) as (_ & Hst). pose proof (Hst s c Hs) as Hcode.
  assert (Hb : exists j r pr fin, nth_error (rules (gi_grammar gi)) j = Some r /\ nth_error (gi_rules gi) (original_index r) = Some pr /\ i = original_index r /\
    bound gi acts gts (pr_nodes pr) (length (sbody (gi_grammar gi) j)) [s] bs fin).
  { destruct Hcase as [(ms & rc & Hin & <- & <-)|(m & ac & Ha & <- & <-)].
    - destruct (co_reduce _ _ _ _ _ _ Hcode _ _ Hin) as (j & _ & [(r & pr & fin & H1 & H2 & H3 & _ & H5 & _)] & _). exists j, r, pr, fin. auto.
    - destruct (co_accept _ _ _ _ _ _ Hcode _ _ Ha) as (_ & _ & [(r & pr & fin & H1 & H2 & H3 & H4 & _ & H6)]). exists 0, r, pr, fin. rewrite H3. auto. }
  destruct Hb as (j & r & pr & fin & Hr & Hpr & -> & Hbd). exists pr. split; auto.
  destruct (bound_typed _ _ _ _ _ Hbd) as (H1 & H2); [discriminate|]. split.
  - rewrite H1. f_equal. destruct (rnodes_split (gi_grammar gi) Heps j) as (es & Hsp & Hes).
    destruct (ix_rule_bwd g _ Hix _ _ Hr) as (r0 & Hr0 & _ & _ & Hf). simpl in Hf. unfold source in Hr0. rewrite nth_error_map, Hpr in Hr0. injection Hr0 as <-.
    simpl in Hf. symmetry. apply (node_indices_ok literal_ok gi _ _ es); auto.
    + unfold rnodes in Hsp. rewrite Hr in Hsp. rewrite <- Hsp. clear -Hf. remember (irhs r) as l. clear Heql. revert l Hf.
      induction (pr_nodes pr) as [|x xs IH]; intros l Hf; inversion Hf; subst; constructor; auto.
    + intros X HX. eapply sbody_neps; eauto.
  - intros b Hin. destruct (H2 b Hin) as (nd & A & _ & B). eauto.
Qed.

Lemma types_token s : pushes_token p s -> nth_error (p_types p) s = Some (Some (inner_type (gi_terminal_type gi))).
Proof.
  intros (c & m & rhs & Hc & Hin). apply In_nth_error in Hc as (s0 & Hs0). destruct (po_states _ _ _ _ _ Hp) as (Hl & Hst). pose proof (Hst s0 c Hs0) as Hcode.
  destruct (co_shift _ _ _ _ _ _ Hcode _ _ _ Hin) as (sy & i & pt & H1 & H2 & _).
  assert (Hb : s0 < n) by (rewrite <- Hl; apply nth_error_Some; congruence).
  destruct (iedge_kernel _ F _ ks acts gts Hok s0 (Terminal (Token i)) s Hb H2) as (Hs & _).
  destruct (state_typed s (PNSymbol sy) s0 (Terminal (Token i)) Hb Hs H2 H1) as (ty & Ht & He). simpl in He. congruence.
Qed.

Lemma types_value i from s : pushes_value p i from s -> exists r ty, nth_error (gi_rules gi) i = Some r /\ hm_get (pr_name r) (gi_label_types gi) = Some ty /\
  nth_error (p_types p) s = Some ty /\ forall s0, In s0 from -> s0 < length (p_types p).
Proof.
  intros (c & ms & rc & Hc & Hin & <- & Hg). apply In_nth_error in Hc as (s0 & Hs0). destruct (po_states _ _ _ _ _ Hp) as (Hl & Hst). pose proof (Hst s0 c Hs0) as Hcode.
  destruct (co_reduce _ _ _ _ _ _ Hcode _ _ Hin) as (j & _ & [(r & pr & fin & H1 & H2 & H3 & _ & H5 & ((H6 & H7) & H8))] & _).
  destruct (po_types _ _ _ _ _ Hp) as (Hlt & _).
  assert (Hex : exists s1, s1 < n /\ gts s1 (isymbol r) = Some s /\ forall s0, In s0 from -> s0 < n).
  { destruct (r_goto rc) as [s'|arms].
    - destruct Hg as (-> & ->). destruct fin as [|s1 fin]; [congruence|]. exists s1. split; [apply H7; simpl; auto|]. split; [apply H8; simpl; auto|intros ? []].
    - destruct H8 as (_ & H8). destruct (H8 _ _ Hg) as (Hne & Hx). destruct from as [|s1 from]; [congruence|]. destruct (Hx s1) as (Hy & Hz); [simpl; auto|].
      exists s1. split; [apply H7; auto|]. split; auto. intros s2 Hs2. apply H7. apply Hx. auto. }
  destruct Hex as (s1 & Hs1 & Hgt & Hfrom).
  destruct (iedge_kernel _ F _ ks acts gts Hok s1 (Production (isymbol r)) s Hs1 Hgt) as (Hs & _).
  destruct (ix_rule_bwd g _ Hix _ _ H1) as (r0 & Hr0 & Hlb & _ & _). unfold source in Hr0. rewrite nth_error_map, H2 in Hr0. injection Hr0 as <-. simpl in Hlb.
  destruct (state_typed s (PNProduction (pr_name pr)) s1 (Production (isymbol r)) Hs1 Hs Hgt Hlb) as (ty & Ht & He). simpl in He.
  exists pr, ty. rewrite H3, Hlt. auto.
Qed.
End Types.

Lemma main_types p : generated literal_ok gi p ->
  (forall i bs, pops p i bs -> exists r, nth_error (gi_rules gi) i = Some r /\ map b_var bs = rev (node_indices (pr_nodes r)) /\
    forall b, In b bs -> exists nd, nth_error (pr_nodes r) (b_var b) = Some nd /\ b_arms b <> [] /\ b_destruct b = node_field nd /\
      forall s, In s (b_arms b) -> exists ty, nth_error (p_types p) s = Some ty /\ node_type gi nd = Some ty) /\
  (forall s, pushes_token p s -> nth_error (p_types p) s = Some (Some (inner_type (gi_terminal_type gi)))) /\
  (forall i from s, pushes_value p i from s -> exists r ty, nth_error (gi_rules gi) i = Some r /\ hm_get (pr_name r) (gi_label_types gi) = Some ty /\
    nth_error (p_types p) s = Some ty /\ forall s0, In s0 from -> s0 < length (p_types p)).
Proof.
  intros Hgen. destruct (generated_setup p Hgen) as (F & ks & acts & gts & Hsu & _ & _ & Hp). pose proof (Hp _ p Hgen) as Hpp.
  split; [|split]; intros; [eapply types_pops|eapply types_token|eapply types_value]; eauto.
Qed.
End Main.
