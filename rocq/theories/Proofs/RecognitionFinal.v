(** Recognition: soundness, completeness, termination, unambiguity. *)
From Coq Require Import Arith Bool String NArith List Lia Permutation.
From Verif Require Import Base.Prelude Spec.Grammar Spec.Validity Spec.Nullable Model.Error.
From Verif Require Import Model.BitSet Model.FixedMap Model.Vocabulary Model.IndexedGrammar Model.FirstMap.
From Verif Require Import Model.Position Model.Closure Model.LRTable Model.ParseSimulator.
From Verif Require Import Proofs.WP Proofs.BitSetProofs Proofs.FixedMapProofs Proofs.VocabProofs.
From Verif Require Import Proofs.IndexedProofs Proofs.IndexedBuild Proofs.IndexedMain Proofs.FirstProofs.
From Verif Require Import Proofs.ClosureProofs Proofs.ItemSets Proofs.TableProofs Proofs.TableBuild.
From Verif Require Import Proofs.Fuel Proofs.Machine Proofs.ParserFinal Proofs.IndexedFinal.
Import ListNotations.

Section Trees.
Context {T : Type}.
Lemma tree_ind2 (P : tree T -> Prop) (Hl : forall t, P (Leaf t)) (Hn : forall i ts, Forall P ts -> P (Node i ts)) :
  forall t, P t.
Proof.
  fix IH 1. intros [t|i ts]; [apply Hl|]. apply Hn. induction ts as [|t ts IHts]; constructor; auto.
Qed.
End Trees.

Section Recog.
Context {bm : BuildMode} {T L : Type} `{EqDec T} `{EqDec L}.
Variable g : grammar T L.

Lemma tree_rel_fun_l (ig : indexed_grammar T L) t' : forall t1 t2 : tree T, tree_rel (L:=L) ig t1 t' -> tree_rel ig t2 t' -> t1 = t2.
Proof.
  induction t' as [i|j ts IH] using tree_ind2; intros t1 t2 H1 H2.
  - inversion H1; inversion H2; subst. f_equal. eapply tok_rel_fun_l; eauto.
  - inversion H1 as [|j1 ir1 ts1 ts1' Hj1 Hf1]; inversion H2 as [|j2 ir2 ts2 ts2' Hj2 Hf2]; subst.
    f_equal; [congruence|]. clear -IH Hf1 Hf2. revert ts2 Hf2. induction Hf1; intros ts2 Hf2; inversion Hf2; subst; auto.
    inversion IH; subst. f_equal; auto.
Qed.

Lemma inullable_nullable ig k l : indexes g ig -> ilabel ig k l -> inullable ig k -> nullable g l.
Proof.
  intros Hix Hk (ts & D).
  destruct (derives_bwd _ _ Hix _ _ _ D [Production l]) as (w & ts' & D' & Hw & _); [constructor; [exact Hk|constructor]|].
  inversion Hw; subst. exists ts'. auto.
Qed.

Lemma iused_used ig k l : indexes g ig -> ilabel ig k l -> iused ig k -> used_somewhere g l.
Proof.
  intros Hix Hk (ir & Hir & Hin). apply In_nth_error in Hir as (j & Hj). destruct (ix_rule_bwd _ _ Hix _ _ Hj) as (r & Hr & _ & _ & Hns).
  exists r. split; [eapply nth_error_In; eauto|]. simpl in Hns. clear -Hix Hk Hin Hns.
  induction Hns as [|nd nd' ns ns' Hx Hns IH]; [contradiction|]. destruct Hin as [->|Hin]; [left|right; auto].
  destruct nd as [[| |]|l']; simpl in Hx; try tauto. f_equal. eapply (ilabel_fun ig); eauto.
Qed.

Lemma direct_epsilon_ig ig : indexes g ig -> direct_epsilon g -> eps_direct ig.
Proof.
  intros Hix (H1 & H2).
  assert (Hlab : forall k, inullable ig k -> exists l, ilabel ig k l).
  { intros k (ts & D). inversion D as [| | |i r ts1 w1 ns w2 ts2 Hi D1 D2]; subst.
    apply igram_nth in Hi as (ir & Hir & <-). apply (ilabel_total ig). eapply wf_sym; [apply (ix_wf _ _ Hix)|]. eapply nth_error_In; eauto. }
  split.
  - intros k Hk Hu. destruct (Hlab _ Hk) as (l & Hl).
    destruct (H1 l) as (r & Hr & Hs & He); [eapply inullable_nullable; eauto|eapply iused_used; eauto|].
    apply In_nth_error in Hr as (i & Hr). destruct (ix_rule_fwd _ _ Hix _ _ Hr) as (j & ir & Hir & Hl' & _ & Hns).
    exists ir. split; [eapply nth_error_In; eauto|]. simpl in Hl'. rewrite Hs in Hl'.
    split; [eapply (ilabel_inj _ _ Hix); eauto|]. unfold empty_rule. simpl in Hns. clear -He Hns.
    induction Hns as [|nd nd' ns ns' Hx Hns IH]; constructor; inversion He; subst; auto.
    destruct nd' as [[| |]|]; simpl in Hx; tauto.
  - intros (k & Hk & Hu). destruct (Hlab _ Hk) as (l & Hl).
    destruct H2 as (r & t & Hr & Hh & Ht); [exists l; split; [eapply inullable_nullable; eauto|eapply iused_used; eauto]|].
    apply In_nth_error in Hr as (i & Hr). destruct (ix_rule_fwd _ _ Hix _ _ Hr) as (j & ir & Hir & _ & _ & Hns). simpl in Hns.
    destruct (rhs r) as [|nd ns]; [discriminate|]. simpl in Hh. injection Hh as ->. inversion Hns as [|? nd' ? ns' Hx]; subst.
    destruct nd' as [a|]; simpl in Hx; [|tauto]. exists ir, a. split; [eapply nth_error_In; eauto|]. rewrite <- H5.
    split; auto. intros ->. destruct t; simpl in Hx; tauto.
Qed.

(** The FIRST sets the code computes for [g] are closed under the rules. *)
Definition first_closed : Prop := forall fuel ig F,
  indexed_build fuel g = Ok ig -> first_build (E := lr_error T L) fuel ig = Ok F -> Fclosed ig F.

Lemma direct_first_closed : direct_epsilon g -> first_closed.
Proof.
  intros Hd fuel ig F Hig HF. pose proof (indexed_build_spec True fuel g (or_introl I)) as Hi. rewrite Hig in Hi. destruct Hi as (Hix & _).
  pose proof (first_build_ok (E:=lr_error T L) ig (ix_wf _ _ Hix) True True fuel (fun _ => True) (or_introl I)) as Hf. rewrite HF in Hf.
  apply Hf. apply direct_epsilon_ig; auto.
Qed.

Lemma parser_eta (p : parser T L) : p = mk_parser (pgrammar p) (plr_table p).
Proof. destruct p; reflexivity. Qed.

Theorem recog_exact fuel p : parser_new fuel g = Ok p -> no_eos g -> eps_trailing g -> forall E w,
  exists n b, (forall fuel', @parse_stream bm T L _ E fuel' p w = if n <? fuel' then Ok b else Diverge) /\
    (b = true -> language g w) /\ (first_closed -> language g w -> b = true).
Proof.
  intros Hp He Ht E w. apply parser_new_built in Hp as (Hix & Hv & F & ks & acts & gts & HF & (fuel0 & HFc) & Hok).
  pose proof (no_eos_ig _ _ Hix He) as He'. pose proof (eps_trailing_ig _ _ Hix Ht) as Ht'.
  pose proof (ix_wf _ _ Hix) as Hwf.
  destruct (parse_stream_exact (E:=E) (pgrammar p) Hwf He' Ht' F HF _ _ _ _ Hok w) as (n & b & c & Hn & Hc & Hb1 & Hb2).
  rewrite <- parser_eta in Hn. exists n, b. split; auto. split.
  - intros Hb. specialize (Hb1 Hb). assert (Hs : snd c = []).
    { eapply (maccept_end (pgrammar p)); eauto. eapply (msteps_vstk (pgrammar p) Hwf _ _ _ _ _ Hok _ _); [|exact Hc]. apply vs_nil. }
    destruct c as [stk v]. simpl in Hs. subst v.
    pose proof (machine_sound (pgrammar p) Hwf Ht' F _ _ _ _ Hok _ _ Hc Hb1) as Hpar.
    destruct (parses_bwd _ _ Hix _ _ Hpar) as (w1 & t1 & P1 & W1 & _).
    pose proof (ids_inv _ Hwf _ _ W1) as Hid.
    destruct (ids_rel _ Hwf w) as [Hrel|(x & Hx & Hn')].
    + rewrite (toks_rel_fun_l _ _ _ _ W1 Hrel) in P1. exists t1. auto.
    + exfalso. (* every id read is known *)
      assert (Hin : In (id_of (pgrammar p) x) (map (id_of (pgrammar p)) w)) by (apply in_map; auto).
      destruct (Forall2_in_r _ _ _ _ W1 Hin) as (y & _ & Hy). unfold tok_rel, id_of in Hy. rewrite Hn' in Hy.
      assert (length (id_map (ivocab (pgrammar p))) < length (id_map (ivocab (pgrammar p)))) by (apply nth_error_Some; congruence). lia.
  - intros Hd (t & Ht1). destruct (parses_fwd _ _ Hix _ _ Ht1) as (w' & t' & P' & W' & _).
    rewrite <- (ids_inv _ Hwf _ _ W') in P'.
    destruct (machine_complete (pgrammar p) Hwf Ht' F _ _ _ _ Hok (Hd _ _ _ (proj1 HFc) (proj2 HFc)) _ _ P') as (stk & Hst & Ha & _).
    destruct b; auto. specialize (Hb2 eq_refl).
    assert (Hc' : c = (stk, [])) by (eapply (msteps_final_eq (pgrammar p)); eauto).
    subst c. unfold stuck, maccept in *. congruence.
Qed.

Theorem recog_sound fuel fuel' p E w : no_eos g -> eps_trailing g -> parser_new fuel g = Ok p ->
  @parse_stream bm T L _ E fuel' p w = Ok true -> language g w.
Proof.
  intros He Ht Hp Hw. destruct (recog_exact _ _ Hp He Ht E w) as (n & b & Hn & Hb & _). rewrite Hn in Hw.
  destruct (n <? fuel'); [|discriminate]. apply Hb. congruence.
Qed.

Theorem recog_complete fuel p E w : no_eos g -> eps_trailing g -> first_closed -> parser_new fuel g = Ok p ->
  language g w -> exists N, forall fuel', N < fuel' -> @parse_stream bm T L _ E fuel' p w = Ok true.
Proof.
  intros He Ht Hd Hp Hw. destruct (recog_exact _ _ Hp He Ht E w) as (n & b & Hn & _ & Hb). exists n. intros fuel' Hlt.
  rewrite Hn, (proj2 (Nat.ltb_lt _ _) Hlt), Hb; auto.
Qed.

Theorem recog_total fuel p E w : no_eos g -> eps_trailing g -> parser_new fuel g = Ok p ->
  (exists N b, forall fuel', N < fuel' -> @parse_stream bm T L _ E fuel' p w = Ok b) /\
  (forall fuel', @parse_stream bm T L _ E fuel' p w = Diverge \/ exists b, @parse_stream bm T L _ E fuel' p w = Ok b).
Proof.
  intros He Ht Hp. destruct (recog_exact _ _ Hp He Ht E w) as (n & b & Hn & _ & _). split.
  - exists n, b. intros fuel' Hlt. rewrite Hn, (proj2 (Nat.ltb_lt _ _) Hlt). auto.
  - intros fuel'. rewrite Hn. destruct (n <? fuel'); eauto.
Qed.

Theorem unambiguous fuel p w t1 t2 : no_eos g -> eps_trailing g -> first_closed -> parser_new fuel g = Ok p ->
  parses g w t1 -> parses g w t2 -> t1 = t2.
Proof.
  intros He Ht Hd Hp P1 P2. apply parser_new_built in Hp as (Hix & Hv & F & ks & acts & gts & HF & (fuel0 & HFc) & Hok).
  destruct (parses_fwd _ _ Hix _ _ P1) as (w1 & u1 & Q1 & W1 & T1). destruct (parses_fwd _ _ Hix _ _ P2) as (w2 & u2 & Q2 & W2 & T2).
  rewrite (toks_rel_inj _ _ Hix _ _ _ W2 W1) in Q2.
  pose proof (eps_trailing_ig _ _ Hix Ht) as Ht'. pose proof (ix_wf _ _ Hix) as Hwf.
  rewrite (machine_unambiguous (pgrammar p) Hwf Ht' F _ _ _ _ Hok (Hd _ _ _ (proj1 HFc) (proj2 HFc)) _ _ _ Q2 Q1) in T2.
  eapply tree_rel_fun_l; eauto.
Qed.

Lemma wp_da {E} (b : bool) why (R : E -> Prop) : wp True True (debug_assert b why) (fun _ => True) R.
Proof. unfold debug_assert. destruct debug_assertions, b; simpl; auto. Qed.

(** No hypothesis on the grammar is needed to reject unknown tokens. *)
Theorem unknown_rejected fuel fuel' p E w x : parser_new fuel g = Ok p -> @parse_stream bm T L _ E fuel' p w = Ok true ->
  In x w -> exists r, In r g /\ In (Terminal (Token x)) (rhs r).
Proof.
  intros Hp Hw Hx. pose proof Hp as Hp'. apply parser_new_built in Hp as (Hix & Hv & F & ks & acts & gts & HF & (fuel0 & HFc) & Hok).
  assert (Hig : indexed_build fuel g = Ok (pgrammar p)).
  { unfold parser_new in Hp'. destruct (indexed_build fuel g) as [ig| | |]; try discriminate. simpl in Hp'.
    destruct (table_build ig fuel); try discriminate. simpl in Hp'. injection Hp' as <-. reflexivity. }
  pose proof (wf_voc _ (ix_wf _ _ Hix)) as Hvoc.
  set (known := fun y => exists i, token_to_id (ivocab (pgrammar p)) y = Some i).
  assert (Hk : forall y, known y -> exists r, In r g /\ In (Terminal (Token y)) (rhs r)).
  { intros y (i & Hi). apply (vocab_occurs fuel g _ Hig). apply (token_to_id_spec _ _ _ Hvoc) in Hi. eapply nth_error_In; eauto. }
  apply Hk. clear Hk.
  assert (Hwp : wp True True (@parse_stream bm T L _ E fuel' p w) (fun b => b = true -> Forall known w) (fun _ => True)).
  { unfold parse_stream.
    apply (wp_while (fun st => Forall (fun s => s < num_states (plr_table p)) (fst (fst st)) /\
       exists pre, w = pre ++ snd st /\ Forall known pre) (fun _ => 0)); auto.
    - simpl. split; [constructor; auto; apply (num_states_pos _ _ _ _ _ _ Hok)|]. exists []. auto.
    - intros [[states nodes] stream] (Hst & pre & Hpre & Hkn). simpl in Hst, Hpre. unfold parse_step.
      destruct states as [|s states]; [unfold debug_assert; destruct debug_assertions; simpl; auto; discriminate|].
      destruct (augmented_token_to_id _ _) as [a|] eqn:Ha; [|simpl; discriminate].
      pose proof Ha as Ha'. apply (augmented_token_to_id_spec _ _ _ Hvoc) in Ha'. apply aug_rel_bound in Ha'.
      inversion Hst as [|? ? Hs Hss]; subst.
      rewrite (get_action_ok _ _ _ _ _ _ Hok) by auto. simpl.
      assert (HK : exists K, nth_error ks s = Some K).
      { destruct (nth_error ks s) as [K|] eqn:HK; eauto. apply nth_error_None in HK. rewrite (to_states _ _ _ _ _ _ Hok) in Hs. lia. }
      destruct HK as (K & HK).
      assert (Hlt : forall s' K', nth_error ks s' = Some K' -> s' < num_states (plr_table p)).
      { intros s' K' HK'. rewrite (to_states _ _ _ _ _ _ Hok). apply nth_error_Some. congruence. }
      destruct (acts s a) as [[s'|j|]|] eqn:Hact; simpl; try discriminate.
      + split; auto. destruct (to_shift _ _ _ _ _ _ Hok _ _ _ _ HK Hact) as ((K' & HK' & _) & _). split; [constructor; eauto|].
        destruct stream as [|y stream]; simpl in *; [exists pre; auto|].
        exists (pre ++ [y]). rewrite <- app_assoc. split; auto. apply Forall_app. split; auto. constructor; auto.
        unfold known. destruct (token_to_id (ivocab (pgrammar p)) y) as [i|]; [eauto|discriminate].
      + unfold production_rule, index. destruct (nth_error (rules (pgrammar p)) j) as [r|] eqn:Hr; simpl; auto.
        set (body := rules_excluding_epsilon r).
        apply wp_bind. eapply wp_conseq; [apply wp_da|]. intros _ _.
        apply wp_bind. eapply wp_conseq; [apply wp_da|]. intros _ _.
        apply wp_bind. eapply wp_conseq; [apply wp_da|]. intros _ _.
        destruct (hd_error (pop_n (length body) (s :: states))) as [s0|] eqn:Hhd; simpl; auto.
        assert (Hpop : Forall (fun s => s < num_states (plr_table p)) (pop_n (length body) (s :: states))).
        { unfold pop_n. rewrite <- (firstn_skipn (length body) (s :: states)) in Hst. apply Forall_app in Hst. tauto. }
        assert (Hs0 : s0 < num_states (plr_table p)).
        { destruct (pop_n (length body) (s :: states)); [discriminate|]. injection Hhd as ->. inversion Hpop; auto. }
        rewrite (get_goto_ok _ _ _ _ _ _ Hok) by first [exact Hs0 | apply (wf_sym _ (ix_wf _ _ Hix)); eapply nth_error_In; eauto]. simpl.
        destruct (gts s0 (isymbol r)) as [s1|] eqn:Hg; simpl; [|discriminate].
        split; auto. split; [constructor; auto|exists pre; auto].
        assert (HK0 : exists K0, nth_error ks s0 = Some K0).
        { destruct (nth_error ks s0) as [K0|] eqn:HK0; eauto. apply nth_error_None in HK0. rewrite (to_states _ _ _ _ _ _ Hok) in Hs0. lia. }
        destruct HK0 as (K0 & HK0).
        destruct (to_goto _ _ _ _ _ _ Hok _ _ _ _ HK0 Hg) as ((K1 & HK1 & _) & _). eauto.
      + intros _. destruct (to_accept _ _ _ _ _ _ Hok _ _ _ HK Hact) as (-> & _).
        destruct stream as [|y stream]; [rewrite app_nil_r; auto|]. simpl in Ha.
        destruct (token_to_id (ivocab (pgrammar p)) y); discriminate. }
  rewrite Hw in Hwp. specialize (Hwp eq_refl). rewrite Forall_forall in Hwp. auto.
Qed.

End Recog.

(** Epsilon nodes. *)
Section Neutral.
Context {bm : BuildMode} {T L : Type} `{EqDec T} `{EqDec L}.

Lemma Forall2_nth_l {A B} (P : A -> B -> Prop) l l' i x : Forall2 P l l' -> nth_error l i = Some x ->
  exists y, nth_error l' i = Some y /\ P x y.
Proof.
  intros Hf. revert i. induction Hf as [|a b l l' Hab Hf IH]; intros [|i] Hi; try discriminate; simpl in *; eauto.
  injection Hi as <-. eauto.
Qed.

Lemma same_derives (g g' : grammar T L) : Forall2 same_but_epsilon g g' -> forall ns w ts, derives g ns w ts -> derives g' ns w ts.
Proof.
  intros Hf. induction 1 as [|t ns w ts D IH|ns w ts D IH|i r ts1 w1 ns w2 ts2 Hi D1 IH1 D2 IH2]; try (constructor; assumption).
  destruct (Forall2_nth_l _ _ _ _ _ Hf Hi) as (r' & Hi' & Hs & He).
  rewrite Hs. econstructor; eauto. apply derives_strip. unfold strip. rewrite <- He. apply derives_strip. auto.
Qed.

Lemma same_language (g g' : grammar T L) : Forall2 same_but_epsilon g g' -> forall w, language g w -> language g' w.
Proof.
  intros Hf w (t & r & ts & Hr & D & ->). destruct (Forall2_nth_l _ _ _ _ _ Hf Hr) as (r' & Hr' & Hs & He).
  exists (Node 0 ts), r', ts. split; auto. split; auto. apply derives_strip. unfold strip. rewrite <- He. apply derives_strip.
  eapply same_derives; eauto.
Qed.

Lemma same_sym (g g' : grammar T L) : Forall2 same_but_epsilon g g' -> Forall2 same_but_epsilon g' g.
Proof. induction 1 as [|r r' g g' (H1 & H2) Hf IH]; constructor; auto. split; auto. Qed.

Lemma same_no_eos (g g' : grammar T L) : Forall2 same_but_epsilon g g' -> no_eos g -> no_eos g'.
Proof.
  intros Hf He r' Hr' Hin. apply In_nth_error in Hr' as (i & Hi). apply same_sym in Hf.
  destruct (Forall2_nth_l _ _ _ _ _ Hf Hi) as (r & Hr & _ & Hs). apply nth_error_In in Hr. apply (He r Hr).
  assert (Hx : In (Terminal EndOfStream) (filter (fun nd => negb (is_epsilon nd)) (rhs r'))) by (apply filter_In; auto).
  rewrite Hs in Hx. apply filter_In in Hx. tauto.
Qed.

Theorem epsilon_neutral E (g g' : grammar T L) fuel p p' (w : list T) :
  Forall2 same_but_epsilon g g' -> no_eos g -> eps_trailing g -> eps_trailing g' ->
  first_closed g -> first_closed g' -> parser_new fuel g = Ok p -> parser_new fuel g' = Ok p' ->
  exists N b, forall fuel', N < fuel' ->
    parse_stream (E := E) fuel' p w = Ok b /\ parse_stream (E := E) fuel' p' w = Ok b.
Proof.
  intros Hf He Ht Ht' Hd Hd' Hp Hp'. pose proof (same_no_eos _ _ Hf He) as He'.
  destruct (recog_exact g _ _ Hp He Ht E w) as (n & b & Hn & Hb1 & Hb2).
  destruct (recog_exact g' _ _ Hp' He' Ht' E w) as (n' & b' & Hn' & Hb1' & Hb2').
  assert (b = b').
  { destruct b, b'; auto.
    - symmetry. apply Hb2'; auto. eapply same_language; eauto.
    - apply Hb2; auto. eapply same_language; [apply same_sym|]; eauto. }
  subst b'. exists (n + n'), b. intros fuel' Hlt. rewrite Hn, Hn'.
  rewrite !(proj2 (Nat.ltb_lt _ _)) by lia. auto.
Qed.

End Neutral.
