(** FIRST sets, conflicts and LR(1) grammars, in terms of the source grammar. *)
From Coq Require Import Arith Bool String NArith List Lia Permutation.
From Verif Require Import Base.Prelude Spec.Grammar Spec.Validity Spec.Nullable Spec.Observers Model.Error.
From Verif Require Import Model.BitSet Model.FixedMap Model.Vocabulary Model.IndexedGrammar Model.FirstMap.
From Verif Require Import Model.Position Model.Closure Model.LRTable Model.ParseSimulator.
From Verif Require Import Proofs.WP Proofs.BitSetProofs Proofs.FixedMapProofs Proofs.VocabProofs.
From Verif Require Import Proofs.IndexedProofs Proofs.IndexedBuild Proofs.IndexedMain Proofs.FirstProofs.
From Verif Require Import Proofs.ClosureProofs Proofs.ItemSets Proofs.TableProofs Proofs.TableBuild.
From Verif Require Import Proofs.Fuel Proofs.Machine Proofs.ParserFinal Proofs.RecognitionFinal Proofs.IndexedFinal.
From Verif Require Import Spec.LR1 Proofs.LR1Proofs.
Import ListNotations.

Section Final.
Context {bm : BuildMode} {T L : Type} `{EqDec T} `{EqDec L}.
Local Notation arel := (fun ig => aug_rel (ivocab ig)).

Lemma build_indexes fuel (g : grammar T L) ig : indexed_build fuel g = Ok ig -> indexes g ig /\ valid_grammar g.
Proof. intros Hig. pose proof (indexed_build_spec True fuel g (or_introl I)) as Hi. rewrite Hig in Hi. exact Hi. Qed.

Lemma build_first fuel (ig : indexed_grammar T L) F : wf_ig ig -> first_build (E := lr_error T L) fuel ig = Ok F -> FInv ig F.
Proof.
  intros Hwf HF. pose proof (first_build_ok (E:=lr_error T L) ig Hwf True True fuel (fun _ => True) (or_introl I)) as Hf.
  rewrite HF in Hf. apply Hf.
Qed.

Section First.
Variable g : grammar T L.
Variable ig : indexed_grammar T L.
Hypothesis Hix : indexes g ig.
Variable F : first_table.
Hypothesis HF : FInv ig F.

Lemma label_of k l : @orig_production_label unit T L ig k = Ok l <-> ilabel ig k l.
Proof.
  unfold orig_production_label, ilabel, index. destruct (nth_error (rule_metadata ig) k) as [m|]; simpl; split.
  - intros Hx. injection Hx as <-. eauto.
  - intros (m' & Hm & <-). injection Hm as ->. auto.
  - discriminate.
  - intros (m' & Hm & _). discriminate.
Qed.

Lemma first_has_iff l a : first_has ig F l a <-> exists k i, ilabel ig k l /\ aug_rel (ivocab ig) a i /\ fmem F k i = true.
Proof.
  pose proof HF as (HwF & _). pose proof (wf_voc _ (ix_wf _ _ Hix)) as Hv. split.
  - intros (k & i & s & Hk & Hi & Hs & Hm). apply label_of in Hk. apply (augmented_token_to_id_spec _ _ _ Hv) in Hi.
    exists k, i. split; auto. split; auto. unfold fmem. unfold first_set, index in Hs.
    destruct (nth_error F k) as [s'|] eqn:Hsk; [|discriminate]. injection Hs as ->.
    assert (Hws : wf_bs (vocab_size (ivocab ig)) s) by (destruct HwF as (_ & Hw); rewrite Forall_forall in Hw; apply Hw; eapply nth_error_In; eauto).
    rewrite (vs_has_ok _ _ _ Hws (aug_rel_bound _ _ _ Hi)) in Hm. congruence.
  - intros (k & i & Hk & Hi & Hm). pose proof (fmem_bound ig _ _ _ HwF Hm) as (Hb1 & Hb2).
    destruct (wfF_get ig _ _ HwF Hb2) as (s & Hs & Hws). exists k, i, s. split; [apply label_of; auto|].
    split; [apply (augmented_token_to_id_spec _ _ _ Hv); auto|]. split; [unfold first_set, index; rewrite Hs; auto|].
    rewrite (vs_has_ok _ _ _ Hws Hb1). unfold fmem in Hm. rewrite Hs in Hm. rewrite Hm. auto.
Qed.

Lemma first_sound l a : first_has ig F l a -> (a = Epsilon -> vanishes g [Production l]) /\ (a <> Epsilon -> begins g [Production l] a).
Proof.
  intros Hx. apply first_has_iff in Hx as (k & i & Hk & Hi & Hm).
  assert (Hns : Forall2 (inode_rel ig) [Production l] [Production k]) by (constructor; [exact Hk|constructor]).
  split; [intros ->|intros Hne].
  - destruct i; simpl in Hi; try tauto. eapply (fnull_vanishes g ig Hix F HF); eauto. simpl. rewrite Hm. auto.
  - assert (Hie : i <> Epsilon) by (intros ->; apply Hne; apply (arel_eps ig _ _ Hi); auto).
    destruct (ffirst_begins g ig Hix F HF [Production k] [Production l] i) as (b & Hb & Hbg); auto.
    { simpl. rewrite Hm. auto. }
    rewrite (arel_fun ig _ _ _ Hi Hb). auto.
Qed.

Hypothesis HFc : Fclosed ig F.

Lemma begins_label l a : begins g [Production l] a -> exists k i, ilabel ig k l /\ aug_rel (ivocab ig) a i.
Proof.
  intros Hb. apply begins_iff in Hb. inversion Hb as [| |l' ns b Hv Hf|r ns b Hr Hf]; subst; [inversion Hf|].
  apply In_nth_error in Hr as (i & Hi). destruct (ix_rule_fwd g ig Hix _ _ Hi) as (j & ir & Hir & Hl & _ & Hns). simpl in Hl, Hns.
  exists (isymbol ir). clear Hi Hb. cut (exists i, aug_rel (ivocab ig) a i); [intros (i' & Hi'); exists i'; auto|].
  assert (Hsub : forall nd, In nd (rhs r) -> exists r, In r g /\ In nd (rhs r)).
  { intros nd Hnd. destruct (ix_rule_bwd g ig Hix _ _ Hir) as (r' & Hr' & _ & _ & Hns').
    pose proof (nrels_fun ig _ _ _ Hns Hns') as Hrr. rewrite Hrr in Hnd. exists r'. split; auto. eapply nth_error_In; eauto. }
  clear Hir Hl Hns. revert Hf Hsub. generalize (rhs r). intros ns Hf Hsub.
  induction Hf as [a ns Ha|ns a Hf IH|l' ns a Hv Hf IH|r' ns a Hr Hf IH].
  - destruct (Hsub (Terminal a) (or_introl eq_refl)) as (r0 & Hr0 & Hin). apply In_nth_error in Hr0 as (i0 & Hr0).
    destruct (ix_rule_fwd g ig Hix _ _ Hr0) as (j0 & ir0 & _ & _ & _ & Hns). simpl in Hns.
    destruct (Forall2_in_l _ _ _ _ Hns Hin) as ([a'|] & _ & Hx); simpl in Hx; [eauto|tauto].
  - apply IH. intros nd Hnd. apply Hsub. simpl; auto.
  - apply IH. intros nd Hnd. apply Hsub. simpl; auto.
  - apply IH. intros nd Hnd. eauto.
Qed.

Lemma first_closed_complete l : (forall a, begins g [Production l] a -> first_has ig F l a) /\
  (vanishes g [Production l] -> first_has ig F l Epsilon).
Proof.
  split.
  - intros a Hb. destruct (begins_label _ _ Hb) as (k & i & Hk & Hi). apply first_has_iff. exists k, i. split; auto. split; auto.
    assert (Hns : Forall2 (inode_rel ig) [Production l] [Production k]) by (constructor; [exact Hk|constructor]).
    pose proof (begins_ffirst g ig Hix F HFc _ _ Hb _ _ Hns Hi) as Hf. simpl in Hf.
    apply orb_true_iff in Hf as [|Hf]; auto. apply andb_true_iff in Hf as (_ & Hf). discriminate.
  - intros Hv. pose proof (proj1 (vanishes_iff g _) Hv) as (ts & D).
    inversion D as [| | |i r ts1 w1 ns w2 ts2 Hi D1 D2]; subst.
    destruct (ix_rule_fwd g ig Hix _ _ Hi) as (j & ir & Hir & Hl & _ & _). simpl in Hl.
    apply first_has_iff. exists (isymbol ir), Epsilon. split; auto. split; [exact I|].
    assert (Hns : Forall2 (inode_rel ig) [Production (symbol r)] [Production (isymbol ir)]) by (constructor; [exact Hl|constructor]).
    pose proof (vanishes_fnull g ig Hix F HFc _ _ Hv Hns) as Hf. simpl in Hf. rewrite andb_true_r in Hf. auto.
Qed.
End First.

Theorem first_complete_closed (g : grammar T L) : first_complete g <-> first_closed g.
Proof.
  split.
  - intros Hc fuel ig F Hig HF ir Hir. destruct (build_indexes _ _ _ Hig) as (Hix & _).
    pose proof (build_first _ _ _ (ix_wf _ _ Hix) HF) as HFI. specialize (Hc _ _ _ Hig HF).
    apply In_nth_error in Hir as (j & Hj). destruct (ix_rule_bwd g ig Hix _ _ Hj) as (r & Hr & Hl & _ & Hns). simpl in Hl, Hns.
    assert (Hrg : In r g) by (eapply nth_error_In; eauto).
    destruct (Hc (symbol r)) as (Hc1 & Hc2). split.
    + intros Hn. pose proof (fnull_vanishes g ig Hix F HFI _ _ Hn Hns) as Hv.
      apply (first_has_iff g ig Hix F HFI) in Hc2 as (k & i & Hk & Hi & Hm).
      * destruct i; simpl in Hi; try tauto. rewrite (ilabel_inj g ig Hix _ _ _ Hl Hk). auto.
      * eapply steps_trans; [apply steps_rule; auto|auto].
    + intros a Ha Hf. destruct (ffirst_begins g ig Hix F HFI _ _ _ Hf Ha Hns) as (b & Hb & Hbg).
      assert (Hbl : begins g [Production (symbol r)] b) by (apply begins_iff, fst_here; auto; apply begins_iff; auto).
      apply Hc1 in Hbl. apply (first_has_iff g ig Hix F HFI) in Hbl as (k & i & Hk & Hi & Hm).
      rewrite (ilabel_inj g ig Hix _ _ _ Hl Hk), (arel_inj g ig Hix _ _ _ Hb Hi). auto.
  - intros Hc fuel ig F Hig HF l. destruct (build_indexes _ _ _ Hig) as (Hix & _).
    pose proof (build_first _ _ _ (ix_wf _ _ Hix) HF) as HFI. apply first_closed_complete; auto. eapply Hc; eauto.
Qed.

Theorem first_sets_sound fuel (g : grammar T L) ig F l a : indexed_build fuel g = Ok ig -> first_build (E := lr_error T L) fuel ig = Ok F ->
  first_has ig F l a -> (a = Epsilon -> vanishes g [Production l]) /\ (a <> Epsilon -> begins g [Production l] a).
Proof.
  intros Hig HF. destruct (build_indexes _ _ _ Hig) as (Hix & _). apply first_sound; auto. eapply build_first; eauto. apply (ix_wf _ _ Hix).
Qed.

Theorem direct_first_complete (g : grammar T L) : direct_epsilon g -> first_complete g.
Proof. intros Hd. apply first_complete_closed. apply direct_first_closed; auto. Qed.

(** Reported conflicts are real. *)
Theorem kinds_of_errors fuel (g : grammar T L) ig e : indexed_build fuel g = Ok ig -> table_build ig fuel = Err e ->
  (exists j a, e = ShiftReduceConflict j a) \/ (exists j1 j2 a, e = ReduceConflict j1 j2 a).
Proof.
  intros Hig He. destruct (build_indexes _ _ _ Hig) as (Hix & _).
  destruct (table_build_ok ig (ix_wf _ _ Hix)) as (N & Ht). specialize (Ht True fuel (or_introl I)). rewrite He in Ht.
  destruct Ht as (F & _ & _ & Ht). destruct e; simpl in Ht; try tauto; eauto 6.
Qed.

Theorem conflicts_genuine fuel (g : grammar T L) ig e : eps_trailing g -> indexed_build fuel g = Ok ig -> table_build ig fuel = Err e ->
  genuine ig (may_reduce g) (may_shift g) e.
Proof.
  intros Heps Hig He. destruct (build_indexes _ _ _ Hig) as (Hix & Hv).
  destruct (table_build_ok ig (ix_wf _ _ Hix)) as (N & Ht). specialize (Ht True fuel (or_introl I)). rewrite He in Ht.
  destruct Ht as (F & HF & _ & Ht). destruct e; simpl in *; try tauto.
  - destruct Ht as (γ' & a' & Ha & Hs & Hc). pose proof Hc as (p & Hcore & _).
    destruct (item_bwd g ig Hix Heps _ _ _ Hcore) as (γ & i & Hγ & Hr & _).
    exists γ, i. split; auto. split; [eapply may_shift_bwd; eauto|eapply may_reduce_bwd; eauto].
  - destruct Ht as (γ' & a' & Ha & Hne & Hc1 & Hc2). pose proof Hc1 as (p & Hcore & _). pose proof Hc2 as (p2 & Hcore2 & _).
    destruct (item_bwd g ig Hix Heps _ _ _ Hcore) as (γ & i & Hγ & Hr & _).
    destruct (core_rule g ig Hix _ _ _ Hcore2) as (i2 & Hr2).
    exists γ, i, i2. split; auto. split; auto. split.
    { intros <-. apply Hne. eapply (rule_of_inj g ig Hix); eauto. }
    split; [apply (may_reduce_bwd g ig Hix Heps F HF _ _ _ Hc1); auto|apply (may_reduce_bwd g ig Hix Heps F HF _ _ _ Hc2); auto].
Qed.

Lemma valid_rest (g : grammar T L) : valid_grammar g ->
  forall r0 i r, nth_error g 0 = Some r0 -> nth_error g (S i) = Some r -> root_clean (symbol r0) r.
Proof.
  intros (root & rest & -> & Hc & _) r0 i r Hr0 Hr. simpl in *. injection Hr0 as <-.
  rewrite Forall_forall in Hc. apply Hc. eapply nth_error_In; eauto.
Qed.

Theorem conflicts_genuine_lr1 fuel (g : grammar T L) ig e : eps_trailing g -> productive g ->
  (forall r, nth_error g 0 = Some r -> ~ uses r (symbol r)) ->
  indexed_build fuel g = Ok ig -> table_build ig fuel = Err e -> genuine ig (reduces g) (shifts g) e.
Proof.
  intros Heps Hp Hroot Hig He. pose proof (conflicts_genuine _ _ _ _ Heps Hig He) as Hx.
  destruct (build_indexes _ _ _ Hig) as (Hix & Hv). pose proof (valid_rest _ Hv) as Hrest.
  assert (Hlab : labels_defined g) by (destruct Hv as (? & ? & _ & _ & Hl & _); auto).
  destruct e; simpl in *; try tauto.
  - destruct Hx as (γ & i & Hr & Hs & Hc). exists γ, i. split; auto.
    split; [apply (shifts_iff g Hp Hlab)|apply (reduces_iff g Hp Hlab Hroot Hrest)]; auto.
  - destruct Hx as (γ & i1 & i2 & Hr1 & Hr2 & Hne & Hc1 & Hc2). exists γ, i1, i2. split; auto. split; auto. split; auto.
    split; apply (reduces_iff g Hp Hlab Hroot Hrest); auto.
Qed.

(** A parser is built exactly if there is no conflict. *)
Theorem built_conflict_free fuel (g : grammar T L) p : eps_trailing g -> first_complete g -> parser_new fuel g = Ok p ->
  valid_grammar g /\ conflict_free g.
Proof.
  intros Heps Hfc Hp. apply parser_new_built in Hp as (Hix & Hv & F & ks & acts & gts & HF & (fuel0 & Hig & HFb) & Hok). split; auto.
  apply first_complete_closed in Hfc. pose proof (Hfc _ _ _ Hig HFb) as HFc. set (ig := pgrammar p) in *.
  assert (Hpair : forall γ i a, may_reduce g γ i a -> exists γ' j a', Forall2 (inode_rel ig) γ (rev γ') /\ rule_of ig j i /\ aug_rel (ivocab ig) a a' /\
    (forall i2, may_reduce g γ i2 a -> i = i2) /\ ~ may_shift g γ a).
  { intros γ i a Hm. destruct (may_reduce_fwd g ig Hix Heps F HFc _ _ _ Hm) as (γ' & j & a' & Hγ & Hr & Ha & Hg).
    exists γ', j, a'. split; auto. split; auto. split; auto.
    destruct (table_no_conflict ig F _ _ _ _ Hok _ _ _ Hg) as (Hn1 & Hn2). split.
    - intros i2 Hm2. destruct (may_reduce_fwd g ig Hix Heps F HFc _ _ _ Hm2) as (γ2 & j2 & a2 & Hγ2 & Hr2 & Ha2 & Hg2).
      pose proof (nrels_inj g ig Hix _ _ _ Hγ Hγ2) as Hq. apply (f_equal (@rev _)) in Hq. rewrite !rev_involutive in Hq. subst γ2.
      rewrite <- (arel_inj g ig Hix _ _ _ Ha Ha2) in Hg2. specialize (Hn1 _ Hg2). subst j2. eapply (rule_of_fun ig); eauto.
    - intros Hs. destruct (may_shift_fwd g ig Hix Heps _ _ Hs) as (γ2 & a2 & Hγ2 & Ha2 & Hg2).
      pose proof (nrels_inj g ig Hix _ _ _ Hγ Hγ2) as Hq. apply (f_equal (@rev _)) in Hq. rewrite !rev_involutive in Hq. subst γ2.
      rewrite <- (arel_inj g ig Hix _ _ _ Ha Ha2) in Hg2. auto. }
  split.
  - intros γ i j a H1 H2. destruct (Hpair _ _ _ H1) as (_ & _ & _ & _ & _ & _ & Hx & _). auto.
  - intros γ i a H1. destruct (Hpair _ _ _ H1) as (_ & _ & _ & _ & _ & _ & _ & Hx). auto.
Qed.

Theorem conflict_free_builds (g : grammar T L) : eps_trailing g -> valid_grammar g ->
  (forall r, nth_error g 0 = Some r -> ~ uses r (symbol r)) -> conflict_free g ->
  exists N, forall fuel, N < fuel -> exists p, parser_new fuel g = Ok p.
Proof.
  intros Heps Hv Hroot (Hc1 & Hc2). destruct (parser_new_total g) as (N & HN).
  exists (N + length g). intros fuel Hf. assert (Hl : length g < fuel) by lia. assert (HN' : N < fuel) by lia. specialize (HN _ HN').
  destruct (proj2 (proj1 (validation_exact fuel g Hl)) Hv) as (ig & Hig).
  unfold parser_new in *. rewrite Hig in *. simpl in *.
  destruct (table_build ig fuel) as [t|e|why|] eqn:Ht; simpl in *; try tauto; eauto.
  - exfalso. pose proof (conflicts_genuine _ _ _ _ Heps Hig Ht) as Hx. destruct e; simpl in Hx; try tauto.
    + destruct Hx as (γ & i & _ & Hs & Hr). eapply Hc2; eauto.
    + destruct Hx as (γ & i1 & i2 & _ & _ & Hne & Hr1 & Hr2). apply Hne. eapply Hc1; eauto.
  - exfalso. destruct HN as (r & Hr & Hu). eapply Hroot; eauto.
Qed.

Theorem accepted_iff (g : grammar T L) : eps_trailing g -> first_complete g ->
  (forall r, nth_error g 0 = Some r -> ~ uses r (symbol r)) ->
  exists N, forall fuel, N < fuel -> ((exists p, parser_new fuel g = Ok p) <-> valid_grammar g /\ conflict_free g).
Proof.
  intros Heps Hfc Hroot.
  destruct (parser_new_total g) as (N & HN). exists (N + length g). intros fuel Hf. split.
  - intros (p & Hp). eapply built_conflict_free; eauto.
  - intros (Hv & Hc). assert (Hl : length g < fuel) by lia. assert (HN' : N < fuel) by lia. specialize (HN _ HN').
    destruct (conflict_free_builds g Heps Hv Hroot Hc) as (N2 & H2).
    destruct (parser_new fuel g) as [p|e|why|] eqn:Hp; eauto; exfalso; auto.
    + pose proof (parser_new_le (T:=T) (L:=L) fuel (N2 + fuel + 1) ltac:(lia) g) as [Hx|Hx]; [congruence|].
      destruct (H2 (N2 + fuel + 1)) as (p & Hp'); [lia|]. congruence.
    + destruct HN as (r & Hr & Hu). eapply Hroot; eauto.
Qed.

Theorem accepted_iff_lr1 (g : grammar T L) : eps_trailing g -> first_complete g -> productive g ->
  (forall r, nth_error g 0 = Some r -> ~ uses r (symbol r)) ->
  exists N, forall fuel, N < fuel -> ((exists p, parser_new fuel g = Ok p) <-> valid_grammar g /\ lr1_grammar g).
Proof.
  intros Heps Hfc Hp Hroot. destruct (accepted_iff g Heps Hfc Hroot) as (N & HN). exists N. intros fuel Hf. rewrite (HN _ Hf).
  split; intros (Hv & Hc); split; auto;
    (apply conflict_free_iff; auto; [destruct Hv as (? & ? & _ & _ & Hl & _); auto|apply valid_rest; auto]).
Qed.
End Final.

Section Recognition.
Context {bm : BuildMode} {T L : Type} `{EqDec T} `{EqDec L}.

Theorem recog_complete_f E (g : grammar T L) fuel p w : no_eos g -> eps_trailing g -> first_complete g -> parser_new fuel g = Ok p ->
  language g w -> exists N, forall fuel', N < fuel' -> parse_stream (E := E) fuel' p w = Ok true.
Proof. intros He Ht Hf. eapply recog_complete; eauto. apply first_complete_closed; auto. Qed.

Theorem unambiguous_f (g : grammar T L) fuel p w t1 t2 : no_eos g -> eps_trailing g -> first_complete g -> parser_new fuel g = Ok p ->
  parses g w t1 -> parses g w t2 -> t1 = t2.
Proof. intros He Ht Hf. eapply unambiguous; eauto. apply first_complete_closed; auto. Qed.

Theorem epsilon_neutral_f E (g g' : grammar T L) fuel p p' (w : list T) :
  Forall2 same_but_epsilon g g' -> no_eos g -> eps_trailing g -> eps_trailing g' ->
  first_complete g -> first_complete g' -> parser_new fuel g = Ok p -> parser_new fuel g' = Ok p' ->
  exists N b, forall fuel', N < fuel' ->
    parse_stream (E := E) fuel' p w = Ok b /\ parse_stream (E := E) fuel' p' w = Ok b.
Proof. intros Hs He Ht Ht' Hf Hf'. apply epsilon_neutral; auto; apply first_complete_closed; auto. Qed.
End Recognition.
