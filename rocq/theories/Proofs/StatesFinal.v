(** The states of the builder and of the table. *)
From Coq Require Import Arith Bool String NArith List Lia Permutation Sorted.
From Verif Require Import Base.Prelude Spec.Grammar Spec.Validity Spec.Nullable Spec.Observers Spec.States Model.Error.
From Verif Require Import Model.BitSet Model.FixedMap Model.Vocabulary Model.IndexedGrammar Model.FirstMap.
From Verif Require Import Model.Position Model.Closure Model.LRTable Model.ParseSimulator.
From Verif Require Import Proofs.WP Proofs.BitSetProofs Proofs.FixedMapProofs Proofs.VocabProofs.
From Verif Require Import Proofs.IndexedProofs Proofs.IndexedBuild Proofs.IndexedMain Proofs.FirstProofs.
From Verif Require Import Proofs.ClosureProofs Proofs.ItemSets Proofs.TableProofs Proofs.TableBuild.
From Verif Require Import Proofs.Fuel Proofs.Machine Proofs.ParserFinal Proofs.RecognitionFinal Proofs.IndexedFinal.
From Verif Require Import Spec.LR1 Proofs.LR1Proofs Proofs.LR1Final.
Import ListNotations.

(** Kernels are determined by the items they stand for. *)
Section Canon.
Context {T L : Type} `{EqDec T}.
Variable ig : indexed_grammar T L.
Hypothesis Hwf : wf_ig ig.
Variable F : first_table.
Hypothesis Hrc : rootclean ig.

Lemma kinv_keys K : kinv ig F K -> NoDup (map pos_key K).
Proof.
  intros HK. apply (NoDup_count_occ key_dec). intros [i p]. apply (ki_cnt1 _ _ _ HK). auto.
Qed.

Lemma key_unique K q q' : kinv ig F K -> In q K -> In q' K -> production_id q = production_id q' -> pos q = pos q' -> q = q'.
Proof.
  intros HK Hq Hq' H1 H2. pose proof (kinv_keys _ HK) as Hn. apply In_nth_error in Hq as (a & Ha). apply In_nth_error in Hq' as (b & Hb).
  rewrite NoDup_nth_error in Hn. specialize (Hn a b). rewrite !nth_error_map, Ha, Hb in Hn. simpl in Hn.
  unfold pos_key in Hn. rewrite H1, H2 in Hn. rewrite Hn in Ha; [congruence| |auto].
  rewrite map_length. apply nth_error_Some. congruence.
Qed.

Lemma icore_kernel K i p : kinv ig F K -> icore ig K i p -> 1 <= p -> exists q, In q K /\ production_id q = i /\ pos q = p.
Proof. intros HK [|(-> & _)] Hp; auto. lia. Qed.

Definition same_items (γ γ' : list inode) : Prop :=
  (forall i p, core ig γ i p <-> core ig γ' i p) /\ (forall i p a, look ig F γ i p a <-> look ig F γ' i p a).

Lemma kinv_incl K K' γ γ' : kinv ig F K -> kinv ig F K' -> rep ig F K γ -> rep ig F K' γ' -> same_items γ γ' ->
  (forall q, In q K -> 1 <= pos q) -> incl K K'.
Proof.
  intros HK HK' (R1 & R2) (R1' & R2') (S1 & S2) Hpos q Hq.
  assert (Hc : icore ig K (production_id q) (pos q)) by (left; eauto).
  apply R1, S1, R1' in Hc. destruct (icore_kernel _ _ _ HK' Hc) as (q' & Hq' & E1 & E2); auto.
  assert (q = q'); [|subst; auto]. destruct q as [i p s], q' as [i' p' s']. simpl in *. subst i' p'. f_equal.
  pose proof (ki_good _ _ _ HK) as G. unfold good_kernel in G. rewrite Forall_forall in G. destruct (G _ Hq) as (_ & _ & G1).
  pose proof (ki_good _ _ _ HK') as G'. unfold good_kernel in G'. rewrite Forall_forall in G'. destruct (G' _ Hq') as (_ & _ & G1').
  eapply vmem_ext; [apply G1|apply G1'|]. simpl. intros a. split; intros Ha.
  - assert (Hl : ilook ig F K i p a) by (left; exists (mk_position i p s); auto). apply R2, S2, R2' in Hl.
    destruct Hl as [(q2 & Hq2 & H1 & H2 & H3)|(-> & _)]; [|specialize (Hpos _ Hq); simpl in Hpos; lia].
    pose proof (key_unique _ _ _ HK' Hq2 Hq' H1 H2) as ->. auto.
  - assert (Hl : ilook ig F K' i p a) by (left; exists (mk_position i p s'); auto). apply R2', S2, R2 in Hl.
    destruct Hl as [(q2 & Hq2 & H1 & H2 & H3)|(-> & _)]; [|specialize (Hpos _ Hq); simpl in Hpos; lia].
    pose proof (key_unique _ _ _ HK Hq2 Hq H1 H2) as ->. auto.
Qed.

Lemma kinv_canon K K' γ γ' : kinv ig F K -> kinv ig F K' -> rep ig F K γ -> rep ig F K' γ' -> same_items γ γ' -> K = K'.
Proof.
  intros HK HK' HR HR' HS.
  assert (HS' : same_items γ' γ) by (destruct HS as (S1 & S2); split; intros; symmetry; auto).
  assert (Hsh : forall K K' γ γ', kinv ig F K -> kinv ig F K' -> rep ig F K γ -> rep ig F K' γ' -> same_items γ γ' ->
    (exists s, K = [mk_position 0 0 s]) -> exists s, K' = [mk_position 0 0 s]).
  { clear -Hwf Hrc. intros K K' γ γ' HK HK' (R1 & _) (R1' & _) (S1 & _) (s & ->).
    destruct (ki_shape _ _ _ HK') as [|Hp]; auto. exfalso. destruct K' as [|q K']; [apply (ki_nonempty _ _ _ HK'); auto|].
    assert (Hc : icore ig (q :: K') (production_id q) (pos q)) by (left; exists q; simpl; auto).
    apply R1', S1, R1 in Hc. assert (1 <= pos q) by (apply Hp; simpl; auto).
    destruct (icore_kernel _ _ _ HK Hc) as (q' & [<-|[]] & _ & Hx); auto. simpl in Hx. lia. }
  destruct (ki_shape _ _ _ HK) as [Hs|Hp].
  - destruct (Hsh _ _ _ _ HK HK' HR HR' HS Hs) as (s' & ->). destruct Hs as (s & ->). do 2 f_equal.
    pose proof (ki_good _ _ _ HK) as G. inversion G as [|? ? (_ & _ & G1) _]; subst.
    pose proof (ki_good _ _ _ HK') as G'. inversion G' as [|? ? (_ & _ & G1') _]; subst.
    eapply vmem_ext; [apply G1|apply G1'|]. simpl.
    assert (Hone : forall s γ, rep ig F [mk_position 0 0 s] γ -> forall a, vmem s a = true <-> look ig F γ 0 0 a).
    { clear -Hwf Hrc. intros s γ (R1 & R2) a. rewrite <- R2. split.
      - intros Ha. left. exists (mk_position 0 0 s). simpl. auto.
      - intros [(q & [<-|[]] & _ & _ & Ha)|(_ & l & Hr & Hc)]; [auto|]. exfalso.
        apply (rsym_0 ig Hwf) in Hr. subst l. apply cfollow_clabel in Hc.
        inversion Hc as [q l Hq Hl|l j l' Hc' Hr' Hl']; subst.
        + eapply (no_label0 ig); eauto.
        + eapply (no_label0 ig); eauto. }
    intros a. rewrite (Hone _ _ HR), (Hone _ _ HR'). apply HS.
  - destruct (ki_shape _ _ _ HK') as [Hs'|Hp'].
    { destruct (Hsh _ _ _ _ HK' HK HR' HR HS' Hs') as (s & ->). specialize (Hp _ (or_introl eq_refl)). simpl in Hp. lia. }
    apply strong_unique; [apply (ki_strong _ _ _ HK)|apply (ki_strong _ _ _ HK')| |apply kinv_keys; auto].
    apply NoDup_Permutation.
    + eapply NoDup_map_inv. apply (kinv_keys _ HK).
    + eapply NoDup_map_inv. apply (kinv_keys _ HK').
    + intros q. split; [apply (kinv_incl _ _ _ _ HK HK' HR HR' HS Hp)|apply (kinv_incl _ _ _ _ HK' HK HR' HR HS' Hp')].
Qed.
End Canon.

Section States.
Context {bm : BuildMode} {T L : Type} `{EqDec T} `{EqDec L}.
Variable g : grammar T L.
Variable ig : indexed_grammar T L.
Hypothesis Hix : indexes g ig.
Variable F : first_table.
Hypothesis HF : FInv ig F.
Local Notation nrel := (inode_rel ig).
Local Notation arel := (aug_rel (ivocab ig)).
Let Hwf : wf_ig ig := ix_wf _ _ Hix.

Lemma node_back_rel X' X : node_back ig X' X -> nrel X X'.
Proof.
  destruct X' as [i|k], X as [a|l]; simpl; try tauto; [|apply label_of].
  intros Hx. destruct i as [n| |]; unfold id_to_token in Hx; simpl in Hx.
  - destruct (nth_error (id_map (ivocab ig)) n) as [t|] eqn:Hn; simpl in Hx; [|unfold index in Hx; rewrite Hn in Hx; discriminate].
    unfold index in Hx. rewrite Hn in Hx. injection Hx as <-. exact Hn.
  - injection Hx as <-. exact I.
  - injection Hx as <-. exact I.
Qed.

Lemma partition_inv fuel k parts : kinv ig F k -> partition_closure_by_next_node (E := lr_error T L) ig F fuel k = Ok parts ->
  exists C, is_closure ig F k C /\ is_part ig (k ++ C) parts.
Proof.
  intros Hk Hp. pose proof (partition_ok (E := lr_error T L) ig Hwf F HF k (ki_good _ _ _ Hk) True True (fun _ => True) fuel (or_introl I)) as Hw.
  rewrite Hp in Hw. exact Hw.
Qed.

Lemma reached_ok γ k : reached ig F γ k -> exists γ', Forall2 nrel γ (rev γ') /\ kinv ig F k /\ rep ig F k γ'.
Proof.
  induction 1 as [k Hk|γ k fuel parts id ps X' X ps' Hr (γ' & Hγ & HK & HR) Hp Hin Hid HX Hadv].
  - destruct (initial_kernel_ok ig Hwf) as (s & Hs & Hg & Hv). rewrite Hs in Hk. injection Hk as <-.
    exists []. split; [constructor|]. split; [apply kinv_initial; auto|apply rep_init; auto].
  - destruct (partition_inv _ _ _ HK Hp) as (C & HC & HP).
    destruct (part_entry ig Hwf k C parts HP _ _ Hin) as (q0 & Hq0 & Hc & Hps & _ & Hst).
    rewrite Hid in Hst. symmetry in Hst.
    rewrite (advance_all_ok ig) in Hadv.
    + injection Hadv as <-. exists (X' :: γ'). split; [simpl; apply Forall2_app; auto; constructor; [apply node_back_rel; auto|constructor]|].
      subst ps. split; [apply (kinv_next ig Hwf F k HK C HC q0 X'); auto|].
      eapply rep_step; eauto. apply (goto_of_partition ig Hwf F k C HC q0 X'); auto.
    + intros q Hq. subst ps. apply (in_pfilter ig Hwf) in Hq as (Hq & Hn); auto. split; [eapply good_P; eauto|congruence].
Qed.

Lemma partition_total k : kinv ig F k -> exists fuel parts, partition_closure_by_next_node (E := lr_error T L) ig F fuel k = Ok parts.
Proof.
  intros Hk. set (N := labels_count ig * vocab_size (ivocab ig)). exists (S N).
  pose proof (partition_ok (E := lr_error T L) ig Hwf F HF k (ki_good _ _ _ Hk) False False (fun _ => False) (S N) (or_intror (le_n (S N)))) as Hw.
  destruct (partition_closure_by_next_node (E := lr_error T L) ig F (S N) k) as [parts|?|?|]; simpl in Hw; try tauto. eauto.
Qed.

Lemma reached_core γ' : forall γ, Forall2 nrel γ (rev γ') -> (exists i p, core ig γ' i p) -> exists k, reached ig F γ k.
Proof.
  induction γ' as [|X' γ' IH]; intros γ Hδ (i & p & Hc).
  - inversion Hδ; subst. destruct (initial_kernel_ok ig Hwf) as (s & Hs & _). eexists. apply reached_root. exact Hs.
  - simpl in Hδ. apply Forall2_app_inv_r in Hδ as (γ1 & γ2 & H1 & H2 & ->). inversion H2 as [|Y ? ? ? HY Hnil]; subst. inversion Hnil; subst.
    destruct (core_cons ig _ _ _ _ Hc) as (i' & p' & Hc' & Hn).
    destruct (IH _ H1) as (k & Hk); [eauto|].
    destruct (reached_ok _ _ Hk) as (γ2 & Hγ2 & HK & HR).
    pose proof (nrels_inj g ig Hix _ _ _ H1 Hγ2) as He. apply (f_equal (@rev _)) in He. rewrite !rev_involutive in He. subst γ2.
    destruct (partition_total _ HK) as (fuel & parts & Hp). destruct (partition_inv _ _ _ HK Hp) as (C & HC & HP).
    apply (proj1 HR), (icore_closure ig F k C _ _ HC) in Hc' as (q & Hq & <- & <-).
    destruct (part_total ig k C parts HP q Hq) as (ps & Hps & Hqps).
    destruct (part_entry ig Hwf k C parts HP _ _ Hps) as (q0 & Hq0 & Hcat & Hpse & _ & Hst).
    assert (Hnq : qnext ig q0 = qnext ig q) by (subst ps; apply (in_pfilter ig Hwf) in Hqps as (_ & Hx); auto).
    eexists. eapply (reached_next _ _ _ _ fuel parts (qcat ig q) ps X' Y); eauto.
    + rewrite Hst, Hnq. exact Hn.
    + apply inode_rel_back. auto.
    + apply (advance_all_ok ig). intros q' Hq'. subst ps. apply (in_pfilter ig Hwf) in Hq' as (Hq' & Hx); auto.
      split; [eapply good_P; eauto|]. rewrite Hx, Hnq. unfold qnext. congruence.
Qed.

Hypothesis Heps : eps_trailing g.

Lemma reached_every γ : (exists i p, item g γ i p) -> exists k, reached ig F γ k.
Proof. intros (i & p & Hi). destruct (item_fwd g ig Hix Heps _ _ _ Hi) as (δ & j & Hδ & Hj & Hc). eapply reached_core; eauto. Qed.

Lemma holds_iff γ k fuel parts i p : reached ig F γ k ->
  partition_closure_by_next_node (E := lr_error T L) ig F fuel k = Ok parts -> (holds ig parts i p <-> item g γ i p).
Proof.
  intros Hr Hp. destruct (reached_ok _ _ Hr) as (γ' & Hγ & HK & HR). destruct (partition_inv _ _ _ HK Hp) as (C & HC & HP). split.
  - intros (id & ps & q & ir & Hin & Hq & Hir & <- & <-).
    destruct (part_entry ig Hwf k C parts HP _ _ Hin) as (q0 & Hq0 & Hcat & Hps & _). subst ps. apply filter_In in Hq as (Hq & _).
    apply (item_iff g ig Hix Heps γ γ' _ (production_id q)); auto; [exists ir; auto|].
    apply (proj1 HR), (icore_closure ig F k C _ _ HC). eauto.
  - intros Hi. assert (exists r, nth_error g i = Some r) as (r & Hri).
    { destruct (item_fwd g ig Hix Heps _ _ _ Hi) as (δ & j & _ & (ir & Hir & <-) & _).
      destruct (ix_rule_bwd g ig Hix _ _ Hir) as (r & Hr' & _). eauto. }
    destruct (rule_of_total g ig Hix _ _ Hri) as (j & Hj). apply (item_iff g ig Hix Heps γ γ' _ j) in Hi; auto.
    apply (proj1 HR), (icore_closure ig F k C _ _ HC) in Hi as (q & Hq & Hqi & Hqp).
    destruct (part_total ig k C parts HP q Hq) as (ps & Hps & Hqps). destruct Hj as (ir & Hir & Hoi).
    exists (qcat ig q), ps, q, ir. subst j. auto.
Qed.

Lemma vs_has_true s a' : good_set ig s -> label_id a' < vocab_size (ivocab ig) -> (vs_has (E := unit) s a' = Ok true <-> vmem s a' = true).
Proof. intros (Hw & _) Hb. rewrite (vs_has_ok _ _ _ Hw Hb). split; intros Hx; congruence. Qed.

Lemma holds_before_look γ' k fuel parts i p a : kinv ig F k -> rep ig F k γ' ->
  partition_closure_by_next_node (E := lr_error T L) ig F fuel k = Ok parts ->
  (holds_before ig parts i p a <-> exists j a', rule_of ig j i /\ arel a a' /\ look ig F γ' j p a').
Proof.
  intros HK HR Hp. destruct (partition_inv _ _ _ HK Hp) as (C & HC & HP). split.
  - intros (id & ps & q & ir & a' & Hin & Hq & Hir & <- & <- & Ha & Hv).
    destruct (part_entry ig Hwf k C parts HP _ _ Hin) as (q0 & Hq0 & Hcat & Hps & _). subst ps. apply filter_In in Hq as (Hq & _).
    apply (augmented_token_to_id_spec _ _ _ (wf_voc _ Hwf)) in Ha.
    exists (production_id q), a'. split; [exists ir; auto|]. split; auto.
    apply (proj2 HR), (ilook_closure ig F k C _ _ _ HC). exists q. repeat (split; auto).
    pose proof (good_P ig F k HK C HC q Hq) as (_ & _ & Hg). apply vs_has_true; auto. eapply aug_rel_bound; eauto.
  - intros (j & a' & (ir & Hir & <-) & Ha & Hl). apply (proj2 HR), (ilook_closure ig F k C _ _ _ HC) in Hl as (q & Hq & <- & <- & Hv).
    destruct (part_total ig k C parts HP q Hq) as (ps & Hps & Hqps).
    exists (qcat ig q), ps, q, ir, a'. repeat (split; auto).
    + apply (augmented_token_to_id_spec _ _ _ (wf_voc _ Hwf)). auto.
    + pose proof (good_P ig F k HK C HC q Hq) as (_ & _ & Hg). apply vs_has_true; auto. eapply aug_rel_bound; eauto.
Qed.

Lemma holds_before_sound γ k fuel parts i p a : reached ig F γ k ->
  partition_closure_by_next_node (E := lr_error T L) ig F fuel k = Ok parts -> holds_before ig parts i p a -> lookahead g γ i p a.
Proof.
  intros Hr Hp Hx. destruct (reached_ok _ _ Hr) as (γ' & Hγ & HK & HR).
  destruct (proj1 (holds_before_look γ' k fuel parts i p a HK HR Hp) Hx) as (j & a' & Hj & Ha & Hl). eapply (lookahead_of_look g ig); eauto.
Qed.

Lemma holds_before_complete γ k fuel parts i p a : Fclosed ig F -> reached ig F γ k ->
  partition_closure_by_next_node (E := lr_error T L) ig F fuel k = Ok parts -> lookahead g γ i p a -> holds_before ig parts i p a.
Proof.
  intros HFc Hr Hp Hx. destruct (reached_ok _ _ Hr) as (γ' & Hγ & HK & HR).
  apply (holds_before_look γ' k fuel parts i p a HK HR Hp). destruct (look_fwd g ig Hix Heps F HFc _ _ _ _ Hx) as (δ & j & a' & Hδ & Hj & Ha & Hl).
  exists j, a'. split; auto. split; auto. pose proof (nrels_inj g ig Hix _ _ _ Hγ Hδ) as He. apply (f_equal (@rev _)) in He.
  rewrite !rev_involutive in He. subst. auto.
Qed.
End States.

(** The kernels and closures of the builder, for a grammar. *)
Section Final.
Context {bm : BuildMode} {T L : Type} `{EqDec T} `{EqDec L}.
Variable g : grammar T L.
Variable ig : indexed_grammar T L.
Variable F : first_table.
Variables fuel fuel' : nat.
Hypothesis Hig : indexed_build fuel g = Ok ig.
Hypothesis HFb : first_build (E := lr_error T L) fuel' ig = Ok F.

Lemma state_positions_exact γ k fuel2 parts : eps_trailing g -> reached ig F γ k ->
  partition_closure_by_next_node (E := lr_error T L) ig F fuel2 k = Ok parts ->
  (forall i p, holds ig parts i p <-> item g γ i p) /\
  (forall i p a, holds_before ig parts i p a -> lookahead g γ i p a).
Proof.
  intros Heps Hr Hp. destruct (build_indexes _ _ _ Hig) as (Hix & _). pose proof (build_first _ _ _ (ix_wf _ _ Hix) HFb) as HF. split; intros.
  - eapply holds_iff; eauto.
  - eapply holds_before_sound; eauto.
Qed.

Lemma first_complete_fuel : first_complete g -> Fclosed ig F.
Proof.
  intros Hfc. apply first_complete_closed in Hfc. eapply (Hfc (fuel + fuel')).
  - eapply (le_ok _ _ _ (indexed_build_le (T:=T) (L:=L) fuel (fuel + fuel') ltac:(lia) g) Hig).
  - eapply (le_ok _ _ _ (first_build_le (T:=T) (L:=L) fuel' (fuel + fuel') ltac:(lia) (lr_error T L) ig) HFb).
Qed.

Lemma state_lookaheads_exact γ k fuel2 parts : eps_trailing g -> first_complete g -> reached ig F γ k ->
  partition_closure_by_next_node (E := lr_error T L) ig F fuel2 k = Ok parts ->
  forall i p a, holds_before ig parts i p a <-> lookahead g γ i p a.
Proof.
  intros Heps Hfc Hr Hp i p a. destruct (build_indexes _ _ _ Hig) as (Hix & _). pose proof (build_first _ _ _ (ix_wf _ _ Hix) HFb) as HF. split.
  - eapply holds_before_sound; eauto.
  - eapply holds_before_complete; eauto. apply first_complete_fuel; auto.
Qed.

Lemma state_lookaheads_lr1 γ k fuel2 parts : eps_trailing g -> first_complete g -> productive g -> reached ig F γ k ->
  partition_closure_by_next_node (E := lr_error T L) ig F fuel2 k = Ok parts ->
  forall i p a, holds_before ig parts i p a <-> lr1_item g γ i p a.
Proof.
  intros Heps Hfc Hprod Hr Hp i p a. rewrite (state_lookaheads_exact γ k fuel2 parts Heps Hfc Hr Hp).
  destruct (build_indexes _ _ _ Hig) as (_ & Hv). split.
  - apply lookahead_lr1; auto. destruct Hv as (? & ? & _ & _ & Hl & _); auto.
  - intros Hx. apply lr1_lookahead in Hx. apply Hx.
Qed.

Lemma states_exist γ : eps_trailing g -> (exists i p, item g γ i p) -> exists k fuel2 parts, reached ig F γ k /\
  partition_closure_by_next_node (E := lr_error T L) ig F fuel2 k = Ok parts.
Proof.
  intros Heps Hi. destruct (build_indexes _ _ _ Hig) as (Hix & _). pose proof (build_first _ _ _ (ix_wf _ _ Hix) HFb) as HF.
  destruct (reached_every g ig Hix F HF Heps γ Hi) as (k & Hk). destruct (reached_ok g ig Hix F HF _ _ Hk) as (_ & _ & HK & _).
  destruct (partition_total g ig Hix F HF k HK) as (fuel2 & parts & Hp). eauto.
Qed.
End Final.
