(** FIRST, the table and the parser, with the repaired line. *)
From Coq Require Import Arith Bool String NArith List Lia Permutation.
From Verif Require Import Base.Prelude Spec.Grammar Spec.Validity Spec.Nullable Spec.Observers Model.Error.
From Verif Require Import Model.BitSet Model.FixedMap Model.Vocabulary Model.IndexedGrammar Model.FirstMap.
From Verif Require Import Model.Position Model.Closure Model.LRTable Model.ParseSimulator.
From Verif Require Import Proofs.WP Proofs.BitSetProofs Proofs.FixedMapProofs Proofs.VocabProofs.
From Verif Require Import Proofs.IndexedProofs Proofs.IndexedBuild Proofs.IndexedMain Proofs.FirstProofs.
From Verif Require Import Proofs.ClosureProofs Proofs.ItemSets Proofs.TableProofs Proofs.TableBuild.
From Verif Require Import Proofs.Fuel Proofs.Machine Proofs.ParserFinal Proofs.IndexedFinal Proofs.RecognitionFinal.
From Verif Require Import Spec.LR1 Proofs.LR1Proofs Proofs.LR1Final Spec.Repair.
Import ListNotations.

Section First.
Context {bm : BuildMode} {E T L : Type} `{EqDec T}.
Variable g : indexed_grammar T L.
Hypothesis Hwf : wf_ig g.
Local Notation n := (labels_count g).
Local Notation m := (vocab_size (ivocab g)).

(** One round with the repaired line: if it reports no change, there was none. *)
Definition kept (F F' : first_table) (ch' : bool) : Prop :=
  ch' = false -> forall l, fmem F' l Epsilon = true -> fmem F l Epsilon = true.

Lemma repaired_rule_ok j r F ch : nth_error (rules g) j = Some r -> FInv g F ->
  exists F' ch', @propagate_rule_repaired bm E (isymbol r) (F, ch) r = Ok (F', ch') /\ round_spec g [r] F ch F' ch' /\ kept F F' ch'.
Proof.
  intros Hr Hinv. pose proof (nth_error_In _ _ Hr) as Hin. pose proof (wf_sym _ Hwf _ Hin) as Hs. pose proof (m_pos g) as Hm.
  assert (Heps : label_id (@Epsilon nat) < m) by (unfold label_id; simpl; lia).
  destruct (propagate_rule_ok (E:=E) g Hwf j r F ch Hr Hinv) as (F' & ch' & Hold & Hspec).
  unfold propagate_rule_repaired, propagate_rule in *. simpl in *.
  destruct (propagate_nodes_ok (E:=E) g Hwf j r (irhs r) [] F ch Hr eq_refl Hinv) as (F1 & ch1 & passed & Heq & I1 & I2 & I3 & I4 & Ia & Ib & I5); [constructor|].
  rewrite Heq in *. simpl in *. destruct passed.
  - pose proof I1 as (Hw1 & _). destruct (wfF_get g F1 _ Hw1 Hs) as (s & Hs1 & Hs2). rewrite (index_ok _ _ _ Hs1) in *. simpl in *.
    rewrite (vs_has_ok _ _ _ Hs2 Heps). simpl.
    destruct (@vs_set_ok bm E m s Epsilon Hs2 Heps) as (s' & Hset & Hs' & Hmem). rewrite Hset in *. simpl in *.
    rewrite store_ok in * by (apply nth_error_Some; congruence). simpl in *. injection Hold as <- <-.
    set (F2 := list_set F1 (isymbol r) s') in *. exists F2, (ch1 || negb (vmem s Epsilon)). split; [reflexivity|].
    assert (Hf2 : forall l a, fmem F2 l a = true <-> (l = isymbol r /\ a = Epsilon) \/ fmem F1 l a = true).
    { intros l a. unfold F2. rewrite (fmem_list_set _ _ _ _ _ _ Hs1). destruct (Nat.eqb_spec (isymbol r) l) as [<-|Hne].
      - rewrite Hmem. unfold fmem. rewrite Hs1. intuition congruence.
      - intuition congruence. }
    assert (Hse : fmem F1 (isymbol r) Epsilon = vmem s Epsilon) by (unfold fmem; rewrite Hs1; auto).
    destruct Hspec as (A1 & A2 & A3 & A4 & A5 & A6 & A7 & A8). split.
    + split; [auto|]. split; [auto|]. split; [|split; [|split; [|split; [|auto]]]].
      * intros Hc. apply orb_true_iff in Hc as [Hc|Hc]; auto. right. exists (isymbol r), Epsilon. split; [auto|]. split; [|apply Hf2; auto].
        destruct (fmem F (isymbol r) Epsilon) eqn:Hx; auto. apply I2 in Hx. rewrite Hse in Hx. rewrite Hx in Hc. discriminate.
      * intros Hc. rewrite A4 by auto. auto.
      * intros Hc. apply orb_false_iff in Hc as (Hc & _). auto.
      * intros Hc. apply orb_false_iff in Hc as (Hc & _). auto.
    + intros Hc l Hl. apply orb_false_iff in Hc as (Hc & Hv). apply negb_false_iff in Hv.
      destruct (I5 Hc) as (J1 & _). apply Hf2 in Hl as [(-> & _)|Hl]; rewrite <- J1; [rewrite Hse; auto|auto].
  - injection Hold as <- <-. exists F1, ch1. split; [reflexivity|]. split; [auto|]. intros Hc l Hl. destruct (I5 Hc) as (J1 & _). rewrite <- J1. auto.
Qed.

Lemma kept_app rs1 rs2 F ch F1 ch1 F2 ch2 : round_spec g rs1 F ch F1 ch1 -> round_spec g rs2 F1 ch1 F2 ch2 ->
  kept F F1 ch1 -> kept F1 F2 ch2 -> kept F F2 ch2.
Proof.
  intros _ (_ & _ & _ & B4 & _) K1 K2 Hc l Hl. apply K1; [|apply K2; auto]. destruct ch1; auto. rewrite B4 in Hc; auto.
Qed.

Lemma repaired_rules_ok l rs F ch :
  (forall r, In r rs -> In r (rules g) /\ isymbol r = l) -> FInv g F ->
  exists F' ch', foldM (@propagate_rule_repaired bm E l) (F, ch) rs = Ok (F', ch') /\ round_spec g rs F ch F' ch' /\ kept F F' ch'.
Proof.
  revert F ch. induction rs as [|r rs IH]; intros F ch Hrs Hinv.
  - exists F, ch. split; [reflexivity|]. split; [apply round_spec_nil; auto|]. intros _ k Hk. exact Hk.
  - destruct (Hrs r) as (Hin & <-); [simpl; auto|]. apply In_nth_error in Hin as (j & Hj).
    rewrite foldM_cons. destruct (repaired_rule_ok j r F ch Hj Hinv) as (F1 & ch1 & -> & R1 & K1). simpl.
    destruct (IH F1 ch1) as (F2 & ch2 & -> & R2 & K2); [intros; apply Hrs; simpl; auto|apply R1|].
    exists F2, ch2. split; [reflexivity|]. split; [apply (round_spec_app g [r] rs F ch F1 ch1); auto|eapply kept_app; eauto].
Qed.

Lemma repaired_labels_ok ls F ch :
  (forall l, In l ls -> l < n) -> FInv g F ->
  exists F' ch', foldM (fun st label => rs <- production_rules_for_label g label ;; foldM (@propagate_rule_repaired bm E label) st rs)
      (F, ch) ls = Ok (F', ch') /\
    exists rs, round_spec g rs F ch F' ch' /\ kept F F' ch' /\ (forall r, In r (rules g) -> In (isymbol r) ls -> In r rs).
Proof.
  revert F ch. induction ls as [|l ls IH]; intros F ch Hls Hinv.
  - exists F, ch. split; [reflexivity|]. exists []. split; [apply round_spec_nil; auto|]. split; [intros _ k Hk; exact Hk|]. simpl. tauto.
  - rewrite foldM_cons.
    destruct (@production_rules_ok E T L _ g Hwf l) as (ids & rs & _ & -> & _ & _ & _ & Hin & Hall); [apply Hls; simpl; auto|].
    simpl. destruct (repaired_rules_ok l rs F ch Hin Hinv) as (F1 & ch1 & -> & R1 & K1). simpl.
    destruct (IH F1 ch1) as (F2 & ch2 & -> & rs2 & R2 & K2 & Hall2); [intros; apply Hls; simpl; auto|apply R1|].
    exists F2, ch2. split; [reflexivity|]. exists (rs ++ rs2). split; [eapply round_spec_app; eauto|]. split; [eapply kept_app; eauto|].
    intros r Hr [Hl|Hl]; apply in_or_app; [left|right; auto].
    apply In_nth_error in Hr as (i & Hr). eapply Hall; eauto.
Qed.

Theorem repaired_first_ok Pn Dv fuel R : (Dv \/ n * m < fuel) ->
  wp Pn Dv (@first_build_repaired bm E T L fuel g) (fun F => FInv g F /\ Fclosed g F) R.
Proof.
  intros Hf. unfold first_build_repaired. pose proof (FInv_init g) as Hinit.
  set (F0 := repeat (vs_new (ivocab g)) n) in *.
  apply (wp_while (FInv g) (tmiss m)).
  - destruct Hf; auto. right. pose proof (tmiss_bound m F0) as Hb. unfold F0 in Hb at 2. rewrite repeat_length in Hb. lia.
  - auto.
  - intros F Hinv. unfold propagate_map_repaired.
    destruct (repaired_labels_ok (all_production_labels g) F false) as (F' & ch' & Heq & rs & R1 & K1 & Hall); auto.
    { intros l Hl. apply in_seq in Hl. lia. }
    rewrite Heq. simpl. destruct ch'; simpl.
    + split; [apply R1|right; eapply round_measure; eauto].
    + split; [apply R1|]. intros r Hr. pose proof R1 as (A1 & A2 & A3 & A4 & A5 & _). apply A5; auto.
      apply Hall; auto. apply in_seq. pose proof (wf_sym _ Hwf _ Hr). lia.
Qed.

(** There is one table that is both justified and closed. *)
Lemma JN_closed F F' : Fclosed g F' ->
  (forall l, JN g F l -> fmem F' l Epsilon = true) /\ (forall ns, JNs g F ns -> fnull F' ns = true).
Proof.
  intros Hc. apply (JN_mutind g F (fun l _ => fmem F' l Epsilon = true) (fun ns _ => fnull F' ns = true)); auto.
  - intros j r Hj _ _ Hn. exact (proj1 (Hc r (nth_error_In _ _ Hj)) Hn).
  - intros l ns _ H1 _ H2. simpl. rewrite H1, H2. auto.
Qed.

Lemma JFs_not_eps F : (forall l a, JF g F l a -> a <> Epsilon) /\ (forall ns a, JFs g F ns a -> a <> Epsilon).
Proof. apply (JF_mutind g F (fun l a _ => a <> Epsilon) (fun ns a _ => a <> Epsilon)); auto. Qed.

Lemma JF_closed F F' : Fclosed g F' ->
  (forall l a, JF g F l a -> fmem F' l a = true) /\ (forall ns a, JFs g F ns a -> ffirst F' ns a = true).
Proof.
  intros Hc. destruct (JN_closed F F' Hc) as (HN & _).
  apply (JF_mutind g F (fun l a _ => fmem F' l a = true) (fun ns a _ => ffirst F' ns a = true)).
  - intros j r a Hj _ Hs Hf. apply (proj2 (Hc r (nth_error_In _ _ Hj))); auto. eapply (proj2 (JFs_not_eps F)); eauto.
  - intros a ns Ha. simpl. destruct a; try congruence; apply eqb_refl.
  - intros ns a _ Hf. auto.
  - intros l ns a HJ _ Hf. simpl. rewrite (HN _ HJ), Hf. apply orb_true_r.
  - intros l ns a _ Hf. simpl. rewrite Hf. auto.
Qed.

Lemma closed_least F F' : FInv g F -> Fclosed g F' -> leF F F'.
Proof.
  intros (_ & HN & HF) Hc l a Ha. destruct a.
  - apply (JF_closed F F' Hc). apply HF; [discriminate|auto].
  - apply (JN_closed F F' Hc). apply HN. auto.
  - apply (JF_closed F F' Hc). apply HF; [discriminate|auto].
Qed.

Lemma closed_unique F F' : FInv g F -> Fclosed g F -> FInv g F' -> Fclosed g F' -> F = F'.
Proof.
  intros H1 C1 H2 C2. apply (leF_antisym n m); [apply H1|apply H2|apply closed_least; auto..].
Qed.

End First.

Section Table.
Context {bm : BuildMode} {T L : Type} `{EqDec T} `{EqDec L}.
Local Notation E := (lr_error T L).

Theorem repaired_table_ok (g : indexed_grammar T L) (Hwf : wf_ig g) : exists N, forall (Dv : Prop) fuel, (Dv \/ N < fuel) ->
  wp (In (Production 0) (rnodes g 0)) Dv (table_build_repaired g fuel)
    (fun t => exists F ks acts gts, FInv g F /\ Fclosed g F /\ table_ok g F t ks acts gts)
    (fun e => exists F, FInv g F /\ Fclosed g F /\ table_err g F e).
Proof.
  destruct (kernels_bounded g) as (N & HN). exists (N + labels_count g * vocab_size (ivocab g)). intros Dv fuel Hfuel.
  assert (Hf1 : Dv \/ labels_count g * vocab_size (ivocab g) < fuel) by (destruct Hfuel; [auto|right; lia]).
  unfold table_build_repaired. apply wp_bind.
  pose proof (repaired_first_ok (E:=E) g Hwf (In (Production 0) (rnodes g 0)) Dv fuel (fun _ => False) Hf1) as Hfb.
  destruct (@first_build_repaired bm E T L fuel g) as [F|e|why|] eqn:HFb; simpl in Hfb; [|tauto|exact Hfb|exact Hfb].
  destruct Hfb as (HF & HFc).
  change (wp (In (Production 0) (rnodes g 0)) Dv (k0 <- @initial_kernel bm T L g ;;
    let '(kt, id) := get_or_insert kernel_table_new k0 in
    _ <- debug_assert (id =? 0) "id.0 == 0" ;;
    while_loop fuel (build_row g fuel F) (0, kt, mk_table [] [] 0))
    (fun t => exists F0 ks acts gts, FInv g F0 /\ Fclosed g F0 /\ table_ok g F0 t ks acts gts)
    (fun e => exists F0, FInv g F0 /\ Fclosed g F0 /\ table_err g F0 e)).
  destruct (initial_kernel_ok g Hwf) as (s & -> & Hgs & Hs). simpl.
  set (K0 := [mk_position 0 0 s]). rewrite debug_assert_true. simpl.
  eapply wp_mono with (R := table_err g F); [| |intros e He; exists F; auto].
  - apply (wp_while (tinv g F K0) (fun st => N - fst (fst st)) _
      (fun t => exists ks acts gts, table_ok g F t ks acts gts)).
    + simpl. destruct Hfuel; [auto|right; lia].
    + split; [split; [constructor; simpl; auto; constructor|reflexivity]|].
      split. { intros k [<-|[]]. apply kinv_initial; auto. }
      split; [reflexivity|]. split; [simpl; lia|]. split; [reflexivity|]. split; [simpl; lia|]. split; [simpl; lia|].
      exists []. split; [reflexivity|]. split; [intros [|]; discriminate|]. intros [|s'] k Hk; auto. destruct s'; discriminate.
    + intros st Hst. eapply wp_conseq; [apply (build_row_ok g Hwf F HF Dv fuel K0 st Hf1 Hst)|].
      intros [st'|t]; simpl.
      * intros (Hst' & Hlt & Hsid). split; auto. right. rewrite Hsid.
        destruct st as [[sid kt] t]. simpl in *. destruct Hst as (Hkt & Hki & _).
        assert (length (kstates kt) <= N) by (apply (HN F); auto; apply Hkt). lia.
      * intros (-> & Hn). destruct st as [[sid kt] t]. simpl in *.
        destruct (tinv_final g F K0 sid kt t) as (acts & gts & Ht); eauto. apply rep_init; auto.
  - intros t (ks & acts & gts & Ht). exists F, ks, acts, gts. auto.
Qed.

End Table.

Section Parser.
Context {bm : BuildMode} {T L : Type} `{EqDec T} `{EqDec L}.

Lemma repaired_first_le E f f' (ig : indexed_grammar T L) : f <= f' ->
  le_out (first_build_repaired (E := E) f ig) (first_build_repaired f' ig).
Proof. intros Hf. apply le_while; auto. intros; apply le_refl. Qed.

Lemma repaired_table_le f f' (ig : indexed_grammar T L) : f <= f' -> le_out (table_build_repaired ig f) (table_build_repaired ig f').
Proof.
  intros Hf. unfold table_build_repaired. apply le_bind; [apply repaired_first_le; auto|].
  intros F. apply le_bind; [apply le_refl|]. intros k0. destruct (get_or_insert _ _) as [kt id].
  apply le_bind; [apply le_refl|]. intros _. apply le_while; auto. intros [[sid kt'] t].
  unfold build_row. destruct (get_state kt' sid); [|apply le_refl]. apply le_bind; [|intros; apply le_refl].
  unfold partition_closure_by_next_node. apply le_bind; [|intros; apply le_refl].
  unfold closure_follow_sets. apply le_bind; [apply le_refl|]. intros st. apply le_bind.
  { apply le_while; auto. intros; apply le_refl. }
  intros sets. apply le_while; auto. intros; apply le_refl.
Qed.

Lemma repaired_le f f' (g : grammar T L) : f <= f' -> le_out (parser_new_repaired f g) (parser_new_repaired f' g).
Proof.
  intros Hf. unfold parser_new_repaired. apply le_bind; [apply indexed_build_le; auto|]. intros ig.
  apply le_bind; [apply repaired_table_le; auto|]. intros; apply le_refl.
Qed.

(** What the repaired [FirstTable::build_from_grammar] returns. *)
Theorem repaired_first_exact fuel0 (g : grammar T L) ig : indexed_build fuel0 g = Ok ig ->
  exists N F, (forall E fuel, N < fuel -> first_build_repaired (E := E) fuel ig = Ok F) /\
    forall l, (first_has ig F l Epsilon <-> vanishes g [Production l]) /\
      forall a, a <> Epsilon -> (first_has ig F l a <-> begins g [Production l] a).
Proof.
  intros Hig. destruct (build_indexes _ _ _ Hig) as (Hix & _). pose proof (ix_wf _ _ Hix) as Hwf.
  set (N := labels_count ig * vocab_size (ivocab ig)).
  assert (HN : forall E fuel, N < fuel -> exists F, first_build_repaired (E := E) fuel ig = Ok F /\ FInv ig F /\ Fclosed ig F).
  { intros E fuel Hf. pose proof (repaired_first_ok (E:=E) ig Hwf False False fuel (fun _ => False) (or_intror Hf)) as Hx.
    destruct (first_build_repaired fuel ig) as [F| | |]; simpl in Hx; try tauto. eauto. }
  destruct (HN unit (S N) ltac:(lia)) as (F & _ & HF & HFc). exists N, F. split.
  - intros E fuel Hf. destruct (HN E fuel Hf) as (F' & -> & HF' & HFc'). f_equal. eapply (closed_unique ig); eauto.
  - intros l. destruct (first_closed_complete g ig Hix F HF HFc l) as (C1 & C2). split.
    + split; auto. intros Hx. apply (first_sound g ig Hix F HF _ _ Hx). auto.
    + intros a Ha. split; auto. intros Hx. apply (first_sound g ig Hix F HF _ _ Hx). auto.
Qed.

(** What a parser built with it is. *)
Definition built_repaired (g : grammar T L) (p : parser T L) : Prop :=
  indexes g (pgrammar p) /\ valid_grammar g /\
  exists F ks acts gts, FInv (pgrammar p) F /\ Fclosed (pgrammar p) F /\ table_ok (pgrammar p) F (plr_table p) ks acts gts.

Theorem repaired_built fuel (g : grammar T L) p : parser_new_repaired fuel g = Ok p -> built_repaired g p.
Proof.
  unfold parser_new_repaired. intros Hp.
  pose proof (indexed_build_spec True fuel g (or_introl I)) as Hi.
  destruct (indexed_build fuel g) as [ig|e|why|] eqn:Hig; try discriminate. simpl in Hp, Hi. destruct Hi as (Hix & Hv).
  destruct (repaired_table_ok ig (ix_wf _ _ Hix)) as (N & Ht). specialize (Ht True fuel (or_introl I)).
  destruct (table_build_repaired ig fuel) as [t|e|why|]; try discriminate. simpl in *. injection Hp as <-.
  destruct Ht as (F & ks & acts & gts & HF & HFb & Hok). split; auto. split; auto. simpl.
  exists F, ks, acts, gts. auto.
Qed.

Theorem repaired_total (g : grammar T L) : exists N, forall fuel, N < fuel ->
  match parser_new_repaired fuel g with
  | Diverge => False
  | Panic _ => exists r, nth_error g 0 = Some r /\ uses r (symbol r)
  | _ => True
  end.
Proof.
  pose proof (indexed_build_spec False (S (length g)) g (or_intror (Nat.lt_succ_diag_r _))) as Hi.
  destruct (indexed_build (S (length g)) g) as [ig|e|why|] eqn:Hig; simpl in Hi; try tauto.
  - destruct Hi as (Hix & Hv). destruct (repaired_table_ok ig (ix_wf _ _ Hix)) as (N & Ht).
    exists (length g + N). intros fuel Hf. unfold parser_new_repaired.
    assert (Hig' : indexed_build fuel g = Ok ig) by (apply (le_ok _ _ _ (indexed_build_le (T:=T) (L:=L) (S (length g)) fuel ltac:(lia) g) Hig)).
    rewrite Hig'. simpl. assert (HN : N < fuel) by lia. specialize (Ht False fuel (or_intror HN)).
    destruct (table_build_repaired ig fuel); simpl in *; auto.
    destruct (ix_root_rule _ _ Hix) as (r & ir & Hg & Hir & Hl & _ & Hns). exists r. split; auto.
    unfold rnodes in Ht. rewrite Hir in Ht. destruct (Forall2_in_r _ _ _ _ Hns Ht) as (nd & Hin & Hrel).
    destruct nd as [a|l]; simpl in Hrel; [tauto|]. simpl in Hl.
    destruct (wf_root _ (ix_wf _ _ Hix)) as (ir' & mt & Hir' & Hs' & _). rewrite Hir in Hir'. injection Hir' as <-.
    rewrite Hs' in Hl. rewrite (ilabel_fun _ _ _ _ Hl Hrel). exact Hin.
  - exists (length g). intros fuel Hf. unfold parser_new_repaired.
    pose proof (indexed_build_le (T:=T) (L:=L) _ _ Hf g) as [Hx|Hx]; rewrite Hig in Hx; [discriminate|]. rewrite <- Hx. simpl. auto.
Qed.

Lemma repaired_genuine fuel (g : grammar T L) ig e : eps_trailing g -> indexed_build fuel g = Ok ig -> table_build_repaired ig fuel = Err e ->
  genuine ig (may_reduce g) (may_shift g) e.
Proof.
  intros Heps Hig He. destruct (build_indexes _ _ _ Hig) as (Hix & Hv).
  destruct (repaired_table_ok ig (ix_wf _ _ Hix)) as (N & Ht). specialize (Ht True fuel (or_introl I)). rewrite He in Ht.
  destruct Ht as (F & HF & _ & Ht). destruct e; simpl in *; try tauto.
  - destruct Ht as (γ' & a' & Ha & Hs & Hc). pose proof Hc as (p & Hcore & _).
    destruct (item_bwd g ig Hix Heps _ _ _ Hcore) as (γ & i & Hγ & Hr & _).
    exists γ, i. split; auto. split; [eapply may_shift_bwd; eauto|eapply may_reduce_bwd; eauto].
  - destruct Ht as (γ' & a' & Ha & Hne & Hc1 & Hc2). pose proof Hc1 as (p & Hcore & _). pose proof Hc2 as (p2 & Hcore2 & _).
    destruct (item_bwd g ig Hix Heps _ _ _ Hcore) as (γ & i & Hγ & Hr & _).
    destruct (core_rule g ig Hix _ _ _ Hcore2) as (i2 & Hr2).
    exists γ, i, i2. split; auto. split; auto. split.
    { intros <-. apply Hne. eapply (rule_of_inj g ig Hix); eauto. }
    split; [apply (may_reduce_bwd g ig Hix Heps F HF _ _ _ Hc1); auto|apply (may_reduce_bwd g ig Hix Heps F HF _ _ _ Hc2); auto].
Qed.

Theorem repaired_conflict_free fuel (g : grammar T L) p : eps_trailing g -> parser_new_repaired fuel g = Ok p ->
  valid_grammar g /\ conflict_free g.
Proof.
  intros Heps Hp. apply repaired_built in Hp as (Hix & Hv & F & ks & acts & gts & HF & HFc & Hok). split; auto.
  set (ig := pgrammar p) in *.
  assert (Hpair : forall γ i a, may_reduce g γ i a -> exists γ' j a', Forall2 (inode_rel ig) γ (rev γ') /\ rule_of ig j i /\ aug_rel (ivocab ig) a a' /\
    (forall i2, may_reduce g γ i2 a -> i = i2) /\ ~ may_shift g γ a).
  { intros γ i a Hm. destruct (may_reduce_fwd g ig Hix Heps F HFc _ _ _ Hm) as (γ' & j & a' & Hγ & Hr & Ha & Hg).
    exists γ', j, a'. split; auto. split; auto. split; auto.
    destruct (table_no_conflict ig F _ _ _ _ Hok _ _ _ Hg) as (Hn1 & Hn2). split.
    - intros i2 Hm2. destruct (may_reduce_fwd g ig Hix Heps F HFc _ _ _ Hm2) as (γ2 & j2 & a2 & Hγ2 & Hr2 & Ha2 & Hg2).
      pose proof (nrels_inj g ig Hix _ _ _ Hγ Hγ2) as Hq. apply (f_equal (@rev _)) in Hq. rewrite !rev_involutive in Hq. subst γ2.
      rewrite <- (arel_inj g ig Hix _ _ _ Ha Ha2) in Hg2. specialize (Hn1 _ Hg2). subst j2. eapply (rule_of_fun ig); eauto.
    - intros Hs. destruct (may_shift_fwd g ig Hix Heps _ _ Hs) as (γ2 & a2 & Hγ2 & Ha2 & Hg2).
      pose proof (nrels_inj g ig Hix _ _ _ Hγ Hγ2) as Hq. apply (f_equal (@rev _)) in Hq. rewrite !rev_involutive in Hq. subst γ2.
      rewrite <- (arel_inj g ig Hix _ _ _ Ha Ha2) in Hg2. auto. }
  split.
  - intros γ i j a H1 H2. destruct (Hpair _ _ _ H1) as (_ & _ & _ & _ & _ & _ & Hx & _). auto.
  - intros γ i a H1. destruct (Hpair _ _ _ H1) as (_ & _ & _ & _ & _ & _ & _ & Hx). auto.
Qed.

Theorem repaired_accepted_iff (g : grammar T L) : eps_trailing g ->
  (forall r, nth_error g 0 = Some r -> ~ uses r (symbol r)) ->
  exists N, forall fuel, N < fuel -> ((exists p, parser_new_repaired fuel g = Ok p) <-> valid_grammar g /\ conflict_free g).
Proof.
  intros Heps Hroot. destruct (repaired_total g) as (N & HN). exists (N + length g). intros fuel Hf. split.
  - intros (p & Hp). eapply repaired_conflict_free; eauto.
  - intros (Hv & Hc1 & Hc2). assert (Hl : length g < fuel) by lia. assert (HN' : N < fuel) by lia. specialize (HN _ HN').
    destruct (proj2 (proj1 (validation_exact fuel g Hl)) Hv) as (ig & Hig).
    unfold parser_new_repaired in *. rewrite Hig in *. simpl in *.
    destruct (table_build_repaired ig fuel) as [t|e|why|] eqn:Ht; simpl in *; try tauto; eauto.
    + exfalso. pose proof (repaired_genuine _ _ _ _ Heps Hig Ht) as Hx. destruct e; simpl in Hx; try tauto.
      * destruct Hx as (γ & i & _ & Hs & Hr). eapply Hc2; eauto.
      * destruct Hx as (γ & i1 & i2 & _ & _ & Hne & Hr1 & Hr2). apply Hne. eapply Hc1; eauto.
    + exfalso. destruct HN as (r & Hr & Hu). eapply Hroot; eauto.
Qed.

Theorem repaired_accepted_iff_lr1 (g : grammar T L) : eps_trailing g -> productive g ->
  (forall r, nth_error g 0 = Some r -> ~ uses r (symbol r)) ->
  exists N, forall fuel, N < fuel -> ((exists p, parser_new_repaired fuel g = Ok p) <-> valid_grammar g /\ lr1_grammar g).
Proof.
  intros Heps Hp Hroot. destruct (repaired_accepted_iff g Heps Hroot) as (N & HN). exists N. intros fuel Hf. rewrite (HN _ Hf).
  split; intros (Hv & Hc); split; auto;
    (apply conflict_free_iff; auto; [destruct Hv as (? & ? & _ & _ & Hl & _); auto|apply valid_rest; auto]).
Qed.

Theorem repaired_recognises fuel (g : grammar T L) p : no_eos g -> eps_trailing g -> parser_new_repaired fuel g = Ok p -> forall E w,
  exists n b, (forall fuel', @parse_stream bm T L _ E fuel' p w = if n <? fuel' then Ok b else Diverge) /\ (b = true <-> language g w).
Proof.
  intros He Ht Hp E w. apply repaired_built in Hp as (Hix & Hv & F & ks & acts & gts & HF & HFc & Hok).
  pose proof (no_eos_ig _ _ Hix He) as He'. pose proof (eps_trailing_ig _ _ Hix Ht) as Ht'.
  pose proof (ix_wf _ _ Hix) as Hwf.
  destruct (parse_stream_exact (E:=E) (pgrammar p) Hwf He' Ht' F HF _ _ _ _ Hok w) as (n & b & c & Hn & Hc & Hb1 & Hb2).
  rewrite <- parser_eta in Hn. exists n, b. split; auto. split.
  - intros Hb. specialize (Hb1 Hb). assert (Hs : snd c = []).
    { eapply (maccept_end (pgrammar p)); eauto. eapply (msteps_vstk (pgrammar p) Hwf _ _ _ _ _ Hok _ _); [|exact Hc]. apply vs_nil. }
    destruct c as [stk v]. simpl in Hs. subst v.
    pose proof (machine_sound (pgrammar p) Hwf Ht' F _ _ _ _ Hok _ _ Hc Hb1) as Hpar.
    destruct (parses_bwd _ _ Hix _ _ Hpar) as (w1 & t1 & P1 & W1 & _).
    pose proof (ids_inv _ Hwf _ _ W1) as Hid.
    destruct (ids_rel _ Hwf w) as [Hrel|(x & Hx & Hn')].
    + rewrite (toks_rel_fun_l _ _ _ _ W1 Hrel) in P1. exists t1. auto.
    + exfalso.
      assert (Hin : In (id_of (pgrammar p) x) (map (id_of (pgrammar p)) w)) by (apply in_map; auto).
      destruct (Forall2_in_r _ _ _ _ W1 Hin) as (y & _ & Hy). unfold tok_rel, id_of in Hy. rewrite Hn' in Hy.
      assert (length (id_map (ivocab (pgrammar p))) < length (id_map (ivocab (pgrammar p)))) by (apply nth_error_Some; congruence). lia.
  - intros (t & Ht1). destruct (parses_fwd _ _ Hix _ _ Ht1) as (w' & t' & P' & W' & _).
    rewrite <- (ids_inv _ Hwf _ _ W') in P'.
    destruct (machine_complete (pgrammar p) Hwf Ht' F _ _ _ _ Hok HFc _ _ P') as (stk & Hst & Ha & _).
    destruct b; auto. specialize (Hb2 eq_refl).
    assert (Hc' : c = (stk, [])) by (eapply (msteps_final_eq (pgrammar p)); eauto).
    subst c. unfold stuck, maccept in *. congruence.
Qed.

Theorem repaired_unambiguous fuel (g : grammar T L) p w t1 t2 : no_eos g -> eps_trailing g -> parser_new_repaired fuel g = Ok p ->
  parses g w t1 -> parses g w t2 -> t1 = t2.
Proof.
  intros He Ht Hp P1 P2. apply repaired_built in Hp as (Hix & Hv & F & ks & acts & gts & HF & HFc & Hok).
  destruct (parses_fwd _ _ Hix _ _ P1) as (w1 & u1 & Q1 & W1 & T1). destruct (parses_fwd _ _ Hix _ _ P2) as (w2 & u2 & Q2 & W2 & T2).
  rewrite (toks_rel_inj _ _ Hix _ _ _ W2 W1) in Q2.
  pose proof (eps_trailing_ig _ _ Hix Ht) as Ht'. pose proof (ix_wf _ _ Hix) as Hwf.
  rewrite (machine_unambiguous (pgrammar p) Hwf Ht' F _ _ _ _ Hok HFc _ _ _ Q2 Q1) in T2.
  eapply tree_rel_fun_l; eauto.
Qed.

(** Where the FIRST sets of the code as it is are complete, nothing changes. *)
Theorem repaired_same (g : grammar T L) : first_complete g ->
  exists N, forall fuel, N < fuel -> parser_new_repaired fuel g = parser_new fuel g.
Proof.
  intros Hfc. apply first_complete_closed in Hfc.
  pose proof (indexed_build_spec False (S (length g)) g (or_intror (Nat.lt_succ_diag_r _))) as Hi.
  destruct (indexed_build (S (length g)) g) as [ig|e|why|] eqn:Hig; simpl in Hi; try tauto.
  - destruct Hi as (Hix & Hv). pose proof (ix_wf _ _ Hix) as Hwf.
    set (N := labels_count ig * vocab_size (ivocab ig)). exists (length g + N). intros fuel Hf.
    assert (Hig' : indexed_build fuel g = Ok ig) by (apply (le_ok _ _ _ (indexed_build_le (T:=T) (L:=L) (S (length g)) fuel ltac:(lia) g) Hig)).
    unfold parser_new, parser_new_repaired. rewrite Hig'. simpl. f_equal. unfold table_build, table_build_repaired.
    assert (HN : N < fuel) by lia.
    pose proof (repaired_first_ok (E:=lr_error T L) ig Hwf False False fuel (fun _ => False) (or_intror HN)) as Hx.
    pose proof (first_build_ok (E:=lr_error T L) ig Hwf False False fuel (fun _ => False) (or_intror HN)) as Hy.
    destruct (first_build_repaired fuel ig) as [F| | |]; simpl in Hx; try tauto.
    destruct (first_build fuel ig) as [F'| | |] eqn:HF'; simpl in Hy; try tauto. simpl.
    assert (F = F') as ->; [|reflexivity]. apply (closed_unique ig); try tauto. apply (Hfc fuel ig F'); auto.
  - exists (length g). intros fuel Hf. unfold parser_new, parser_new_repaired.
    pose proof (indexed_build_le (T:=T) (L:=L) _ _ Hf g) as [Hx|Hx]; rewrite Hig in Hx; [discriminate|]. rewrite <- Hx. reflexivity.
Qed.

(** It changes the FIRST sets exactly where they are incomplete. *)
Theorem repaired_first_same fuel0 (g : grammar T L) ig : indexed_build fuel0 g = Ok ig ->
  exists N, forall fuel, N < fuel ->
    (first_build_repaired (E := lr_error T L) fuel ig = first_build fuel ig <-> first_complete g).
Proof.
  intros Hig. destruct (build_indexes _ _ _ Hig) as (Hix & _). pose proof (ix_wf _ _ Hix) as Hwf.
  exists (labels_count ig * vocab_size (ivocab ig)). intros fuel Hf.
  pose proof (repaired_first_ok (E:=lr_error T L) ig Hwf False False fuel (fun _ => False) (or_intror Hf)) as Hx.
  pose proof (first_build_ok (E:=lr_error T L) ig Hwf False False fuel (fun _ => False) (or_intror Hf)) as Hy.
  destruct (first_build_repaired fuel ig) as [F| | |]; simpl in Hx; try tauto.
  destruct (first_build fuel ig) as [F'| | |] eqn:HF'; simpl in Hy; try tauto. rewrite first_complete_closed. split.
  - intros Heq. injection Heq as <-. intros fuel1 ig1 F1 Hig1 HF1.
    assert (ig1 = ig) as -> by (eapply indexed_build_fun; eauto).
    assert (F1 = F) as ->; [|apply Hx].
    destruct (Nat.le_ge_cases fuel fuel1) as [Hle|Hle].
    + pose proof (le_ok _ _ _ (first_build_le (T:=T) (L:=L) _ _ Hle (lr_error T L) ig) HF'). congruence.
    + pose proof (le_ok _ _ _ (first_build_le (T:=T) (L:=L) _ _ Hle (lr_error T L) ig) HF1). congruence.
  - intros Hc. f_equal. apply (closed_unique ig); try tauto. assert (Hig' : exists f, indexed_build f g = Ok ig /\ fuel <= f).
    { exists (fuel0 + fuel). split; [|lia]. apply (le_ok _ _ _ (indexed_build_le (T:=T) (L:=L) fuel0 (fuel0 + fuel) ltac:(lia) g) Hig). }
    destruct Hig' as (f & Hig' & Hle). apply (Hc f ig F'); auto.
    apply (le_ok _ _ _ (first_build_le (T:=T) (L:=L) _ _ Hle (lr_error T L) ig) HF').
Qed.

(** Its errors are those of the validation, or real conflicts. *)
Theorem repaired_errors fuel (g : grammar T L) e : eps_trailing g -> parser_new_repaired fuel g = Err e ->
  indexed_build fuel g = Err e \/ exists ig, indexed_build fuel g = Ok ig /\ genuine ig (may_reduce g) (may_shift g) e.
Proof.
  intros Heps He. unfold parser_new_repaired in He. destruct (indexed_build fuel g) as [ig|e'| |] eqn:Hig; simpl in He; try discriminate.
  - right. exists ig. split; auto. destruct (table_build_repaired ig fuel) as [t|e'| |] eqn:Ht; simpl in He; try discriminate.
    injection He as <-. eapply repaired_genuine; eauto.
  - left. congruence.
Qed.

(** What it accepts, the code as it is accepts. *)
Theorem repaired_accepts_fewer fuel (g : grammar T L) p : eps_trailing g ->
  (forall r, nth_error g 0 = Some r -> ~ uses r (symbol r)) -> parser_new_repaired fuel g = Ok p ->
  exists N, forall fuel, N < fuel -> exists p', parser_new fuel g = Ok p'.
Proof.
  intros Heps Hroot Hp. destruct (repaired_conflict_free _ _ _ Heps Hp) as (Hv & Hc). apply conflict_free_builds; auto.
Qed.

End Parser.
