(** What one pass of [propagate_map] adds at least, and tables of grammars whose
    vanishing labels are early. *)
From Coq Require Import Arith Bool String NArith List Lia.
From Verif Require Import Base.Prelude Spec.Grammar Model.Error.
From Verif Require Import Model.BitSet Model.Vocabulary Model.IndexedGrammar Model.FirstMap.
From Verif Require Import Proofs.WP Proofs.BitSetProofs Proofs.FixedMapProofs Proofs.VocabProofs.
From Verif Require Import Proofs.IndexedProofs Proofs.IndexedBuild Proofs.IndexedMain Proofs.FirstProofs.
Import ListNotations.

Section Early.
Context {bm : BuildMode} {E T L : Type} `{EqDec T}.
Variable g : indexed_grammar T L.
Hypothesis Hwf : wf_ig g.
Local Notation n := (labels_count g).
Local Notation m := (vocab_size (ivocab g)).

Lemma fnull_mono F F' ns : leF F F' -> fnull F ns = true -> fnull F' ns = true.
Proof.
  intros Hle. induction ns as [|[[t| |]|l] ns IH]; simpl; auto. rewrite !andb_true_iff. intros (H1 & H2). auto.
Qed.

Lemma ffirst_mono F F' ns a : leF F F' -> ffirst F ns a = true -> ffirst F' ns a = true.
Proof.
  intros Hle. induction ns as [|[[t| |]|l] ns IH]; simpl; auto. rewrite !orb_true_iff, !andb_true_iff. intros [H1|(H1 & H2)]; auto.
Qed.

Lemma nodes_more r ns : In r (rules g) -> (forall nd, In nd ns -> In nd (irhs r)) -> forall F ch F' ch' p, wfF n m F ->
  @propagate_nodes bm E (isymbol r) ns F ch = Ok (F', ch', p) ->
  wfF n m F' /\ leF F F' /\ (fnull F ns = true -> p = true) /\ (forall a, a <> Epsilon -> ffirst F ns a = true -> fmem F' (isymbol r) a = true).
Proof.
  intros Hin. pose proof (wf_sym _ Hwf _ Hin) as Hs. pose proof (m_pos g) as Hm.
  assert (Heps : label_id (@Epsilon nat) < m) by (unfold label_id; simpl; lia).
  induction ns as [|nd ns IH]; intros Hns F ch F' ch' p Hw Hp.
  - simpl in Hp. injection Hp as <- <- <-. split; [auto|]. split; [apply leF_refl|]. split; auto. discriminate.
  - assert (Hndin : In nd (irhs r)) by (apply Hns; simpl; auto).
    assert (Hns' : forall nd, In nd ns -> In nd (irhs r)) by (intros; apply Hns; simpl; auto).
    assert (Htok : forall t, nd = Terminal t -> t <> Epsilon ->
      (fs <- index F (isymbol r) ;; has <- vs_has fs t ;;
          (if negb has then fs' <- vs_set fs t ;; map' <- store F (isymbol r) fs' ;; Ok (map', true, false)
           else Ok (F, ch, false))) = @Ok E _ (F', ch', p) -> wfF n m F' /\ leF F F' /\ fmem F' (isymbol r) t = true).
    { intros t -> Ht Hx. pose proof (wf_term _ Hwf _ _ Hin Hndin) as Hlt.
      destruct (wfF_get g F _ Hw Hs) as (s & Hs1 & Hs2).
      rewrite (index_ok _ _ _ Hs1) in Hx. simpl in Hx. rewrite (vs_has_ok m) in Hx by auto. simpl in Hx.
      destruct (vmem s t) eqn:Hv; simpl in Hx.
      - injection Hx as <- <- <-. split; [auto|]. split; [apply leF_refl|]. unfold fmem. rewrite Hs1. auto.
      - destruct (@vs_set_ok bm E m s t Hs2 Hlt) as (s' & Heq & Hs' & Hmem). rewrite Heq in Hx. simpl in Hx.
        rewrite store_ok in Hx by (apply nth_error_Some; congruence). simpl in Hx. injection Hx as <- <- <-. split; [apply wfF_list_set; auto|]. split.
        + intros l a Ha. rewrite (fmem_list_set _ _ _ _ _ _ Hs1). destruct (Nat.eqb_spec (isymbol r) l) as [<-|]; auto.
          apply Hmem. right. unfold fmem in Ha. rewrite Hs1 in Ha. auto.
        + rewrite (fmem_list_set _ _ _ _ _ _ Hs1), Nat.eqb_refl. apply Hmem. auto. }
    destruct nd as [[t| |]|l].
    + destruct (Htok _ eq_refl) as (H0 & H1 & H2); [discriminate|exact Hp|]. split; [auto|]. split; [auto|]. split; [discriminate|].
      intros a Ha Hx. simpl in Hx. apply eqb_eq in Hx. congruence.
    + simpl in Hp. destruct (IH Hns' _ _ _ _ _ Hw Hp) as (H0 & H1 & H2 & H3). auto.
    + destruct (Htok _ eq_refl) as (H0 & H1 & H2); [discriminate|exact Hp|]. split; [auto|]. split; [auto|]. split; [discriminate|].
      intros a Ha Hx. simpl in Hx. apply eqb_eq in Hx. congruence.
    + pose proof (wf_prod _ Hwf _ _ Hin Hndin) as Hl.
      destruct (wfF_get g F l Hw Hl) as (sl & Hsl1 & Hsl2). destruct (wfF_get g F _ Hw Hs) as (s & Hs1 & Hs2).
      simpl in Hp. rewrite (index_ok _ _ _ Hsl1) in Hp. simpl in Hp. rewrite (vs_has_ok m) in Hp by auto. simpl in Hp.
      destruct (@vs_clear_ok bm E m sl Epsilon Hsl2 Heps) as (sc & Heq & Hsc & Hmc). rewrite Heq in Hp. simpl in Hp.
      rewrite (index_ok _ _ _ Hs1) in Hp. simpl in Hp.
      destruct (vs_merge_spec m s sc Hs2 Hsc) as (M1 & M2 & M3).
      destruct (vs_merge s sc) as [s' md] eqn:Hmg. simpl in M1, M2, M3.
      rewrite store_ok in Hp by (apply nth_error_Some; congruence). simpl in Hp.
      set (F1 := list_set F (isymbol r) s') in *.
      assert (Hle : leF F F1).
      { intros k a Ha. unfold F1. rewrite (fmem_list_set _ _ _ _ _ _ Hs1). destruct (Nat.eqb_spec (isymbol r) k) as [<-|]; auto.
        apply M2. left. unfold fmem in Ha. rewrite Hs1 in Ha. auto. }
      assert (HslF : forall a, vmem sl a = fmem F l a) by (intros; unfold fmem; rewrite Hsl1; auto).
      assert (Hw1 : wfF n m F1) by (apply wfF_list_set; auto).
      assert (Hnew : forall a, a <> Epsilon -> fmem F l a = true -> fmem F1 (isymbol r) a = true).
      { intros a Ha Hx. unfold F1. rewrite (fmem_list_set _ _ _ _ _ _ Hs1), Nat.eqb_refl. apply M2. right. apply Hmc. split; auto.
        rewrite HslF. auto. }
      destruct (vmem sl Epsilon) eqn:Hse; simpl in Hp.
      * destruct (IH Hns' _ _ _ _ _ Hw1 Hp) as (H0 & H1 & H2 & H3). split; [auto|]. split; [eapply leF_trans; eauto|]. simpl.
        rewrite <- HslF, Hse. simpl. split; [intros Hx; apply H2; eapply fnull_mono; eauto|].
        intros a Ha Hx. apply orb_true_iff in Hx as [Hx|Hx]; [apply H1; auto|]. apply H3; auto. eapply ffirst_mono; eauto.
      * injection Hp as <- <- <-. split; [auto|]. split; [auto|]. simpl. rewrite <- HslF, Hse. simpl. split; [discriminate|].
        intros a Ha Hx. rewrite orb_false_r in Hx. auto.
Qed.

Lemma rule_more r F ch F' ch' : In r (rules g) -> wfF n m F ->
  @propagate_rule bm E (isymbol r) (F, ch) r = Ok (F', ch') ->
  (fnull F (irhs r) = true -> fmem F' (isymbol r) Epsilon = true) /\
  (forall a, a <> Epsilon -> ffirst F (irhs r) a = true -> fmem F' (isymbol r) a = true).
Proof.
  intros Hin Hw Hp. pose proof (wf_sym _ Hwf _ Hin) as Hs. pose proof (m_pos g) as Hm.
  assert (Heps : label_id (@Epsilon nat) < m) by (unfold label_id; simpl; lia).
  unfold propagate_rule in Hp. simpl in Hp.
  destruct (@propagate_nodes bm E (isymbol r) (irhs r) F ch) as [[[F1 ch1] p]|e|w|] eqn:Hn; try discriminate.
  simpl in Hp. destruct (nodes_more r (irhs r) Hin (fun _ h => h) _ _ _ _ _ Hw Hn) as (H0 & H1 & H2 & H3).
  destruct p; simpl in Hp.
  - destruct (wfF_get g F1 _ H0 Hs) as (s & Hs1 & Hs2). rewrite (index_ok _ _ _ Hs1) in Hp. simpl in Hp.
    destruct (@vs_set_ok bm E m s Epsilon Hs2 Heps) as (s' & Heq & Hs' & Hv). rewrite Heq in Hp. simpl in Hp.
    rewrite store_ok in Hp by (apply nth_error_Some; congruence). simpl in Hp. injection Hp as <- <-.
    split.
    + intros _. rewrite (fmem_list_set _ _ _ _ _ _ Hs1), Nat.eqb_refl. apply Hv. auto.
    + intros a Ha Hx. rewrite (fmem_list_set _ _ _ _ _ _ Hs1), Nat.eqb_refl. apply Hv. right.
      specialize (H3 a Ha Hx). unfold fmem in H3. rewrite Hs1 in H3. auto.
  - injection Hp as <- <-. split; auto. intros Hx. specialize (H2 Hx). discriminate.
Qed.

(** Labels that get epsilon in the first pass: those with a rule of epsilon nodes and
    of such labels with smaller numbers. *)
Inductive iearly : nat -> Prop :=
| iearly_rule r : In r (rules g) -> (forall nd, In nd (irhs r) -> iearly_node (isymbol r) nd) -> iearly (isymbol r)
with iearly_node : nat -> inode -> Prop :=
| iearly_eps l : iearly_node l (Terminal Epsilon)
| iearly_label l l' : l' < l -> iearly l' -> iearly_node l (Production l').

Definition known (F : first_table) (k : nat) : Prop := forall l, l < k -> iearly l -> fmem F l Epsilon = true.

Lemma early_fnull F k ns : known F k -> (forall nd, In nd ns -> iearly_node k nd) -> fnull F ns = true.
Proof.
  intros Hk. induction ns as [|nd ns IH]; intros Hns; [reflexivity|].
  assert (IH' : fnull F ns = true) by (apply IH; intros; apply Hns; simpl; auto).
  destruct (Hns nd (or_introl eq_refl)) as [l|l l' Hl He]; simpl; auto. rewrite (Hk l' Hl He). auto.
Qed.

Lemma early_ffirst F k pre t post : known F k -> (forall nd, In nd pre -> iearly_node k nd) -> t <> Epsilon ->
  ffirst F (pre ++ Terminal t :: post) t = true.
Proof.
  intros Hk Hpre Ht. induction pre as [|nd pre IH]; simpl.
  - destruct t; try congruence; apply eqb_refl.
  - assert (IH' : ffirst F (pre ++ Terminal t :: post) t = true) by (apply IH; intros; apply Hpre; simpl; auto).
    destruct (Hpre nd (or_introl eq_refl)) as [l|l l' Hl He]; simpl; auto. rewrite (Hk l' Hl He), IH'. apply orb_true_r.
Qed.

Lemma rules_more l rs F ch F' ch' : (forall r, In r rs -> In r (rules g) /\ isymbol r = l) -> FInv g F ->
  foldM (@propagate_rule bm E l) (F, ch) rs = Ok (F', ch') ->
  forall r, In r rs -> (fnull F (irhs r) = true -> fmem F' l Epsilon = true) /\
    (forall a, a <> Epsilon -> ffirst F (irhs r) a = true -> fmem F' l a = true).
Proof.
  revert F ch. induction rs as [|r0 rs IH]; intros F ch Hrs HF Hf r Hr; [destruct Hr|].
  destruct (Hrs r0 (or_introl eq_refl)) as (Hin0 & Hs0). rewrite foldM_cons in Hf. subst l.
  pose proof Hin0 as Hj. apply In_nth_error in Hj as (j & Hj).
  destruct (propagate_rule_ok (E := E) g Hwf j r0 F ch Hj HF) as (F1 & ch1 & Heq & R1). rewrite Heq in Hf. simpl in Hf.
  assert (Hrs' : forall r, In r rs -> In r (rules g) /\ isymbol r = isymbol r0) by (intros; apply Hrs; simpl; auto).
  destruct (propagate_rules_ok (E := E) g Hwf (isymbol r0) rs F1 ch1 Hrs') as (F2 & ch2 & Heq2 & R2); [apply R1|].
  rewrite Heq2 in Hf. injection Hf as <- <-.
  destruct Hr as [<-|Hr].
  - destruct (rule_more r0 F ch F1 ch1 Hin0 (proj1 HF) Heq) as (H1 & H2). destruct R2 as (_ & Hle & _). split; [intros; apply Hle; auto|].
    intros a Ha Hx. apply Hle. auto.
  - destruct (IH F1 ch1 Hrs' (proj1 R1) Heq2 r Hr) as (H1 & H2). destruct R1 as (_ & Hle & _).
    split; [intros Hx; apply H1; eapply fnull_mono; eauto|]. intros a Ha Hx. apply H2; auto. eapply ffirst_mono; eauto.
Qed.

Lemma pass_early k : forall a F ch F' ch', a + k <= n -> FInv g F -> known F a ->
  foldM (fun st label => rs <- production_rules_for_label g label ;; foldM (@propagate_rule bm E label) st rs)
      (F, ch) (seq a k) = Ok (F', ch') ->
  known F' (a + k) /\
  forall r pre t post, In r (rules g) -> a <= isymbol r < a + k -> irhs r = pre ++ Terminal t :: post -> t <> Epsilon ->
    (forall nd, In nd pre -> iearly_node (isymbol r) nd) -> fmem F' (isymbol r) t = true.
Proof.
  induction k as [|k IH]; intros a F ch F' ch' Hb HF Hk Hf.
  - simpl in Hf. injection Hf as <- <-. rewrite Nat.add_0_r. split; auto. intros. lia.
  - simpl in Hf. destruct (@production_rules_ok E T L _ g Hwf a) as (ids & rs & _ & Hrs & _ & _ & _ & Hin & Hall); [lia|].
    rewrite Hrs in Hf. simpl in Hf.
    destruct (propagate_rules_ok (E := E) g Hwf a rs F ch Hin HF) as (F1 & ch1 & Heq & R1). rewrite Heq in Hf. simpl in Hf.
    pose proof R1 as (HF1 & Hle1 & _).
    pose proof (rules_more a rs F ch F1 ch1 Hin HF Heq) as Hmore.
    assert (Hk1 : known F1 (S a)).
    { intros l Hl He. destruct (Nat.eq_dec l a) as [->|Hne]; [|apply Hle1, Hk; auto; lia].
      inversion He as [r Hr Hnd Hs]. subst. apply In_nth_error in Hr as (i & Hi).
      apply (proj1 (Hmore r (Hall _ _ Hi eq_refl))). apply (early_fnull F (isymbol r)); auto. }
    destruct (IH (S a) F1 ch1 F' ch') as (H1 & H2); auto; [lia|]. replace (S a + k) with (a + S k) in * by lia. split; [auto|].
    destruct (propagate_labels_ok (E := E) g Hwf (seq (S a) k) F1 ch1) as (F2 & ch2 & Heq2 & rs2 & R2 & _); auto.
    { intros l Hl. apply in_seq in Hl. lia. }
    rewrite Heq2 in Hf. injection Hf as <- <-. destruct R2 as (_ & Hle2 & _).
    intros r pre t post Hr Hs He Ht Hpre. destruct (Nat.eq_dec (isymbol r) a) as [Ha|Hne]; [|eapply H2; eauto; lia].
    apply Hle2. rewrite Ha. apply In_nth_error in Hr as (i & Hi). apply (proj2 (Hmore r (Hall _ _ Hi Ha))); auto.
    rewrite He. eapply early_ffirst; eauto. intros nd Hnd. rewrite <- Ha. auto.
Qed.

Definition eps_early : Prop :=
  (forall l, inullable g l -> iused g l -> iearly l) /\
  ((exists l, inullable g l /\ iused g l) -> exists r pre t post, In r (rules g) /\ irhs r = pre ++ Terminal t :: post /\ t <> Epsilon /\
     forall nd, In nd pre -> iearly_node (isymbol r) nd).

Lemma iearly_bound l : iearly l -> l < n.
Proof. inversion 1. apply (wf_sym _ Hwf). auto. Qed.

Theorem first_build_early Pn Dv fuel R : (Dv \/ n * m < fuel) ->
  wp Pn Dv (@first_build bm E T L fuel g) (fun F => FInv g F /\ (eps_early -> Fclosed g F)) R.
Proof.
  intros Hf. unfold first_build. pose proof (FInv_init g) as Hinit.
  set (F0 := repeat (vs_new (ivocab g)) n) in *.
  apply (wp_while (fun F => FInv g F /\ (eps_early -> F = F0 \/ forall l, inullable g l -> iused g l -> fmem F l Epsilon = true)) (tmiss m)).
  - destruct Hf; auto. right. pose proof (tmiss_bound m F0) as Hb. unfold F0 in Hb at 2. rewrite repeat_length in Hb. lia.
  - split; auto.
  - intros F (Hinv & Hdir). destruct (propagate_map_ok (E := E) g Hwf F Hinv) as (F' & ch' & Heq & rs & R1 & Hall & Hsub).
    assert (Hpass : known F' n /\ forall r pre t post, In r (rules g) -> irhs r = pre ++ Terminal t :: post -> t <> Epsilon ->
      (forall nd, In nd pre -> iearly_node (isymbol r) nd) -> fmem F' (isymbol r) t = true).
    { destruct (pass_early n 0 F false F' ch') as (H1 & H2); auto; [intros l Hl; lia|]. split; [exact H1|].
      intros r pre t post Hr. pose proof (wf_sym _ Hwf _ Hr). apply H2; auto. lia. }
    rewrite Heq. simpl. destruct Hpass as (Hkn & Htok). destruct ch'; simpl.
    + split; [split; [apply R1|]|right; eapply round_measure; eauto].
      intros (Hd & _). right. intros l Hl Hu. apply Hkn; auto. apply iearly_bound. auto.
    + split; [apply R1|]. intros Hd. pose proof R1 as (A1 & A2 & A3 & A4 & A5 & A6 & A7 & A8).
      assert (Hcase : forall l, inullable g l -> iused g l -> fmem F l Epsilon = true).
      { destruct (Hdir Hd) as [->|]; auto. intros l Hl Hu. exfalso.
        destruct Hd as (_ & Hd). destruct Hd as (r & pre & t & post & Hr & Hrhs & Ht & Hpre); [eauto|].
        pose proof (Htok r pre t post Hr Hrhs Ht Hpre) as Hx. rewrite A6 in Hx by auto. unfold F0 in Hx. rewrite fmem_init in Hx. discriminate. }
      intros r Hr. apply A5; auto. intros r' l Hr' Hl Hx. apply Hcase; [|exists r'; split; auto].
      apply (proj1 (JN_derives g F')). apply (proj1 (proj2 A1)). auto.
Qed.
End Early.
