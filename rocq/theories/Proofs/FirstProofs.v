(** The computed FIRST table: soundness with justifications, termination, and
    when it is closed under the FIRST equations. *)
From Coq Require Import Arith Bool String NArith List Lia.
From Verif Require Import Base.Prelude Spec.Grammar Model.Error.
From Verif Require Import Model.BitSet Model.Vocabulary Model.IndexedGrammar Model.FirstMap.
From Verif Require Import Proofs.WP Proofs.BitSetProofs Proofs.FixedMapProofs Proofs.VocabProofs.
From Verif Require Import Proofs.IndexedProofs Proofs.IndexedBuild Proofs.IndexedMain.
Import ListNotations.

Definition fmem (F : first_table) (l : nat) (a : aug nat) : bool :=
  match nth_error F l with Some s => vmem s a | None => false end.

Lemma nth_error_ext {A} (l l' : list A) : (forall i, nth_error l i = nth_error l' i) -> l = l'.
Proof.
  revert l'. induction l as [|a l IH]; intros [|b l'] Hn; auto.
  - specialize (Hn 0). discriminate.
  - specialize (Hn 0). discriminate.
  - f_equal; [specialize (Hn 0); simpl in Hn; congruence|]. apply IH. intros i. apply (Hn (S i)).
Qed.

(** Nullability / first tokens of a node list according to a table. *)
Fixpoint fnull (F : first_table) (ns : list inode) : bool :=
  match ns with
  | [] => true
  | Terminal Epsilon :: ns' => fnull F ns'
  | Terminal _ :: _ => false
  | Production l :: ns' => fmem F l Epsilon && fnull F ns'
  end.

Fixpoint ffirst (F : first_table) (ns : list inode) (a : aug nat) : bool :=
  match ns with
  | [] => false
  | Terminal Epsilon :: ns' => ffirst F ns' a
  | Terminal b :: _ => eqb a b
  | Production l :: ns' => fmem F l a || (fmem F l Epsilon && ffirst F ns' a)
  end.

Definition wfF (n m : nat) (F : first_table) : Prop := length F = n /\ Forall (wf_bs m) F.

Definition leF (F F' : first_table) : Prop := forall l a, fmem F l a = true -> fmem F' l a = true.

Lemma leF_refl F : leF F F. Proof. intros l a; auto. Qed.
Lemma leF_trans F1 F2 F3 : leF F1 F2 -> leF F2 F3 -> leF F1 F3.
Proof. intros H1 H2 l a H. auto. Qed.

Lemma leF_antisym n m F F' : wfF n m F -> wfF n m F' -> leF F F' -> leF F' F -> F = F'.
Proof.
  intros (L1 & W1) (L2 & W2) H1 H2. apply nth_error_ext. intros l.
  destruct (nth_error F l) as [s|] eqn:Hs, (nth_error F' l) as [s'|] eqn:Hs'; auto.
  - f_equal. apply nth_error_In in Hs as Hi, Hs' as Hi'. rewrite Forall_forall in W1, W2.
    apply (vmem_ext m); auto. intros a. specialize (H1 l a). specialize (H2 l a).
    unfold fmem in H1, H2. rewrite Hs, Hs' in H1, H2. tauto.
  - apply nth_error_None in Hs'. assert (l < length F) by (apply nth_error_Some; congruence). lia.
  - apply nth_error_None in Hs. assert (l < length F') by (apply nth_error_Some; congruence). lia.
Qed.

(** Measure. *)
Definition tmiss (m : nat) (F : first_table) : nat := list_sum (map (missing m) F).

Lemma mem_of_vmem (s s' : bitset) : (forall a, vmem s a = true -> vmem s' a = true) ->
  forall c, mem s c = true -> mem s' c = true.
Proof.
  intros H c Hc. specialize (H (aug_from_id c)). unfold vmem in H. rewrite label_aug_from_id in H. auto.
Qed.

Lemma tmiss_mono m F F' : length F = length F' -> leF F F' -> tmiss m F' <= tmiss m F.
Proof.
  revert F'. induction F as [|s F IH]; intros [|s' F'] Hl Hle; try discriminate; unfold tmiss; simpl; auto.
  assert (missing m s' <= missing m s).
  { apply missing_mono, mem_of_vmem. intros a. apply (Hle 0 a). }
  assert (tmiss m F' <= tmiss m F) by (apply IH; [simpl in Hl; lia|intros l a; apply (Hle (S l) a)]).
  unfold tmiss in *. lia.
Qed.

Lemma tmiss_strict m F F' : length F = length F' -> leF F F' ->
  (exists l a, label_id a < m /\ fmem F l a = false /\ fmem F' l a = true) -> tmiss m F' < tmiss m F.
Proof.
  revert F'. induction F as [|s F IH]; intros [|s' F'] Hl Hle (l & a & Ha & H1 & H2); try discriminate.
  { unfold fmem in H2. destruct l; discriminate. }
  assert (Hle' : leF F F') by (intros k b; apply (Hle (S k) b)).
  assert (Hm : missing m s' <= missing m s).
  { apply missing_mono, mem_of_vmem. intros b. apply (Hle 0 b). }
  assert (Hlen : length F = length F') by (simpl in Hl; lia).
  pose proof (tmiss_mono m F F' Hlen Hle') as Ht. unfold tmiss in *. simpl.
  destruct l as [|l].
  - assert (missing m s' < missing m s); [|lia].
    apply missing_strict; [apply mem_of_vmem; intros b; apply (Hle 0 b)|].
    exists (label_id a). unfold fmem in *. simpl in *. auto.
  - assert (list_sum (map (missing m) F') < list_sum (map (missing m) F)); [|lia].
    apply IH; auto. exists l, a. auto.
Qed.

Lemma tmiss_bound m F : tmiss m F <= length F * m.
Proof.
  unfold tmiss. induction F as [|s F IH]; simpl; auto. pose proof (missing_bound m s). lia.
Qed.

Section First.
Context {bm : BuildMode} {E T L : Type} `{EqDec T}.
Variable g : indexed_grammar T L.
Hypothesis Hwf : wf_ig g.
Local Notation n := (labels_count g).
Local Notation m := (vocab_size (ivocab g)).

(** Justified facts: derivations all of whose intermediate facts are in [F]. *)
Inductive JN (F : first_table) : nat -> Prop :=
| JN_intro j r : nth_error (rules g) j = Some r -> fmem F (isymbol r) Epsilon = true ->
    JNs F (irhs r) -> JN F (isymbol r)
with JNs (F : first_table) : list inode -> Prop :=
| JNs_nil : JNs F []
| JNs_eps ns : JNs F ns -> JNs F (Terminal Epsilon :: ns)
| JNs_prod l ns : JN F l -> JNs F ns -> JNs F (Production l :: ns).

Scheme JN_ind2 := Induction for JN Sort Prop
with JNs_ind2 := Induction for JNs Sort Prop.
Combined Scheme JN_mutind from JN_ind2, JNs_ind2.

Inductive JF (F : first_table) : nat -> aug nat -> Prop :=
| JF_intro j r a : nth_error (rules g) j = Some r -> fmem F (isymbol r) a = true ->
    JFs F (irhs r) a -> JF F (isymbol r) a
with JFs (F : first_table) : list inode -> aug nat -> Prop :=
| JFs_tok a ns : a <> Epsilon -> JFs F (Terminal a :: ns) a
| JFs_eps ns a : JFs F ns a -> JFs F (Terminal Epsilon :: ns) a
| JFs_null l ns a : JN F l -> JFs F ns a -> JFs F (Production l :: ns) a
| JFs_here l ns a : JF F l a -> JFs F (Production l :: ns) a.

Scheme JF_ind2 := Induction for JF Sort Prop
with JFs_ind2 := Induction for JFs Sort Prop.
Combined Scheme JF_mutind from JF_ind2, JFs_ind2.

Lemma JN_mono F F' : leF F F' -> (forall l, JN F l -> JN F' l) /\ (forall ns, JNs F ns -> JNs F' ns).
Proof.
  intros Hle. apply JN_mutind; intros; try (econstructor; eauto; fail).
Qed.

Lemma JF_mono F F' : leF F F' -> (forall l a, JF F l a -> JF F' l a) /\ (forall ns a, JFs F ns a -> JFs F' ns a).
Proof.
  intros Hle. destruct (JN_mono _ _ Hle) as (HN & _).
  apply (JF_mutind F (fun l a _ => JF F' l a) (fun ns a _ => JFs F' ns a)); intros.
  - econstructor; eauto.
  - apply JFs_tok; auto.
  - apply JFs_eps; auto.
  - apply JFs_null; auto.
  - apply JFs_here; auto.
Qed.

Definition FInv (F : first_table) : Prop :=
  wfF n m F /\ (forall l, fmem F l Epsilon = true -> JN F l) /\
  (forall l a, a <> Epsilon -> fmem F l a = true -> JF F l a).

Lemma JN_in F l : JN F l -> fmem F l Epsilon = true.
Proof. inversion 1; auto. Qed.
Lemma JF_in F l a : JF F l a -> fmem F l a = true.
Proof. inversion 1; auto. Qed.

Lemma JF_neps F : (forall l a, JF F l a -> a <> Epsilon) /\ (forall ns a, JFs F ns a -> a <> Epsilon).
Proof. apply JF_mutind; auto. Qed.

Lemma fnull_JNs F ns : FInv F -> (fnull F ns = true <-> JNs F ns).
Proof.
  intros (_ & HN & _). induction ns as [|[[t| |]|l] ns IH]; simpl.
  - split; auto. constructor.
  - split; [discriminate|]. inversion 1.
  - rewrite IH. split; [constructor; auto|]. inversion 1; auto.
  - split; [discriminate|]. inversion 1.
  - rewrite andb_true_iff, IH. split.
    + intros [H1 H2]. constructor; auto.
    + inversion 1; subst. split; auto. apply JN_in; auto.
Qed.

Lemma ffirst_JFs F ns a : FInv F -> a <> Epsilon -> (ffirst F ns a = true <-> JFs F ns a).
Proof.
  intros (_ & HN & HF) Ha. induction ns as [|[[t| |]|l] ns IH]; simpl.
  - split; [discriminate|inversion 1].
  - split; [intros Hx; apply eqb_eq in Hx; subst; constructor; auto|]. inversion 1; subst. apply eqb_refl.
  - rewrite IH. split; [constructor; auto|]. inversion 1; subst; tauto.
  - split; [intros Hx; apply eqb_eq in Hx; subst; constructor; auto|]. inversion 1; subst. apply eqb_refl.
  - rewrite orb_true_iff, andb_true_iff, IH. split.
    + intros [H1|[H1 H2]]; [apply JFs_here; auto|apply JFs_null; auto].
    + inversion 1; subst; [right; split; auto; apply JN_in; auto|left; apply JF_in; auto].
Qed.

(** Updating one set. *)
Lemma fmem_list_set F l s s' k a : nth_error F l = Some s ->
  fmem (list_set F l s') k a = if l =? k then vmem s' a else fmem F k a.
Proof.
  intros Hs. unfold fmem. destruct (Nat.eqb_spec l k) as [<-|Hne].
  - rewrite nth_error_list_set_eq; auto. apply nth_error_Some. congruence.
  - rewrite nth_error_list_set_neq; auto.
Qed.

Lemma list_set_same {A} (l : list A) i a : nth_error l i = Some a -> list_set l i a = l.
Proof. revert i. induction l; intros [|i] Hi; simpl in *; try discriminate; f_equal; auto. congruence. Qed.

Lemma wfF_list_set F l s : wfF n m F -> wf_bs m s -> wfF n m (list_set F l s).
Proof.
  intros (H1 & H2) Hs. split; [rewrite list_set_length; auto|].
  rewrite Forall_forall in *. intros x Hx. apply In_nth_error in Hx as (k & Hk).
  destruct (Nat.eq_dec l k) as [<-|Hne].
  - assert (l < length F). { rewrite <- (list_set_length F l s). apply nth_error_Some. congruence. }
    rewrite nth_error_list_set_eq in Hk by auto. congruence.
  - rewrite nth_error_list_set_neq in Hk by auto. apply H2. eapply nth_error_In; eauto.
Qed.

Lemma wfF_get F l : wfF n m F -> l < n -> exists s, nth_error F l = Some s /\ wf_bs m s.
Proof.
  intros (H1 & H2) Hl. rewrite <- H1 in Hl. apply nth_error_Some in Hl.
  destruct (nth_error F l) as [s|] eqn:Hs; [|congruence]. exists s. split; auto.
  rewrite Forall_forall in H2. apply H2. eapply nth_error_In; eauto.
Qed.

Lemma m_pos : 2 <= m. Proof. unfold vocab_size. lia. Qed.

Lemma fmem_bound F l a : wfF n m F -> fmem F l a = true -> label_id a < m /\ l < n.
Proof.
  intros (H1 & H2) Hm. unfold fmem in Hm. destruct (nth_error F l) as [s|] eqn:Hs; [|discriminate].
  split; [|rewrite <- H1; apply nth_error_Some; congruence].
  rewrite Forall_forall in H2. eapply vmem_bound; eauto. apply H2. eapply nth_error_In; eauto.
Qed.

(** Adding a justified fact keeps the invariant. *)
Lemma FInv_extend F F' : FInv F -> wfF n m F' -> leF F F' ->
  (forall l a, fmem F' l a = true -> fmem F l a = true \/
     exists j r, nth_error (rules g) j = Some r /\ isymbol r = l /\
       (a = Epsilon /\ JNs F (irhs r) \/ a <> Epsilon /\ JFs F (irhs r) a)) ->
  FInv F'.
Proof.
  intros (_ & HN & HF) Hw Hle Hnew. split; [auto|].
  destruct (JN_mono _ _ Hle) as (MN & MNs). destruct (JF_mono _ _ Hle) as (MF & MFs). split.
  - intros l Hl. destruct (Hnew _ _ Hl) as [Ho|(j & r & Hr & <- & [[_ Hj]|[Hne _]])]; auto.
    econstructor; eauto.
  - intros l a Ha Hl. destruct (Hnew _ _ Hl) as [Ho|(j & r & Hr & <- & [[-> _]|[_ Hj]])]; auto.
    econstructor; eauto.
Qed.

Definition grew (F F' : first_table) : Prop :=
  exists l a, label_id a < m /\ fmem F l a = false /\ fmem F' l a = true.

Lemma JNs_app F ns1 ns2 : JNs F ns1 -> JNs F ns2 -> JNs F (ns1 ++ ns2).
Proof. induction 1; simpl; auto; constructor; auto. Qed.

Lemma JFs_app F ns1 ns2 a : JNs F ns1 -> JFs F ns2 a -> JFs F (ns1 ++ ns2) a.
Proof. induction 1; simpl; auto; intros; [apply JFs_eps; auto|apply JFs_null; auto]. Qed.

Lemma propagate_nodes_ok j r ns pre F ch :
  nth_error (rules g) j = Some r -> irhs r = pre ++ ns ->
  FInv F -> JNs F pre ->
  exists F' ch' passed,
    @propagate_nodes bm E (isymbol r) ns F ch = Ok (F', ch', passed) /\
    FInv F' /\ leF F F' /\
    (passed = true -> JNs F' (irhs r)) /\
    (ch' = true -> ch = true \/ grew F F') /\
    (Forall (fun nd => nd = Terminal Epsilon) ns -> passed = true) /\
    (forall t, hd_error ns = Some (Terminal t) -> t <> Epsilon -> fmem F' (isymbol r) t = true) /\
    (ch' = false -> F' = F /\ ch = false /\ passed = fnull F ns /\
       forall a, a <> Epsilon -> ffirst F ns a = true -> fmem F (isymbol r) a = true).
Proof.
  intros Hr. pose proof (nth_error_In _ _ Hr) as Hin. pose proof (wf_sym _ Hwf _ Hin) as Hs. pose proof m_pos as Hm.
  assert (Heps : label_id (@Epsilon nat) < m) by (unfold label_id; simpl; lia).
  revert pre F ch. induction ns as [|nd ns IH]; intros pre F ch Hpre Hinv HJ; pose proof Hinv as (Hw & HN & HF).
  - exists F, ch, true. simpl. split; [reflexivity|]. split; [auto|]. split; [apply leF_refl|].
    split; [intros _; rewrite Hpre, app_nil_r; auto|]. split; [auto|]. split; [auto|]. split; [discriminate|].
    intros ->. repeat split; auto. discriminate.
  - assert (Hndin : In nd (irhs r)) by (rewrite Hpre; apply in_or_app; simpl; auto).
    assert (Hpre' : irhs r = (pre ++ [nd]) ++ ns) by (rewrite <- app_assoc; auto).
    assert (Htok : forall t, nd = Terminal t -> t <> Epsilon ->
       exists F' ch' passed,
         (fs <- index F (isymbol r) ;; has <- vs_has fs t ;;
          (if negb has then fs' <- vs_set fs t ;; map' <- store F (isymbol r) fs' ;; Ok (map', true, false)
           else Ok (F, ch, false))) = @Ok E _ (F', ch', passed) /\
         FInv F' /\ leF F F' /\ (passed = true -> JNs F' (irhs r)) /\
         (ch' = true -> ch = true \/ grew F F') /\ fmem F' (isymbol r) t = true /\
         (ch' = false -> F' = F /\ ch = false /\ passed = false /\ fmem F (isymbol r) t = true)).
    { intros t Hnd Ht. subst nd. pose proof (wf_term _ Hwf _ _ Hin Hndin) as Hlt.
      destruct (wfF_get F _ Hw Hs) as (s & Hs1 & Hs2).
      rewrite (index_ok _ _ _ Hs1). simpl. rewrite (vs_has_ok m) by auto. simpl.
      assert (Hfm : fmem F (isymbol r) t = vmem s t) by (unfold fmem; rewrite Hs1; auto).
      destruct (vmem s t) eqn:Hv; simpl.
      - exists F, ch, false. split; [reflexivity|]. split; [auto|]. split; [apply leF_refl|]. split; [discriminate|].
        split; [auto|]. split; [congruence|auto].
      - destruct (@vs_set_ok bm E m s t Hs2 Hlt) as (s' & -> & Hs' & Hmem). simpl.
        rewrite store_ok by (apply nth_error_Some; congruence). simpl.
        eexists _, true, false. split; [reflexivity|].
        assert (Hle : leF F (list_set F (isymbol r) s')).
        { intros l a Ha. rewrite (fmem_list_set _ _ _ _ _ _ Hs1). destruct (Nat.eqb_spec (isymbol r) l) as [<-|]; auto.
          apply Hmem. right. unfold fmem in Ha. rewrite Hs1 in Ha. auto. }
        split; [|split; [auto|]].
        + apply (FInv_extend F); auto; [apply wfF_list_set; auto|].
          intros l a. rewrite (fmem_list_set _ _ _ _ _ _ Hs1). destruct (Nat.eqb_spec (isymbol r) l) as [<-|]; auto.
          intros Ha. apply Hmem in Ha as [<-|Ha]; [|left; unfold fmem; rewrite Hs1; auto].
          right. exists j, r. split; [auto|]. split; [auto|]. right. split; auto. rewrite Hpre.
          apply JFs_app; auto. constructor; auto.
        + split; [discriminate|].
          assert (Hnew : fmem (list_set F (isymbol r) s') (isymbol r) t = true).
          { rewrite (fmem_list_set _ _ _ _ _ _ Hs1), Nat.eqb_refl. apply Hmem. auto. }
          split; [|split; [auto|discriminate]]. intros _. right. exists (isymbol r), t. split; [auto|].
          split; [congruence|auto]. }
    destruct nd as [[t| |]|l].
    + destruct (Htok _ eq_refl) as (F' & ch' & passed & Heq & I1 & I2 & I3 & I4 & Ia & I5); [discriminate|].
      exists F', ch', passed. simpl. split; [exact Heq|]. split; [auto|]. split; [auto|]. split; [auto|]. split; [auto|].
      split; [inversion 1; subst; discriminate|]. split; [intros t0 Ht0 _; injection Ht0 as <-; auto|].
      intros Hc. destruct (I5 Hc) as (J1 & J2 & J3 & J4). repeat split; auto.
      intros a Ha Hx. apply eqb_eq in Hx. congruence.
    + simpl. destruct (IH (pre ++ [Terminal Epsilon]) F ch Hpre' Hinv) as (F' & ch' & passed & Heq & I1 & I2 & I3 & I4 & Ia & Ib & I5).
      { apply JNs_app; auto. repeat constructor. }
      exists F', ch', passed. split; [exact Heq|]. split; [auto|]. split; [auto|]. split; [auto|]. split; [auto|].
      split; [inversion 1; subst; auto|]. split; [congruence|auto].
    + destruct (Htok _ eq_refl) as (F' & ch' & passed & Heq & I1 & I2 & I3 & I4 & Ia & I5); [discriminate|].
      exists F', ch', passed. simpl. split; [exact Heq|]. split; [auto|]. split; [auto|]. split; [auto|]. split; [auto|].
      split; [inversion 1; subst; discriminate|]. split; [intros t0 Ht0 _; injection Ht0 as <-; auto|].
      intros Hc. destruct (I5 Hc) as (J1 & J2 & J3 & J4). repeat split; auto.
      intros a Ha Hx. apply eqb_eq in Hx. congruence.
    + pose proof (wf_prod _ Hwf _ _ Hin Hndin) as Hl.
      destruct (wfF_get F l Hw Hl) as (sl & Hsl1 & Hsl2). destruct (wfF_get F _ Hw Hs) as (s & Hs1 & Hs2).
      simpl. rewrite (index_ok _ _ _ Hsl1). simpl. rewrite (vs_has_ok m) by auto. simpl.
      destruct (@vs_clear_ok bm E m sl Epsilon Hsl2 Heps) as (sc & -> & Hsc & Hmc). simpl.
      rewrite (index_ok _ _ _ Hs1). simpl.
      destruct (vs_merge_spec m s sc Hs2 Hsc) as (M1 & M2 & M3).
      destruct (vs_merge s sc) as [s' md] eqn:Hmg. simpl in M1, M2, M3.
      rewrite store_ok by (apply nth_error_Some; congruence). simpl.
      set (F1 := list_set F (isymbol r) s').
      assert (Hle : leF F F1).
      { intros k a Ha. unfold F1. rewrite (fmem_list_set _ _ _ _ _ _ Hs1). destruct (Nat.eqb_spec (isymbol r) k) as [<-|]; auto.
        apply M2. left. unfold fmem in Ha. rewrite Hs1 in Ha. auto. }
      assert (HslF : forall a, vmem sl a = fmem F l a) by (intros; unfold fmem; rewrite Hsl1; auto).
      assert (Hinv1 : FInv F1).
      { apply (FInv_extend F); auto; [apply wfF_list_set; auto|].
        intros k a. unfold F1. rewrite (fmem_list_set _ _ _ _ _ _ Hs1). destruct (Nat.eqb_spec (isymbol r) k) as [<-|]; auto.
        intros Ha. apply M2 in Ha as [Ha|Ha]; [left; unfold fmem; rewrite Hs1; auto|].
        apply Hmc in Ha as [Hne Ha]. right. exists j, r. split; [auto|]. split; [auto|]. right. split; [auto|]. rewrite Hpre.
        apply JFs_app; auto. apply JFs_here. apply HF; auto. rewrite <- HslF; auto. }
      assert (Hgr : md = true -> grew F F1).
      { intros Hmd. apply M3 in Hmd as (c & Hc1 & Hc2). exists (isymbol r), c. split; [apply (vmem_bound m sc c Hsc Hc1)|].
        split; [unfold fmem; rewrite Hs1; auto|]. unfold F1. rewrite (fmem_list_set _ _ _ _ _ _ Hs1), Nat.eqb_refl.
        apply (proj2 (M2 c)); auto. }
      assert (Hmdf : md = false -> F1 = F /\ forall a, a <> Epsilon -> fmem F l a = true -> fmem F (isymbol r) a = true).
      { intros Hmd. assert (Hsub : forall c, vmem sc c = true -> vmem s c = true).
        { intros c Hc. destruct (vmem s c) eqn:Hsc'; auto. assert (md = true) by (apply M3; eauto). congruence. }
        assert (s' = s) as Heqs.
        { apply (vmem_ext m); auto. intros a. rewrite M2. split; auto. intros [?|?]; auto. }
        split.
        - unfold F1. rewrite Heqs. apply list_set_same; auto.
        - intros a Ha Hf. unfold fmem. rewrite Hs1. apply Hsub. apply Hmc. split; auto. rewrite HslF. auto. }
      destruct (vmem sl Epsilon) eqn:Hse; simpl.
      * destruct (IH (pre ++ [Production l]) F1 (md || ch) Hpre' Hinv1) as (F' & ch' & passed & Heq & I1 & I2 & I3 & I4 & _ & _ & I5).
        { destruct (JN_mono _ _ Hle) as (MN & MNs). apply JNs_app; auto. constructor; [|constructor].
          apply MN. apply HN. rewrite <- HslF. auto. }
        exists F', ch', passed. split; [exact Heq|]. split; [auto|]. split; [eapply leF_trans; eauto|]. split; [auto|]. split.
        -- intros Hc. destruct (I4 Hc) as [Hx|(k & a & Ha & G1 & G2)].
           ++ apply orb_true_iff in Hx as [Hx|Hx]; auto. right. destruct (Hgr Hx) as (k & a & Ha & G1 & G2).
              exists k, a. auto.
           ++ right. exists k, a. split; [auto|]. split; [|auto]. destruct (fmem F k a) eqn:Hfa; auto.
              apply Hle in Hfa. congruence.
        -- split; [inversion 1; subst; discriminate|]. split; [discriminate|].
           intros Hc. destruct (I5 Hc) as (J1 & J2 & J3 & J4). apply orb_false_iff in J2 as (Jm & Jc).
           destruct (Hmdf Jm) as (K1 & K2). rewrite K1 in *. split; [auto|]. split; [auto|].
           rewrite <- HslF, Hse. split; [auto|].
           intros a Ha Hx. apply orb_true_iff in Hx as [Hx|Hx]; auto.
      * exists F1, (md || ch), false. split; [reflexivity|]. split; [auto|]. split; [auto|]. split; [discriminate|]. split.
        -- intros Hx. apply orb_true_iff in Hx as [Hx|Hx]; auto.
        -- split; [inversion 1; subst; discriminate|]. split; [discriminate|]. intros Hx. apply orb_false_iff in Hx as (Jm & Jc). destruct (Hmdf Jm) as (K1 & K2).
           rewrite <- HslF, Hse. repeat split; auto. intros a Ha Hx. simpl in Hx. rewrite orb_false_r in Hx. auto.
Qed.

(** A table closed under the equations of one rule / of all rules. *)
Definition closed_rule (F : first_table) (r : indexed_rule) : Prop :=
  (fnull F (irhs r) = true -> fmem F (isymbol r) Epsilon = true) /\
  (forall a, a <> Epsilon -> ffirst F (irhs r) a = true -> fmem F (isymbol r) a = true).
Definition Fclosed (F : first_table) : Prop := forall r, In r (rules g) -> closed_rule F r.

Definition empty_rule (r : indexed_rule) : Prop := Forall (fun nd => nd = Terminal Epsilon) (irhs r).

(** One round of work on some rules: what is known afterwards. *)
Definition round_spec (rs : list indexed_rule) (F : first_table) (ch : bool) (F' : first_table) (ch' : bool) : Prop :=
  FInv F' /\ leF F F' /\ (ch' = true -> ch = true \/ grew F F') /\
  (ch = true -> ch' = true) /\
  (ch' = false -> (forall r l, In r rs -> In (Production l) (irhs r) -> fmem F' l Epsilon = true -> fmem F l Epsilon = true) ->
     forall r, In r rs -> closed_rule F' r) /\
  (ch' = false -> forall l a, a <> Epsilon -> fmem F' l a = fmem F l a) /\
  (forall r, In r rs -> empty_rule r -> fmem F' (isymbol r) Epsilon = true) /\
  (forall r t, In r rs -> hd_error (irhs r) = Some (Terminal t) -> t <> Epsilon -> fmem F' (isymbol r) t = true).

(** Closure under a rule depends on the epsilon facts of the labels in it. *)
Lemma fnull_agree F F' ns : leF F F' -> (forall l, In (Production l) ns -> fmem F' l Epsilon = true -> fmem F l Epsilon = true) ->
  fnull F' ns = true -> fnull F ns = true.
Proof.
  intros Hle. induction ns as [|[[t| |]|l] ns IH]; intros Ha; simpl; auto; try discriminate.
  - apply IH. intros l Hl. apply Ha. simpl. auto.
  - rewrite !andb_true_iff. intros (H1 & H2). split; [apply Ha; simpl; auto|]. apply IH; auto. intros l' Hl'. apply Ha. simpl. auto.
Qed.

Lemma ffirst_agree F F' a ns : leF F F' -> (forall l, In (Production l) ns -> fmem F' l Epsilon = true -> fmem F l Epsilon = true) ->
  (forall l, fmem F' l a = true -> fmem F l a = true) -> ffirst F' ns a = true -> ffirst F ns a = true.
Proof.
  intros Hle Ha Ht. induction ns as [|[[t| |]|l] ns IH]; simpl; auto; try discriminate.
  - apply IH. intros l Hl. apply Ha. simpl. auto.
  - rewrite !orb_true_iff, !andb_true_iff. intros [H1|(H1 & H2)]; [left; auto|right].
    split; [apply Ha; simpl; auto|]. apply IH; auto. intros l' Hl'. apply Ha. simpl. auto.
Qed.

Lemma closed_agree F F' r : leF F F' -> (forall l, In (Production l) (irhs r) -> fmem F' l Epsilon = true -> fmem F l Epsilon = true) ->
  (forall l a, a <> Epsilon -> fmem F' l a = true -> fmem F l a = true) -> closed_rule F r -> closed_rule F' r.
Proof.
  intros Hle Ha Ht (H1 & H2). split.
  - intros Hn. apply Hle, H1. eapply fnull_agree; eauto.
  - intros a Hne Hf. apply Hle, H2; auto. eapply ffirst_agree; eauto.
Qed.

Lemma round_spec_nil F ch : FInv F -> round_spec [] F ch F ch.
Proof. intros Hi. repeat split; auto using leF_refl; try apply Hi; simpl in *; tauto. Qed.

Lemma grew_trans F F1 F2 : leF F F1 -> leF F1 F2 -> grew F F1 \/ grew F1 F2 -> grew F F2.
Proof.
  intros H1 H2 [(l & a & Ha & G1 & G2)|(l & a & Ha & G1 & G2)]; exists l, a; repeat split; auto.
  destruct (fmem F l a) eqn:Hf; auto. apply H1 in Hf. congruence.
Qed.

Lemma round_spec_app rs1 rs2 F ch F1 ch1 F2 ch2 : FInv F ->
  round_spec rs1 F ch F1 ch1 -> round_spec rs2 F1 ch1 F2 ch2 -> round_spec (rs1 ++ rs2) F ch F2 ch2.
Proof.
  intros HF (A1 & A2 & A3 & A4 & A5 & A6 & A7 & A8) (B1 & B2 & B3 & B4 & B5 & B6 & B7 & B8).
  assert (Hch : ch2 = false -> ch1 = false).
  { destruct ch1, ch2; auto. intros _. symmetry. auto. }
  split; [auto|]. split; [eapply leF_trans; eauto|]. split; [|split; [|split; [|split; [|split]]]].
  - intros Hc. destruct (B3 Hc) as [Hx|Hx].
    + destruct (A3 Hx) as [|Hg]; auto. right. eapply grew_trans; eauto.
    + right. eapply grew_trans; eauto.
  - auto.
  - intros Hc Hag r Hr. apply in_app_or in Hr as [Hr|Hr].
    + apply (closed_agree F1); auto.
      * intros l Hl Hx. apply A2, (Hag r l); auto. apply in_or_app; auto.
      * intros l a Ha Hx. rewrite B6 in Hx; auto.
      * apply A5; auto. intros r' l Hr' Hl Hx. apply (Hag r' l); auto. apply in_or_app; auto.
    + apply B5; auto. intros r' l Hr' Hl Hx. apply A2, (Hag r' l); auto. apply in_or_app; auto.
  - intros Hc l a Ha. rewrite B6, A6; auto.
  - intros r Hr He. apply in_app_or in Hr as [Hr|Hr]; auto.
  - intros r t Hr He. apply in_app_or in Hr as [Hr|Hr]; eauto.
Qed.

Lemma fnull_empty F r : empty_rule r -> fnull F (irhs r) = true.
Proof. unfold empty_rule. induction 1; subst; simpl; auto. Qed.

Lemma propagate_rule_ok j r F ch : nth_error (rules g) j = Some r -> FInv F ->
  exists F' ch', @propagate_rule bm E (isymbol r) (F, ch) r = Ok (F', ch') /\ round_spec [r] F ch F' ch'.
Proof.
  intros Hr Hinv. pose proof (nth_error_In _ _ Hr) as Hin. pose proof (wf_sym _ Hwf _ Hin) as Hs. pose proof m_pos as Hm.
  assert (Heps : label_id (@Epsilon nat) < m) by (unfold label_id; simpl; lia).
  unfold propagate_rule. simpl.
  destruct (propagate_nodes_ok j r (irhs r) [] F ch Hr eq_refl Hinv) as (F1 & ch1 & passed & -> & I1 & I2 & I3 & I4 & Ia & Ib & I5); [constructor|].
  simpl. destruct passed.
  - pose proof I1 as (Hw1 & _). destruct (wfF_get F1 _ Hw1 Hs) as (s & Hs1 & Hs2). rewrite (index_ok _ _ _ Hs1). simpl.
    destruct (@vs_set_ok bm E m s Epsilon Hs2 Heps) as (s' & -> & Hs' & Hmem). simpl.
    rewrite store_ok by (apply nth_error_Some; congruence). simpl.
    set (F2 := list_set F1 (isymbol r) s'). exists F2, ch1. split; [reflexivity|].
    assert (Hf2 : forall l a, fmem F2 l a = true <-> (l = isymbol r /\ a = Epsilon) \/ fmem F1 l a = true).
    { intros l a. unfold F2. rewrite (fmem_list_set _ _ _ _ _ _ Hs1). destruct (Nat.eqb_spec (isymbol r) l) as [<-|Hne].
      - rewrite Hmem. unfold fmem. rewrite Hs1. intuition congruence.
      - intuition congruence. }
    assert (Hle : leF F1 F2) by (intros l a Ha; apply Hf2; auto).
    assert (HJ : JNs F1 (irhs r)) by auto.
    assert (Hinv2 : FInv F2).
    { apply (FInv_extend F1); auto; [apply wfF_list_set; auto|]. intros l a Ha. apply Hf2 in Ha as [[-> ->]|Ha]; auto.
      right. exists j, r. auto. }
    split; [auto|]. split; [eapply leF_trans; eauto|]. split; [|split; [|split; [|split; [|split]]]].
    + intros Hc. destruct (I4 Hc) as [|Hg]; auto. right. eapply grew_trans; eauto.
    + intros ->. destruct ch1; auto. destruct (I5 eq_refl) as (_ & Hx & _). discriminate.
    + intros Hc Hag r' [<-|[]]. destruct (I5 Hc) as (J1 & J2 & J3 & J4). subst F1. split; [intros _; apply Hf2; auto|].
      intros a Ha Hx. apply Hle, J4; auto. eapply ffirst_agree; eauto.
      * intros l Hl. apply (Hag r l); simpl; auto.
      * intros l Hl. apply Hf2 in Hl as [(-> & ->)|Hl]; [congruence|auto].
    + intros Hc l a Ha. destruct (I5 Hc) as (J1 & _). subst F1. apply eq_true_iff_eq. rewrite Hf2. intuition congruence.
    + intros r' [<-|[]] _. apply Hf2. auto.
    + intros r' t [<-|[]] Hhd Ht. exfalso. destruct (irhs r) as [|nd ns]; simpl in Hhd; [discriminate|]. injection Hhd as ->.
      inversion HJ; subst; congruence.
  - exists F1, ch1. split; [reflexivity|]. split; [auto|]. split; [auto|]. split; [auto|]. split; [|split; [|split; [|split]]].
    + intros ->. destruct ch1; auto. destruct (I5 eq_refl) as (_ & Hx & _). discriminate.
    + intros Hc Hag r' [<-|[]]. destruct (I5 Hc) as (J1 & J2 & J3 & J4). subst F1. split; [congruence|auto].
    + intros Hc l a Ha. destruct (I5 Hc) as (J1 & _). congruence.
    + intros r' [<-|[]] He. specialize (Ia He). discriminate.
    + intros r' t [<-|[]] Hhd Ht. auto.
Qed.

Lemma propagate_rules_ok l rs F ch :
  (forall r, In r rs -> In r (rules g) /\ isymbol r = l) -> FInv F ->
  exists F' ch', foldM (@propagate_rule bm E l) (F, ch) rs = Ok (F', ch') /\ round_spec rs F ch F' ch'.
Proof.
  revert F ch. induction rs as [|r rs IH]; intros F ch Hrs Hinv.
  - exists F, ch. split; [reflexivity|]. apply round_spec_nil; auto.
  - destruct (Hrs r) as (Hin & <-); [simpl; auto|]. apply In_nth_error in Hin as (j & Hj).
    rewrite foldM_cons. destruct (propagate_rule_ok j r F ch Hj Hinv) as (F1 & ch1 & -> & R1). simpl.
    destruct (IH F1 ch1) as (F2 & ch2 & -> & R2); [intros; apply Hrs; simpl; auto|apply R1|].
    exists F2, ch2. split; [reflexivity|]. apply (round_spec_app [r] rs F ch F1 ch1); auto.
Qed.

Lemma propagate_labels_ok ls F ch :
  (forall l, In l ls -> l < n) -> FInv F ->
  exists F' ch', foldM (fun st label => rs <- production_rules_for_label g label ;; foldM (@propagate_rule bm E label) st rs)
      (F, ch) ls = Ok (F', ch') /\
    exists rs, round_spec rs F ch F' ch' /\ (forall r, In r (rules g) -> In (isymbol r) ls -> In r rs) /\
      forall r, In r rs -> In r (rules g).
Proof.
  revert F ch. induction ls as [|l ls IH]; intros F ch Hls Hinv.
  - exists F, ch. split; [reflexivity|]. exists []. split; [apply round_spec_nil; auto|]. simpl. tauto.
  - rewrite foldM_cons.
    destruct (@production_rules_ok E T L _ g Hwf l) as (ids & rs & _ & -> & _ & _ & _ & Hin & Hall); [apply Hls; simpl; auto|].
    simpl. destruct (propagate_rules_ok l rs F ch Hin Hinv) as (F1 & ch1 & -> & R1). simpl.
    destruct (IH F1 ch1) as (F2 & ch2 & -> & rs2 & R2 & Hall2 & Hsub2); [intros; apply Hls; simpl; auto|apply R1|].
    exists F2, ch2. split; [reflexivity|]. exists (rs ++ rs2). split; [eapply round_spec_app; eauto|]. split.
    + intros r Hr [Hl|Hl]; apply in_or_app; [left|right; auto].
      apply In_nth_error in Hr as (i & Hr). eapply Hall; eauto.
    + intros r Hr. apply in_app_or in Hr as [Hr|Hr]; auto. apply Hin. auto.
Qed.

Lemma propagate_map_ok F : FInv F ->
  exists F' ch', @propagate_map bm E T L g F = Ok (F', ch') /\ exists rs, round_spec rs F false F' ch' /\
    (forall r, In r (rules g) -> In r rs) /\ forall r, In r rs -> In r (rules g).
Proof.
  intros Hinv. unfold propagate_map.
  destruct (propagate_labels_ok (all_production_labels g) F false) as (F' & ch' & Heq & rs & R & Hall & Hsub); auto.
  { intros l Hl. apply in_seq in Hl. lia. }
  exists F', ch'. split; [exact Heq|]. exists rs. split; auto. split; auto. intros r Hr. apply Hall; auto.
  apply in_seq. pose proof (wf_sym _ Hwf _ Hr). lia.
Qed.

(** Real nullability of labels in the indexed grammar. *)
Definition inullable (l : nat) : Prop := exists ts, derives (igram g) [Production l] [] ts.

Lemma JN_derives F : (forall l, JN F l -> inullable l) /\ (forall ns, JNs F ns -> exists ts, derives (igram g) ns [] ts).
Proof.
  apply (JN_mutind F (fun l _ => inullable l) (fun ns _ => exists ts, derives (igram g) ns [] ts)).
  - intros j r Hj Hm _ (ts & Hts). exists [Node j ts].
    apply (derives_production (igram g) j (irule r) ts [] [] [] []); [|exact Hts|constructor].
    apply igram_nth. eauto.
  - exists []. constructor.
  - intros ns _ (ts & Hts). exists ts. constructor; auto.
  - intros l ns _ (ts1 & H1) _ (ts2 & H2). inversion H1 as [| | |i r ts1' w1 ns' w2 ts2' Hi D1 D2 E1 E2 E3]; subst.
    apply app_eq_nil in E2 as (-> & ->). exists (Node i ts1' :: ts2).
    apply (derives_production (igram g) i r ts1' [] ns [] ts2); auto.
Qed.

Definition iused (l : nat) : Prop := exists r, In r (rules g) /\ In (Production l) (irhs r).

Definition eps_direct : Prop :=
  (forall l, inullable l -> iused l -> exists r, In r (rules g) /\ isymbol r = l /\ empty_rule r) /\
  ((exists l, inullable l /\ iused l) -> exists r t, In r (rules g) /\ hd_error (irhs r) = Some (Terminal t) /\ t <> Epsilon).

Lemma fmem_init l a : fmem (repeat (vs_new (ivocab g)) n) l a = false.
Proof.
  unfold fmem. destruct (nth_error _ l) as [s|] eqn:Hs; auto. apply nth_error_In, repeat_spec in Hs. subst. apply vmem_new.
Qed.

Lemma FInv_init : FInv (repeat (vs_new (ivocab g)) n).
Proof.
  split; [|split].
  - split; [apply repeat_length|]. apply Forall_forall. intros s Hs. apply repeat_spec in Hs. subst. apply wf_new.
  - intros l. rewrite fmem_init. discriminate.
  - intros l a _. rewrite fmem_init. discriminate.
Qed.

Lemma round_measure rs F F' : FInv F -> round_spec rs F false F' true -> tmiss m F' < tmiss m F.
Proof.
  intros (W & _) (A1 & A2 & A3 & _). destruct (A3 eq_refl) as [|(l & a & Ha & G1 & G2)]; [discriminate|].
  apply tmiss_strict; auto; [|exists l, a; auto]. destruct A1 as (W1 & _). destruct W, W1. congruence.
Qed.

Theorem first_build_ok Pn Dv fuel R : (Dv \/ n * m < fuel) ->
  wp Pn Dv (@first_build bm E T L fuel g) (fun F => FInv F /\ (eps_direct -> Fclosed F)) R.
Proof.
  intros Hf. unfold first_build. pose proof FInv_init as Hinit.
  set (F0 := repeat (vs_new (ivocab g)) n) in *.
  apply (wp_while (fun F => FInv F /\ (eps_direct -> F = F0 \/ forall l, inullable l -> iused l -> fmem F l Epsilon = true)) (tmiss m)).
  - destruct Hf; auto. right. pose proof (tmiss_bound m F0) as Hb. unfold F0 in Hb at 2. rewrite repeat_length in Hb. lia.
  - split; auto.
  - intros F (Hinv & Hdir). destruct (propagate_map_ok F Hinv) as (F' & ch' & -> & rs & R1 & Hall & Hsub). simpl.
    destruct ch'; simpl.
    + split; [split; [apply R1|]|right; eapply round_measure; eauto].
      intros Hd. right. intros l Hl Hu. destruct R1 as (_ & _ & _ & _ & _ & _ & A7 & _).
      destruct Hd as (Hd & _). destruct (Hd l Hl Hu) as (r & Hr & <- & He). auto.
    + split; [apply R1|]. intros Hd. pose proof R1 as (A1 & A2 & A3 & A4 & A5 & A6 & A7 & A8).
      assert (Hcase : forall l, inullable l -> iused l -> fmem F l Epsilon = true).
      { destruct (Hdir Hd) as [->|]; auto. intros l Hl Hu. exfalso.
        destruct Hd as (_ & Hd). destruct Hd as (r & t & Hr & Hhd & Ht); [eauto|].
        pose proof (A8 r t (Hall _ Hr) Hhd Ht) as Hx. rewrite A6 in Hx by auto. unfold F0 in Hx. rewrite fmem_init in Hx. discriminate. }
      intros r Hr. apply A5; auto. intros r' l Hr' Hl Hx. apply Hcase; [|exists r'; split; auto].
      apply (proj1 (JN_derives F')). apply (proj1 (proj2 A1)). auto.
Qed.

End First.
