(** Histories of operations on bit sets, sparse maps and vocabularies. *)
From Coq Require Import Arith Bool String NArith List Lia Sorted FinFun.
From Verif Require Import Base.Prelude Spec.Grammar Spec.Histories.
From Verif Require Import Model.BitSet Model.FixedMap Model.Vocabulary.
From Verif Require Import Proofs.WP Proofs.BitSetProofs Proofs.FixedMapProofs Proofs.VocabProofs.
Import ListNotations.

Section Sets.
Context {bm : BuildMode} {E : Type}.

Lemma run_set_ok n h : within n h ->
  exists s, @run_set bm E n h = Ok s /\ wf_bs n s /\ forall b, mem s b = true <-> members h b.
Proof.
  induction h as [|b h IH|b h IH|h IH o IHo]; simpl; intros Hw.
  - exists (bs_new n). split; [reflexivity|]. split; [apply wf_new|]. intros b. rewrite mem_new. split; [discriminate|tauto].
  - destruct IH as (s & -> & Hs & Hm); [tauto|]. simpl.
    destruct (@bs_set_ok bm E n s b Hs) as (s' & -> & Hs' & Hm'); [tauto|]. exists s'. split; [reflexivity|]. split; auto.
    intros x. rewrite Hm', orb_true_iff, Nat.eqb_eq, Hm. intuition.
  - destruct IH as (s & -> & Hs & Hm); [tauto|]. simpl.
    destruct (@bs_clear_ok bm E n s b Hs) as (s' & -> & Hs' & Hm'); [tauto|]. exists s'. split; [reflexivity|]. split; auto.
    intros x. rewrite Hm', andb_true_iff, negb_true_iff, Nat.eqb_neq, Hm. intuition.
  - destruct IH as (s & -> & Hs & Hm); [tauto|]. destruct IHo as (so & -> & Hso & Hmo); [tauto|]. simpl.
    destruct (bs_merge_spec n s so Hs Hso) as (Hs' & Hm' & _). exists (fst (bs_merge s so)). split; [reflexivity|]. split; auto.
    intros x. rewrite Hm', orb_true_iff, Hm, Hmo. tauto.
Qed.

Lemma bitset_is_set n h : within n h -> exists s, @run_set bm E n h = Ok s /\
  (forall b, b < n -> exists r, @bs_has bm E s b = Ok r /\ (r = true <-> members h b)) /\
  (StronglySorted lt (bs_for_each s) /\ forall b, In b (bs_for_each s) <-> members h b) /\
  (exists r, @bs_full E s = Ok r /\ (r = true <-> forall b, b < n -> members h b)) /\
  (forall h' s', within n h' -> @run_set bm E n h' = Ok s' ->
     (s = s' <-> forall b, members h b <-> members h' b) /\
     (snd (bs_merge s s') = true <-> exists b, members h' b /\ ~ members h b)).
Proof.
  intros Hw. destruct (run_set_ok n h Hw) as (s & Hr & Hs & Hm). exists s. split; auto. split; [|split; [|split]].
  - intros b Hb. exists (mem s b). split; [apply (bs_has_ok n); auto|apply Hm].
  - split; [apply for_each_sorted|]. intros b. rewrite (in_for_each n) by auto. apply Hm.
  - destruct (@bs_full_ok E n s Hs) as (r & Hf & Hfi). exists r. split; auto. rewrite Hfi. split; intros Hx b Hb; apply Hm; auto.
  - intros h' s' Hw' Hr'. destruct (run_set_ok n h' Hw') as (s2 & Hr2 & Hs2 & Hm2).
    assert (s2 = s') by congruence. subst s2. clear Hr2. split.
    + split.
      * intros <- b. rewrite <- Hm, <- Hm2. tauto.
      * intros Hx. apply (mem_ext n); auto. intros b _. apply eq_true_iff_eq. rewrite Hm, Hm2. apply Hx.
    + destruct (bs_merge_spec n s s' Hs Hs2) as (_ & _ & ->). split.
      * intros (c & _ & H1 & H2). exists c. split; [apply Hm2; auto|]. rewrite <- Hm. congruence.
      * intros (c & H1 & H2). rewrite <- Hm2 in H1. rewrite <- Hm in H2. exists c. split; [|split; auto; destruct (mem s c); congruence].
        destruct (Nat.lt_ge_cases c n) as [|Hge]; auto. destruct Hs2 as (_ & _ & _ & Hz). rewrite Hz in H1; [discriminate|auto].
Qed.

Lemma bitset_out_of_range n h s b : debug_assertions = true -> within n h -> @run_set bm E n h = Ok s -> n <= b ->
  (exists why, @bs_has bm E s b = Panic why) /\ (exists why, @bs_set bm E s b = Panic why) /\
  (exists why, @bs_clear bm E s b = Panic why).
Proof.
  intros Hd Hw Hr Hb. destruct (run_set_ok n h Hw) as (s2 & Hr2 & (Hl & _) & _). assert (s2 = s) by congruence. subst s2.
  unfold bs_has, bs_set, bs_clear, debug_assert. rewrite Hd.
  assert ((b <? blen s) = false) as -> by (apply Nat.ltb_ge; lia). simpl. split; [|split]; eexists; reflexivity.
Qed.
End Sets.

Section Maps.
Context {bm : BuildMode} {E K V : Type} `{EqDec K} `{Label K}.
Hypothesis Hinj : forall k k' : K, label_id k = label_id k' -> k = k'.
Local Instance LI : LabelInj K := Hinj.

Lemma assoc_in k v (l : list (K * V)) : NoDup (map fst l) -> (assoc k l = Some v <-> In (k, v) l).
Proof.
  induction l as [|[k' v'] l IH]; simpl; intros Hn.
  - split; [discriminate|tauto].
  - inversion Hn; subst. destruct (eq_dec k k') as [->|Hne].
    + split; [intros Hx; injection Hx as <-; auto|]. intros [Hx|Hx]; [congruence|]. exfalso. apply H3.
      change k' with (fst (k', v)). apply in_map. auto.
    + rewrite IH by auto. split; auto. intros [Hx|]; auto. congruence.
Qed.

Lemma lookup_assoc cap (m : sparse_map K V) k : wf_sm cap m -> lookup m k = assoc k (entries m).
Proof.
  intros Hw. destruct (lookup m k) as [v|] eqn:Hl.
  - symmetry. apply assoc_in; [exact (keys_nodup cap m Hw)|]. apply (lookup_in cap m k v Hw). auto.
  - destruct (assoc k (entries m)) as [v|] eqn:Ha; auto. apply assoc_in in Ha; [|exact (keys_nodup cap m Hw)].
    apply (lookup_in cap m k v Hw) in Ha. congruence.
Qed.

Lemma nth_error_fst {A B} (l : list (A * B)) i : nth_error (map fst l) i = option_map fst (nth_error l i).
Proof. apply nth_error_map. Qed.

Lemma run_op_ok cap (m : sparse_map K V) o : wf_sm cap m -> label_id (op_key o) < cap ->
  exists m', @run_op K V bm E _ m o = Ok m' /\ wf_sm cap m' /\ entries m' = apply_op (entries m) o.
Proof.
  intros Hw Hk. destruct o as [k v|k v|k v]; cbn [run_op apply_op op_key] in *.
  - pose proof (@sm_try_insert_ok bm E K V _ cap m k v Hw Hk) as Ht. rewrite (lookup_assoc cap) in Ht by auto.
    destruct (assoc k (entries m)) as [v'|]; [rewrite Ht; simpl; eauto|]. destruct Ht as (m' & -> & Hw' & He). simpl. eauto.
  - unfold sm_get_mut_or_insert_with, sm_maybe_index.
    assert (Ha := lookup_assoc cap m k Hw). unfold lookup in Ha.
    destruct (index_map_some cap m k Hw Hk) as (oi & Hoi). unfold index. rewrite Hoi in *. simpl. destruct oi as [i|].
    + destruct Hw as (H1 & H2 & H3). destruct (H3 _ _ Hoi) as (k' & v' & Hn & Hk'). unfold sm_deref, index.
      rewrite Hn in *. simpl in *. rewrite <- Ha. exists m. split; [reflexivity|]. split; [split; auto|auto].
    + rewrite <- Ha. destruct (@sm_insert_ok bm E K V _ cap m k v Hw Hk) as (m' & -> & Hw' & He).
      { unfold lookup. rewrite Hoi. auto. } simpl. eauto.
  - pose proof (@sm_get_mut_ok E K V _ _ cap m k Hw Hk) as Hg. rewrite (lookup_assoc cap) in Hg by auto.
    destruct (assoc k (entries m)) as [v0|] eqn:Ha.
    + destruct Hg as (i & -> & Hi). simpl.
      destruct (@sm_assign_ok E K V _ cap m i k v0 v Hw Hi) as (m' & Hm' & Hw' & _). exists m'. split; auto. split; auto.
      unfold sm_assign, index in Hm'. rewrite Hi in Hm'. simpl in Hm'. injection Hm' as <-. simpl.
      pose proof (keys_nodup cap m Hw) as Hnd. unfold keys in Hnd. clear -Hi Hnd. revert i Hi Hnd. generalize (entries m) as l.
      induction l as [|[k' v'] l IH]; intros [|i] Hi Hnd; simpl in *; try discriminate.
      * injection Hi as -> ->. destruct (eq_dec k k) as [_|]; [|congruence]. f_equal. inversion Hnd as [|? ? Hni _]; subst.
        clear -Hni. induction l as [|[k' v'] l IH]; auto. simpl in *. destruct (eq_dec k k') as [->|]; [tauto|]. f_equal. apply IH. tauto.
      * inversion Hnd as [|? ? Hni Hnd']; subst. destruct (eq_dec k k') as [->|].
        { exfalso. apply Hni. apply nth_error_In in Hi. change k' with (fst (k', v0)). apply in_map. auto. }
        f_equal. apply IH; auto.
    + rewrite Hg. simpl. exists m. split; auto. split; auto. clear -Ha. revert Ha. generalize (entries m) as l.
      induction l as [|[k' v'] l IH]; auto. simpl. destruct (eq_dec k k') as [->|]; [discriminate|]. intros Hx. f_equal. auto.
Qed.

Lemma run_ops_ok cap ops : Forall (fun o => label_id (op_key o) < cap) ops ->
  exists m : sparse_map K V, @run_ops K V bm E _ cap ops = Ok m /\ wf_sm cap m /\ entries m = contents ops.
Proof.
  unfold run_ops, contents. intros Hf.
  assert (G : forall m l, wf_sm cap m -> entries m = l -> exists m' : sparse_map K V, foldM (@run_op K V bm E _) m ops = Ok m' /\
    wf_sm cap m' /\ entries m' = fold_left apply_op ops l).
  { induction Hf as [|o ops Ho Hf IH]; intros m l Hw <-; [eexists; simpl; eauto|]. rewrite foldM_cons.
    destruct (run_op_ok cap m o Hw Ho) as (m' & -> & Hw' & He). simpl. apply IH; auto. }
  apply G; [apply wf_sm_new|reflexivity].
Qed.

Lemma sparse_map_is_map cap ops : Forall (fun o => label_id (op_key o) < cap) ops ->
  exists m : sparse_map K V, @run_ops K V bm E _ cap ops = Ok m /\
    sm_iter m = contents ops /\ NoDup (map fst (sm_iter m)) /\
    forall k, label_id k < cap ->
      @sm_get E K V _ m k = Ok (assoc k (contents ops)) /\
      (forall v, match assoc k (contents ops) with
                 | Some v' => @sm_try_insert bm E K V _ m k v = Ok (inr v')
                 | None => exists m', @sm_try_insert bm E K V _ m k v = Ok (inl m') /\ sm_iter m' = contents ops ++ [(k, v)]
                 end) /\
      (forall v, exists m' i, @sm_get_mut_or_insert_with bm E K V _ m k v =
           Ok (m', i, match assoc k (contents ops) with Some _ => false | None => true end) /\
         @sm_deref E K V m' i = Ok (match assoc k (contents ops) with Some v' => v' | None => v end)).
Proof.
  intros Hf. destruct (run_ops_ok cap ops Hf) as (m & Hr & Hw & He). exists m. split; auto. split; auto.
  split; [exact (keys_nodup cap m Hw)|]. intros k Hk.
  rewrite <- He, <- (lookup_assoc cap m k Hw). split; [apply (sm_get_ok cap); auto|]. split.
  - intros v. pose proof (@sm_try_insert_ok bm E K V _ cap m k v Hw Hk) as Ht. destruct (lookup m k); auto.
    destruct Ht as (m' & Ht & Hw' & He'). exists m'. split; auto.
  - intros v. destruct (@sm_get_mut_or_insert_ok bm E K V _ _ cap m k v Hw Hk) as (m' & i & Hg & _ & Hi & _).
    exists m', i. split; auto. unfold sm_deref, index. rewrite Hi. reflexivity.
Qed.
End Maps.

Section Vocab.
Context {T : Type} `{EqDec T}.

Lemma run_vocab_ok ts : wf_vocab (run_vocab ts) /\ forall t, In t (id_map (run_vocab ts)) <-> In (Token t) ts.
Proof.
  unfold run_vocab.
  assert (G : forall v, wf_vocab v -> let v' := fold_left (fun v t => fst (get_id_or_insert v t)) ts v in
    wf_vocab v' /\ forall t, In t (id_map v') <-> In t (id_map v) \/ In (Token t) ts).
  { induction ts as [|a ts IH]; intros v Hv; simpl; [split; auto; tauto|].
    pose proof (get_id_or_insert_spec v a Hv) as Hs. destruct (get_id_or_insert v a) as [v' i]. simpl.
    destruct Hs as (Hw & _ & _ & Hin). destruct (IH v' Hw) as (I1 & I2). split; auto. intros t. rewrite I2, Hin. tauto. }
  destruct (G vocab_empty wf_vocab_empty) as (G1 & G2). split; auto. intros t. rewrite G2. simpl. tauto.
Qed.

Lemma run_vocab_ext ts ts' : vocab_ext (run_vocab ts) (run_vocab (ts ++ ts')).
Proof.
  induction ts' as [|a ts' IH] using rev_ind; [rewrite app_nil_r; apply vocab_ext_refl|].
  rewrite app_assoc. unfold run_vocab at 2. rewrite fold_left_app. simpl. fold (run_vocab (ts ++ ts')).
  pose proof (get_id_or_insert_spec (run_vocab (ts ++ ts')) a (proj1 (run_vocab_ok _))) as Hs.
  destruct (get_id_or_insert _ a) as [v' i]. simpl. eapply vocab_ext_trans; [exact IH|apply Hs].
Qed.

Lemma vocab_bijection {E} ts :
  let v := run_vocab ts in
  (forall t, (exists i, token_to_id v t = Some i) <-> In (Token t) ts) /\
  (forall t i, token_to_id v t = Some i -> @id_to_token E T v (Token i) = Ok (Token t)) /\
  (forall i, i + 2 < vocab_size v -> exists t, @id_to_token E T v (Token i) = Ok (Token t) /\ token_to_id v t = Some i) /\
  (forall t i, token_to_id v t = Some i -> i + 2 < vocab_size v) /\
  (forall t t' i, token_to_id v t = Some i -> token_to_id v t' = Some i -> t = t') /\
  (forall a b : aug nat, label_id a = label_id b -> a = b) /\
  (forall a, In a (for_each_id v) <-> label_id a < vocab_size v) /\ NoDup (for_each_id v) /\
  (forall pre a post, ts = pre ++ a :: post ->
     augmented_token_to_id v a = Some (snd (get_id_or_insert (run_vocab pre) a))).
Proof.
  intros v. destruct (run_vocab_ok ts) as (Hw & Hin). fold v in Hw, Hin.
  assert (Hs : forall t i, token_to_id v t = Some i <-> nth_error (id_map v) i = Some t) by (intros; apply token_to_id_spec; auto).
  split; [|split; [|split; [|split; [|split; [|split; [|split; [|split]]]]]]].
  - intros t. rewrite <- Hin. split.
    + intros (i & Hi). apply Hs in Hi. eapply nth_error_In; eauto.
    + intros Hi. apply In_nth_error in Hi as (i & Hi). exists i. apply Hs; auto.
  - intros t i Hi. apply Hs in Hi. simpl. unfold index. rewrite Hi. reflexivity.
  - intros i Hi. unfold vocab_size in Hi. destruct (nth_error (id_map v) i) as [t|] eqn:Ht.
    + exists t. split; [simpl; unfold index; rewrite Ht; reflexivity|]. apply Hs; auto.
    + apply nth_error_None in Ht. lia.
  - intros t i Hi. apply Hs in Hi. unfold vocab_size. assert (i < length (id_map v)) by (apply nth_error_Some; congruence). lia.
  - intros t t' i H1 H2. apply Hs in H1, H2. congruence.
  - apply LabelInj_aug.
  - intros a. apply in_for_each_id.
  - unfold for_each_id. apply FinFun.Injective_map_NoDup; [|apply seq_NoDup].
    intros x y Hxy. rewrite <- (label_aug_from_id x), <- (label_aug_from_id y). congruence.
  - intros pre a post ->. apply augmented_token_to_id_spec; auto.
    pose proof (get_id_or_insert_spec (run_vocab pre) a (proj1 (run_vocab_ok _))) as Hg.
    destruct (get_id_or_insert (run_vocab pre) a) as [v' i] eqn:Hgi. destruct Hg as (_ & _ & Hr & _). simpl.
    eapply aug_rel_ext; [|exact Hr].
    assert (Hv' : v' = run_vocab (pre ++ [a])).
    { unfold run_vocab. rewrite fold_left_app. simpl. fold (run_vocab pre). rewrite Hgi. reflexivity. }
    rewrite Hv'. unfold v. replace (pre ++ a :: post) with ((pre ++ [a]) ++ post) by (rewrite <- app_assoc; reflexivity).
    apply run_vocab_ext.
Qed.
End Vocab.
