(** The vocabulary is a bijection between tokens and dense ids. *)
From Coq Require Import Arith Bool String NArith List Lia.
From Verif Require Import Base.Prelude Spec.Grammar Model.BitSet Model.FixedMap Model.Vocabulary.
From Verif Require Import Proofs.WP Proofs.BitSetProofs Proofs.FixedMapProofs.
Import ListNotations.

#[global] Instance LabelInj_aug : LabelInj (aug nat).
Proof. intros [k| |] [k'| |]; unfold label_id, Label_aug; intros H; try lia; auto. f_equal. lia. Qed.

Lemma aug_from_id_label a : aug_from_id (label_id a) = a.
Proof.
  destruct a as [k| |]; unfold label_id, Label_aug, aug_from_id; auto.
  replace (k + 2) with (S (S k)) by lia. simpl. f_equal. lia.
Qed.

Lemma label_aug_from_id n : label_id (aug_from_id n) = n.
Proof.
  unfold aug_from_id. destruct n as [|[|n]]; simpl; auto. unfold label_id. simpl. lia.
Qed.

(** Generic: association lists that number a duplicate-free list. *)
Lemma hm_get_numbered {K} `{EqDec K} (l : list K) k n i :
  NoDup l -> (hm_get k (combine l (seq n (length l))) = Some i <->
              n <= i /\ nth_error l (i - n) = Some k).
Proof.
  revert n. induction l as [|x l IH]; intros n Hn; simpl.
  - split; [discriminate|]. intros [_ Hc]. destruct (i - n); discriminate.
  - inversion Hn as [|? ? Hx Hl]; subst. destruct (eq_dec k x) as [->|Hne].
    + split.
      * intros Hi. injection Hi as <-. rewrite Nat.sub_diag. auto.
      * intros [Hi Hnth]. destruct (i - n) as [|j] eqn:Hj; [f_equal; lia|].
        simpl in Hnth. apply nth_error_In in Hnth. tauto.
    + rewrite IH by auto. split; intros [Hi Hnth].
      * replace (i - n) with (S (i - S n)) by lia. split; [lia|auto].
      * destruct (i - n) as [|j] eqn:Hj; simpl in Hnth; [congruence|].
        replace (i - S n) with j by lia. split; [lia|auto].
Qed.

Lemma hm_get_numbered0 {K} `{EqDec K} (l : list K) k i :
  NoDup l -> (hm_get k (combine l (seq 0 (length l))) = Some i <-> nth_error l i = Some k).
Proof.
  intros Hn. rewrite hm_get_numbered by auto. rewrite Nat.sub_0_r. intuition lia.
Qed.

Lemma map_fst_combine {A B} (l : list A) (l' : list B) :
  length l = length l' -> map fst (combine l l') = l.
Proof. revert l'. induction l; destruct l'; simpl; intros; try discriminate; f_equal; auto. Qed.

Lemma map_snd_combine {A B} (l : list A) (l' : list B) :
  length l = length l' -> map snd (combine l l') = l'.
Proof. revert l'. induction l; destruct l'; simpl; intros; try discriminate; f_equal; auto. Qed.

Lemma combine_snoc {A B} (l : list A) (l' : list B) a b :
  length l = length l' -> combine (l ++ [a]) (l' ++ [b]) = combine l l' ++ [(a, b)].
Proof. revert l'. induction l; destruct l'; simpl; intros; try discriminate; f_equal; auto. Qed.

Lemma numbered_snoc {A} (l : list A) a :
  combine (l ++ [a]) (seq 0 (length (l ++ [a]))) = combine l (seq 0 (length l)) ++ [(a, length l)].
Proof.
  rewrite app_length, seq_app. simpl. rewrite combine_snoc; auto. rewrite seq_length; auto.
Qed.

Lemma numbered_keys {A} (l : list A) : map fst (combine l (seq 0 (length l))) = l.
Proof. apply map_fst_combine. rewrite seq_length; auto. Qed.

Lemma NoDup_snoc {A} (l : list A) a : NoDup l -> ~ In a l -> NoDup (l ++ [a]).
Proof.
  intros H1 H2. apply NoDup_remove_2 with (l' := []) (a := a) || idtac.
  induction l as [|x l IH]; simpl; [constructor; auto; constructor|].
  inversion H1; subst. constructor.
  - intros Hc. apply in_app_or in Hc as [Hc|[Hc|[]]]; auto. subst. apply H2; simpl; auto.
  - apply IH; auto. intros Hc. apply H2. simpl; auto.
Qed.

Section Vocab.
Context {T : Type} `{EqDec T}.

Definition wf_vocab (v : vocab T) : Prop :=
  NoDup (id_map v) /\ token_map v = combine (id_map v) (seq 0 (length (id_map v))).

(** [v'] extends [v]: old ids keep their meaning. *)
Definition vocab_ext (v v' : vocab T) : Prop := exists ts, id_map v' = id_map v ++ ts.

Lemma vocab_ext_refl v : vocab_ext v v.
Proof. exists []. rewrite app_nil_r; auto. Qed.
Lemma vocab_ext_trans v1 v2 v3 : vocab_ext v1 v2 -> vocab_ext v2 v3 -> vocab_ext v1 v3.
Proof. intros [a Ha] [b Hb]. exists (a ++ b). rewrite Hb, Ha, app_assoc. auto. Qed.
Lemma vocab_ext_nth v v' i t : vocab_ext v v' -> nth_error (id_map v) i = Some t ->
  nth_error (id_map v') i = Some t.
Proof.
  intros [a Ha] Hn. rewrite Ha, nth_error_app1; auto. apply nth_error_Some. congruence.
Qed.

Lemma wf_vocab_empty : wf_vocab vocab_empty.
Proof. split; simpl; auto. constructor. Qed.

(** Terminals and their ids. *)
Definition aug_rel (v : vocab T) (a : aug T) (i : aug nat) : Prop :=
  match a, i with
  | Token t, Token n => nth_error (id_map v) n = Some t
  | Epsilon, Epsilon => True
  | EndOfStream, EndOfStream => True
  | _, _ => False
  end.

Lemma aug_rel_ext v v' a i : vocab_ext v v' -> aug_rel v a i -> aug_rel v' a i.
Proof. intros He. destruct a, i; simpl; auto. apply vocab_ext_nth; auto. Qed.

Lemma get_id_or_insert_spec v a : wf_vocab v ->
  let '(v', i) := get_id_or_insert v a in
  wf_vocab v' /\ vocab_ext v v' /\ aug_rel v' a i /\
  (forall t, In t (id_map v') <-> In t (id_map v) \/ a = Token t).
Proof.
  intros Hwf. destruct a as [t| |]; simpl.
  - pose proof Hwf as [Hn Ht]. destruct (hm_get t (token_map v)) as [i|] eqn:Hg.
    + split; [auto|]. split; [apply vocab_ext_refl|].
      rewrite Ht in Hg. apply hm_get_numbered0 in Hg; auto. split; [exact Hg|].
      intros t'. split; [auto|]. intros [Hi|Hi]; auto. injection Hi as <-. eapply nth_error_In; eauto.
    + assert (Hnin : ~ In t (id_map v)).
      { apply hm_get_none in Hg. rewrite Ht, numbered_keys in Hg. auto. }
      assert (Hlen : length (token_map v) = length (id_map v)).
      { rewrite Ht, combine_length, seq_length. lia. }
      split; [split; simpl|split].
      * apply NoDup_snoc; auto.
      * unfold hm_insert_vacant. rewrite numbered_snoc, Ht at 1. rewrite Hlen. reflexivity.
      * exists [t]. reflexivity.
      * split; [simpl; rewrite Hlen, nth_error_app2, Nat.sub_diag by lia; reflexivity|].
        intros t'. simpl. rewrite in_app_iff. simpl. intuition congruence.
  - split; [auto|]. split; [apply vocab_ext_refl|]. split; auto. intros; intuition congruence.
  - split; [auto|]. split; [apply vocab_ext_refl|]. split; auto. intros; intuition congruence.
Qed.

Lemma token_to_id_spec v t i : wf_vocab v ->
  (token_to_id v t = Some i <-> nth_error (id_map v) i = Some t).
Proof. intros [Hn Ht]. unfold token_to_id. rewrite Ht. apply hm_get_numbered0; auto. Qed.

Lemma augmented_token_to_id_spec v a i : wf_vocab v ->
  (augmented_token_to_id v a = Some i <-> aug_rel v a i).
Proof.
  intros Hwf. destruct a as [t| |]; simpl; [|destruct i; intuition congruence..].
  destruct (token_to_id v t) as [n|] eqn:Hn.
  - apply token_to_id_spec in Hn as Hn'; auto. destruct i as [m| |]; simpl; try intuition congruence.
    rewrite <- (token_to_id_spec v t m) by auto. rewrite Hn. intuition congruence.
  - split; [discriminate|]. destruct i as [m| |]; simpl; try tauto.
    rewrite <- (token_to_id_spec v t m) by auto. congruence.
Qed.

Lemma id_to_token_spec {E} v i : label_id i < vocab_size v ->
  exists a, @id_to_token E T v i = Ok a /\ aug_rel v a i.
Proof.
  destruct i as [n| |]; unfold label_id, Label_aug, vocab_size; simpl; intros Hlt; [|eexists; split; eauto; simpl; auto..].
  destruct (nth_error (id_map v) n) as [t|] eqn:Hn.
  - rewrite (index_ok _ _ _ Hn). simpl. eexists; split; eauto; auto.
  - apply nth_error_None in Hn. lia.
Qed.

Lemma aug_rel_bound v a i : aug_rel v a i -> label_id i < vocab_size v.
Proof.
  unfold vocab_size. destruct a, i; simpl; try tauto; unfold label_id; simpl; try lia.
  intros Hn. assert (t0 < length (id_map v)) by (apply nth_error_Some; congruence). lia.
Qed.

Lemma aug_rel_fun v a a' i : aug_rel v a i -> aug_rel v a' i -> a = a'.
Proof. destruct a, a', i; simpl; try tauto; congruence. Qed.

Lemma aug_rel_inj v a i i' : wf_vocab v -> aug_rel v a i -> aug_rel v a i' -> i = i'.
Proof.
  intros [Hn _]. destruct a, i, i'; simpl; try tauto. intros H1 H2. f_equal.
  rewrite NoDup_nth_error in Hn. apply Hn; [|congruence]. apply nth_error_Some. congruence.
Qed.

Lemma in_for_each_id (v : vocab T) a : In a (for_each_id v) <-> label_id a < vocab_size v.
Proof.
  unfold for_each_id. rewrite in_map_iff. split.
  - intros (n & <- & Hn). apply in_seq in Hn. rewrite label_aug_from_id. lia.
  - intros Hl. exists (label_id a). split; [apply aug_from_id_label|]. apply in_seq. lia.
Qed.

End Vocab.

(** Vocabulary sets. *)
Definition vmem (s : bitset) (a : aug nat) : bool := mem s (label_id a).

Lemma in_vs_iter n s a : wf_bs n s -> (In a (vs_iter s) <-> vmem s a = true).
Proof.
  intros Hwf. unfold vs_iter, vmem. rewrite in_map_iff. split.
  - intros (b & <- & Hb). rewrite label_aug_from_id. eapply in_for_each in Hb; eauto.
  - intros Hm. exists (label_id a). split; [apply aug_from_id_label|]. eapply in_for_each; eauto.
Qed.

Lemma vs_iter_nodup s : NoDup (vs_iter s).
Proof.
  unfold vs_iter. pose proof (StronglySorted_NoDup _ (for_each_sorted s)) as Hn.
  induction Hn as [|x l Hx Hn IH]; simpl; constructor; auto.
  intros Hc. apply in_map_iff in Hc as (y & Hy & Hin).
  apply (f_equal label_id) in Hy. rewrite !label_aug_from_id in Hy. subst. tauto.
Qed.

Lemma vs_set_ok {bm : BuildMode} {E} n s a : wf_bs n s -> label_id a < n ->
  exists s', @vs_set bm E s a = Ok s' /\ wf_bs n s' /\
    forall c, vmem s' c = true <-> a = c \/ vmem s c = true.
Proof.
  intros Hwf Ha. destruct (@bs_set_ok bm E n s _ Hwf Ha) as (s' & Hs & Hwf' & Hm).
  exists s'. split; [exact Hs|]. split; [auto|]. intros c. unfold vmem. rewrite Hm, orb_true_iff, Nat.eqb_eq.
  split; (intros [Hc|Hc]; [left|right; auto]); [apply label_inj; auto|congruence].
Qed.

Lemma vs_clear_ok {bm : BuildMode} {E} n s a : wf_bs n s -> label_id a < n ->
  exists s', @vs_clear bm E s a = Ok s' /\ wf_bs n s' /\
    forall c, vmem s' c = true <-> a <> c /\ vmem s c = true.
Proof.
  intros Hwf Ha. destruct (@bs_clear_ok bm E n s _ Hwf Ha) as (s' & Hs & Hwf' & Hm).
  exists s'. split; [exact Hs|]. split; [auto|]. intros c. unfold vmem. rewrite Hm, andb_true_iff, negb_true_iff, Nat.eqb_neq.
  split; (intros [H1 H2]; split; auto). { congruence. } intros Hc. apply H1. apply label_inj; auto.
Qed.

Lemma vs_has_ok {bm : BuildMode} {E} n s a : wf_bs n s -> label_id a < n ->
  @vs_has bm E s a = Ok (vmem s a).
Proof. intros Hwf Ha. unfold vs_has, vmem. eapply bs_has_ok; eauto. Qed.

Lemma vs_merge_spec n s o : wf_bs n s -> wf_bs n o ->
  wf_bs n (fst (vs_merge s o)) /\
  (forall c, vmem (fst (vs_merge s o)) c = true <-> vmem s c = true \/ vmem o c = true) /\
  (snd (vs_merge s o) = true <-> exists c, vmem o c = true /\ vmem s c = false).
Proof.
  intros H1 H2. destruct (bs_merge_spec n s o H1 H2) as (W & M & C). unfold vs_merge.
  split; [auto|]. split.
  - intros c. unfold vmem. rewrite M, orb_true_iff. tauto.
  - rewrite C. split.
    + intros (c & Hc & Ho & Hs). exists (aug_from_id c). unfold vmem. rewrite label_aug_from_id. auto.
    + intros (c & Ho & Hs). exists (label_id c). split; [|auto].
      destruct (Nat.lt_ge_cases (label_id c) n); auto. destruct H2 as (_ & _ & _ & Hout).
      unfold vmem in Ho. rewrite Hout in Ho; auto. discriminate.
Qed.

Lemma vmem_new {T} (v : vocab T) a : vmem (vs_new v) a = false.
Proof. apply mem_new. Qed.

Lemma vmem_ext n s1 s2 : wf_bs n s1 -> wf_bs n s2 -> (forall a, vmem s1 a = true <-> vmem s2 a = true) -> s1 = s2.
Proof.
  intros H1 H2 Hm. apply (mem_ext n); auto. intros b _. specialize (Hm (aug_from_id b)).
  unfold vmem in Hm. rewrite label_aug_from_id in Hm. destruct (mem s1 b), (mem s2 b); intuition congruence.
Qed.

Lemma vmem_bound n s a : wf_bs n s -> vmem s a = true -> label_id a < n.
Proof.
  intros (_ & _ & _ & Ho) Hm. destruct (Nat.lt_ge_cases (label_id a) n); auto.
  unfold vmem in Hm. rewrite Ho in Hm; auto. discriminate.
Qed.
