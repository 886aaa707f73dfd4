(** Bit sets as finite sets of naturals. *)
From Coq Require Import Arith Bool String NArith List Lia.
From Verif Require Import Base.Prelude Model.BitSet Proofs.WP.
Import ListNotations.

#[global] Arguments word_bits : simpl never.
#[global] Arguments div_ceil : simpl never.
#[global] Arguments N.testbit : simpl never.
#[global] Arguments N.shiftl : simpl never.
#[global] Arguments N.pow : simpl never.
#[global] Arguments N.lxor : simpl never.
#[global] Arguments N.land : simpl never.
#[global] Arguments N.lor : simpl never.
#[global] Arguments N.ones : simpl never.
#[global] Arguments word_max : simpl never.

(** Membership, and the representation invariant for capacity [n]. *)
Definition mem (s : bitset) (b : nat) : bool :=
  N.testbit (nth (b / word_bits) (bits s) 0%N) (N.of_nat (b mod word_bits)).

Definition wf_bs (n : nat) (s : bitset) : Prop :=
  blen s = n /\
  length (bits s) = div_ceil n word_bits /\
  Forall (fun w => (w < 2 ^ 64)%N) (bits s) /\
  (forall b, n <= b -> mem s b = false).

Lemma word_bits_pos : word_bits <> 0. Proof. unfold word_bits. lia. Qed.

Lemma div_ceil_bound n b : b < n -> b / word_bits < div_ceil n word_bits.
Proof.
  intros H. unfold div_ceil. pose proof word_bits_pos as W.
  pose proof (Nat.div_mod n word_bits W). pose proof (Nat.div_mod b word_bits W).
  pose proof (Nat.mod_upper_bound n word_bits W). pose proof (Nat.mod_upper_bound b word_bits W).
  destruct (Nat.eqb_spec (n mod word_bits) 0); apply Nat.nle_gt; intros Hc;
  set (q := n / word_bits) in *; set (p := b / word_bits) in *; nia.
Qed.

Lemma bs_pos_eq b : bs_pos b = (b / word_bits, N.of_nat (b mod word_bits)).
Proof.
  unfold bs_pos. f_equal. unfold word_bits.
  rewrite Nat2N.inj_mod by lia. change (N.of_nat 64) with 64%N.
  change (2 ^ 32)%N with (64 * 2 ^ 26)%N.
  rewrite N.mod_mul_r by lia.
  rewrite (N.mul_comm 64), N.mod_add by lia. apply N.mod_mod; lia.
Qed.

Lemma testbit_one_shift (k j : N) : N.testbit (N.shiftl 1 k) j = N.eqb k j.
Proof. rewrite N.shiftl_1_l. apply N.pow2_bits_eqb. Qed.

Lemma land_shift_testbit w k : negb (N.eqb (N.land w (N.shiftl 1 k)) 0) = N.testbit w k.
Proof.
  destruct (N.testbit w k) eqn:Hk.
  - apply negb_true_iff. apply N.eqb_neq. intros Hc.
    assert (N.testbit (N.land w (N.shiftl 1 k)) k = false) by (rewrite Hc; apply N.bits_0).
    rewrite N.land_spec, testbit_one_shift, N.eqb_refl, Hk in H. discriminate.
  - apply negb_false_iff. apply N.eqb_eq. apply N.bits_inj. intros j.
    rewrite N.land_spec, testbit_one_shift, N.bits_0.
    destruct (N.eqb_spec k j); [subst; rewrite Hk; reflexivity|apply andb_false_r].
Qed.

Lemma lt_pow2_testbit w n : (w < 2 ^ n)%N <-> (forall j, (n <= j)%N -> N.testbit w j = false).
Proof.
  split.
  - intros H j Hj. destruct (N.eq_dec w 0) as [->|Hz]; [apply N.bits_0|].
    apply N.bits_above_log2. apply N.log2_lt_pow2 in H; lia.
  - intros H. destruct (N.eq_dec w 0) as [->|Hz].
    + apply N.neq_0_lt_0. apply N.pow_nonzero. lia.
    + apply N.log2_lt_pow2; [lia|]. apply N.nle_gt. intros Hc.
      specialize (H (N.log2 w) Hc). rewrite N.bit_log2 in H; congruence.
Qed.

Lemma lor_lt a b n : (a < 2 ^ n)%N -> (b < 2 ^ n)%N -> (N.lor a b < 2 ^ n)%N.
Proof.
  rewrite !lt_pow2_testbit. intros Ha Hb j Hj. rewrite N.lor_spec, Ha, Hb; auto.
Qed.

Lemma land_lt a b n : (a < 2 ^ n)%N -> (N.land a b < 2 ^ n)%N.
Proof. rewrite !lt_pow2_testbit. intros Ha j Hj. rewrite N.land_spec, Ha; auto. Qed.

Lemma shift_lt k : (k < 64)%N -> (N.shiftl 1 k < 2 ^ 64)%N.
Proof.
  intros H. apply lt_pow2_testbit. intros j Hj. rewrite testbit_one_shift.
  apply N.eqb_neq. lia.
Qed.

Lemma mod_lt64 b : (N.of_nat (b mod word_bits) < 64)%N.
Proof. pose proof (Nat.mod_upper_bound b word_bits word_bits_pos). unfold word_bits in *. lia. Qed.

Lemma nth_list_set {A} (l : list A) i j a d :
  i < length l -> nth j (list_set l i a) d = if Nat.eqb i j then a else nth j l d.
Proof.
  intros H. rewrite <- !nth_default_eq. unfold nth_default.
  destruct (Nat.eqb_spec i j).
  - subst. rewrite nth_error_list_set_eq; auto.
  - rewrite nth_error_list_set_neq; auto.
Qed.

Lemma Forall_list_set {A} (P : A -> Prop) l i a : Forall P l -> P a -> Forall P (list_set l i a).
Proof.
  revert i. induction l; destruct i; simpl; intros Hl Ha; inversion Hl; subst; constructor; auto.
Qed.

Lemma nth_error_nth_word (s : bitset) i :
  i < length (bits s) -> nth_error (bits s) i = Some (nth i (bits s) 0%N).
Proof. intros H. apply nth_error_nth'. auto. Qed.

(** [new]. *)
Lemma mem_new n b : mem (bs_new n) b = false.
Proof.
  unfold mem, bs_new. simpl.
  replace (nth (b / word_bits) (repeat 0%N (div_ceil n word_bits)) 0%N) with 0%N.
  - apply N.bits_0.
  - symmetry. destruct (nth_in_or_default (b / word_bits) (repeat 0%N (div_ceil n word_bits)) 0%N); auto.
    eapply repeat_spec; eauto.
Qed.

Lemma wf_new n : wf_bs n (bs_new n).
Proof.
  repeat split; simpl.
  - apply repeat_length.
  - apply Forall_forall. intros x Hx. apply repeat_spec in Hx. subst. reflexivity.
  - intros. apply mem_new.
Qed.

Section WithMode.
Context {bm : BuildMode} {E : Type}.

Lemma debug_assert_true why : @debug_assert bm E true why = Ok tt.
Proof. unfold debug_assert. destruct debug_assertions; reflexivity. Qed.

Lemma bs_has_ok n s b : wf_bs n s -> b < n -> @bs_has bm E s b = Ok (mem s b).
Proof.
  intros (Hl & Hb & Hw & _) H. unfold bs_has. rewrite Hl.
  apply Nat.ltb_lt in H as H'. rewrite H', debug_assert_true, bs_pos_eq. simpl.
  rewrite (index_ok _ _ (nth (b / word_bits) (bits s) 0%N)).
  2:{ apply nth_error_nth_word. rewrite Hb. apply div_ceil_bound; auto. }
  simpl. rewrite land_shift_testbit. reflexivity.
Qed.

Lemma same_pos a b : a / word_bits = b / word_bits -> a mod word_bits = b mod word_bits -> a = b.
Proof.
  intros H1 H2. rewrite (Nat.div_mod a word_bits), (Nat.div_mod b word_bits) by apply word_bits_pos.
  congruence.
Qed.

Lemma bs_set_ok n s b : wf_bs n s -> b < n ->
  exists s', @bs_set bm E s b = Ok s' /\ wf_bs n s' /\
    forall c, mem s' c = (b =? c) || mem s c.
Proof.
  intros (Hl & Hb & Hw & Ho) H. unfold bs_set. rewrite Hl.
  apply Nat.ltb_lt in H as H'. rewrite H', debug_assert_true, bs_pos_eq. simpl.
  pose proof (div_ceil_bound _ _ H) as Hd. rewrite <- Hb in Hd.
  rewrite (index_ok _ _ (nth (b / word_bits) (bits s) 0%N)) by (apply nth_error_nth_word; auto).
  simpl. rewrite store_ok by auto. simpl.
  eexists. split; [reflexivity|].
  set (s' := mk_bitset _ _).
  assert (Hm : forall c, mem s' c = (b =? c) || mem s c).
  { intros c. unfold mem, s'. cbn [bits]. rewrite nth_list_set by auto.
    destruct (Nat.eqb_spec (b / word_bits) (c / word_bits)) as [He|He].
    - rewrite N.lor_spec, testbit_one_shift, He.
      destruct (N.eqb_spec (N.of_nat (b mod word_bits)) (N.of_nat (c mod word_bits))) as [Hq|Hq].
      + apply Nat2N.inj in Hq. rewrite (same_pos b c He Hq), Nat.eqb_refl, orb_true_r. reflexivity.
      + destruct (Nat.eqb_spec b c); [subst; congruence|]. rewrite orb_false_r. reflexivity.
    - destruct (Nat.eqb_spec b c); [subst; congruence|reflexivity]. }
  split; [|exact Hm]. repeat split.
  - unfold s'. simpl. rewrite list_set_length. auto.
  - unfold s'. simpl. apply Forall_list_set; auto. apply lor_lt.
    + rewrite Forall_forall in Hw. apply Hw. apply nth_In; auto.
    + apply shift_lt, mod_lt64.
  - intros c Hc. rewrite Hm, Ho by auto. destruct (Nat.eqb_spec b c); [lia|reflexivity].
Qed.

Lemma bs_clear_ok n s b : wf_bs n s -> b < n ->
  exists s', @bs_clear bm E s b = Ok s' /\ wf_bs n s' /\
    forall c, mem s' c = negb (b =? c) && mem s c.
Proof.
  intros (Hl & Hb & Hw & Ho) H. unfold bs_clear. rewrite Hl.
  apply Nat.ltb_lt in H as H'. rewrite H', debug_assert_true, bs_pos_eq. simpl.
  pose proof (div_ceil_bound _ _ H) as Hd. rewrite <- Hb in Hd.
  rewrite (index_ok _ _ (nth (b / word_bits) (bits s) 0%N)) by (apply nth_error_nth_word; auto).
  simpl. rewrite store_ok by auto. simpl.
  eexists. split; [reflexivity|].
  set (s' := mk_bitset _ _).
  assert (Hm : forall c, mem s' c = negb (b =? c) && mem s c).
  { intros c. unfold mem, s'. cbn [bits]. rewrite nth_list_set by auto.
    destruct (Nat.eqb_spec (b / word_bits) (c / word_bits)) as [He|He].
    - rewrite N.land_spec, N.lxor_spec, testbit_one_shift, He.
      unfold word_max. rewrite N.ones_spec_low by apply mod_lt64.
      rewrite xorb_true_l.
      destruct (N.eqb_spec (N.of_nat (b mod word_bits)) (N.of_nat (c mod word_bits))) as [Hq|Hq].
      + apply Nat2N.inj in Hq. rewrite (same_pos b c He Hq), Nat.eqb_refl. apply andb_false_r.
      + destruct (Nat.eqb_spec b c); [subst; congruence|]. rewrite andb_true_r. reflexivity.
    - destruct (Nat.eqb_spec b c); [subst; congruence|reflexivity]. }
  split; [|exact Hm]. repeat split.
  - unfold s'. simpl. rewrite list_set_length. auto.
  - unfold s'. simpl. apply Forall_list_set; auto. apply land_lt.
    rewrite Forall_forall in Hw. apply Hw. apply nth_In; auto.
  - intros c Hc. rewrite Hm, Ho by auto. apply andb_false_r.
Qed.

End WithMode.

(** [merge]. *)
Lemma merge_words_spec d s : length d = length s ->
  length (fst (merge_words d s)) = length d /\
  (forall i, nth i (fst (merge_words d s)) 0%N = N.lor (nth i d 0%N) (nth i s 0%N)) /\
  (snd (merge_words d s) = true <-> fst (merge_words d s) <> d).
Proof.
  revert s. induction d as [|x d IH]; destruct s as [|y s]; simpl; intros H; try discriminate.
  - repeat split; auto; try discriminate; try congruence. intros [|i]; reflexivity.
  - injection H as H. specialize (IH s H). destruct (merge_words d s) as [r m]. simpl in *.
    destruct IH as (I1 & I2 & I3). repeat split.
    + auto.
    + intros [|i]; auto.
    + intros Hm Hc. injection Hc as Hc1 Hc2. rewrite Hc1, N.eqb_refl in Hm. simpl in Hm.
      apply I3 in Hm. auto.
    + intros Hc. apply orb_true_iff. destruct (N.eqb_spec (N.lor x y) x); simpl; auto.
      right. apply I3. congruence.
Qed.

Lemma mem_ext n s1 s2 : wf_bs n s1 -> wf_bs n s2 -> (forall b, b < n -> mem s1 b = mem s2 b) -> s1 = s2.
Proof.
  intros (L1 & B1 & W1 & O1) (L2 & B2 & W2 & O2) Hm.
  destruct s1 as [b1 l1], s2 as [b2 l2]. simpl in *. subst l1 l2. f_equal.
  assert (Hm' : forall b, mem (mk_bitset b1 n) b = mem (mk_bitset b2 n) b).
  { intros b. destruct (Nat.lt_ge_cases b n); auto. rewrite O1, O2; auto. }
  apply (nth_ext _ _ 0%N 0%N); [congruence|].
  intros i Hi. apply N.bits_inj. intros j.
  destruct (N.lt_ge_cases j 64).
  - specialize (Hm' (i * word_bits + N.to_nat j)). unfold mem in Hm'. simpl in Hm'.
    assert (Hj : N.to_nat j < word_bits) by (unfold word_bits; lia).
    rewrite (Nat.add_comm (i * _)) in Hm'.
    rewrite Nat.div_add, Nat.mod_add, Nat.div_small, Nat.mod_small in Hm' by (auto using word_bits_pos).
    simpl in Hm'. rewrite N2Nat.id in Hm'. auto.
  - rewrite Forall_forall in W1, W2.
    assert (A1 : (nth i b1 0 < 2 ^ 64)%N) by (apply W1, nth_In; auto).
    assert (A2 : (nth i b2 0 < 2 ^ 64)%N) by (apply W2, nth_In; lia).
    rewrite lt_pow2_testbit in A1, A2. rewrite A1, A2; auto.
Qed.

Lemma bs_merge_spec n s o : wf_bs n s -> wf_bs n o ->
  wf_bs n (fst (bs_merge s o)) /\
  (forall c, mem (fst (bs_merge s o)) c = mem s c || mem o c) /\
  (snd (bs_merge s o) = true <-> exists c, c < n /\ mem o c = true /\ mem s c = false).
Proof.
  intros (Hl & Hb & Hw & Ho) (Hl' & Hb' & Hw' & Ho').
  assert (Hlen : length (bits s) = length (bits o)) by congruence.
  destruct (merge_words_spec (bits s) (bits o) Hlen) as (I1 & I2 & I3).
  unfold bs_merge. destruct (merge_words (bits s) (bits o)) as [ws m]. simpl in *.
  assert (Hm : forall c, mem (mk_bitset ws (blen s)) c = mem s c || mem o c).
  { intros c. unfold mem. simpl. rewrite I2, N.lor_spec. reflexivity. }
  assert (Hwf : wf_bs n (mk_bitset ws (blen s))).
  { repeat split; simpl; auto; try congruence.
    - apply Forall_forall. intros x Hx. apply (In_nth _ _ 0%N) in Hx as (i & Hi & Hx).
      rewrite I2 in Hx. subst x. rewrite Forall_forall in Hw, Hw'.
      apply lor_lt; [apply Hw, nth_In; lia|apply Hw', nth_In; lia].
    - intros c Hc. rewrite Hm, Ho, Ho'; auto. }
  split; [exact Hwf|]. split; [exact Hm|].
  rewrite I3. split.
  - intros Hne.
    destruct (existsb (fun c => mem o c && negb (mem s c)) (seq 0 n)) eqn:Hex.
    + apply existsb_exists in Hex as (c & Hc & Hx). apply in_seq in Hc.
      apply andb_true_iff in Hx as [? Hx]. apply negb_true_iff in Hx. exists c. repeat split; auto. lia.
    + exfalso. apply Hne.
      assert (Heq : mk_bitset ws (blen s) = s).
      { apply (mem_ext n); auto. { repeat split; auto. }
        intros b Hlt. rewrite Hm.
        destruct (mem s b) eqn:Hs; auto. simpl. destruct (mem o b) eqn:Hob; auto.
        assert (existsb (fun c => mem o c && negb (mem s c)) (seq 0 n) = true); [|congruence].
        apply existsb_exists. exists b. rewrite Hs, Hob. split; auto. apply in_seq. lia. }
      destruct s; simpl in *. congruence.
  - intros (c & Hc & H1 & H2) Heq. specialize (Hm c). rewrite Heq, H1, H2 in Hm.
    unfold mem in Hm, H2. simpl in Hm. rewrite H2 in Hm. discriminate.
Qed.

(** [for_each]. *)
Lemma in_iter_ones w b : In b (iter_ones w) <-> b < word_bits /\ N.testbit w (N.of_nat b) = true.
Proof. unfold iter_ones. rewrite filter_In, in_seq. intuition lia. Qed.

Lemma in_for_each_from ws idx b :
  In b (for_each_from idx ws) <->
  idx * word_bits <= b /\ b / word_bits < idx + length ws /\
  N.testbit (nth (b / word_bits - idx) ws 0%N) (N.of_nat (b mod word_bits)) = true.
Proof.
  revert idx. induction ws as [|w ws IH]; intros idx; simpl.
  - split; [tauto|]. intros (H1 & H2 & H3). destruct (b / word_bits - idx); rewrite N.bits_0 in H3; discriminate.
  - pose proof word_bits_pos as W. pose proof (Nat.div_mod b word_bits W) as Hdm.
    pose proof (Nat.mod_upper_bound b word_bits W) as Hub.
    rewrite in_app_iff, in_map_iff, IH. split.
    + intros [(x & Hx & Hi)|(H1 & H2 & H3)].
      * apply in_iter_ones in Hi as [Hi1 Hi2]. subst b.
        rewrite (Nat.add_comm (idx * _)), Nat.div_add, Nat.mod_add, Nat.div_small, Nat.mod_small by auto.
        simpl. rewrite Nat.sub_diag. repeat split; auto; lia.
      * assert (idx < b / word_bits) by (set (q := b / word_bits) in *; nia).
        replace (b / word_bits - idx) with (S (b / word_bits - S idx)) by lia.
        repeat split; auto; lia.
    + intros (H1 & H2 & H3).
      assert (idx <= b / word_bits) by (set (q := b / word_bits) in *; nia).
      destruct (Nat.eq_dec (b / word_bits) idx) as [He|He].
      * left. exists (b mod word_bits). split; [rewrite Hdm at 2; rewrite He; lia|].
        apply in_iter_ones. split; auto. rewrite He, Nat.sub_diag in H3. auto.
      * right. replace (b / word_bits - idx) with (S (b / word_bits - S idx)) in H3 by lia.
        simpl in H3. repeat split; auto; [|lia]. set (q := b / word_bits) in *; nia.
Qed.

Lemma in_for_each n s b : wf_bs n s -> (In b (bs_for_each s) <-> mem s b = true).
Proof.
  intros (Hl & Hb & Hw & Ho). unfold bs_for_each. rewrite in_for_each_from, Nat.sub_0_r. fold (mem s b).
  split; [tauto|]. intros H. repeat split; [lia| |auto].
  destruct (Nat.lt_ge_cases b n) as [Hlt|Hge].
  - simpl. rewrite Hb. apply div_ceil_bound; auto.
  - rewrite Ho in H by auto. discriminate.
Qed.

From Coq Require Import Sorting.Sorted.

Lemma for_each_from_lower ws idx : Forall (fun b => idx * word_bits <= b) (for_each_from idx ws).
Proof. apply Forall_forall. intros x Hx. apply in_for_each_from in Hx. tauto. Qed.

Lemma StronglySorted_app {A} (R : A -> A -> Prop) l1 l2 :
  StronglySorted R l1 -> StronglySorted R l2 ->
  (forall a b, In a l1 -> In b l2 -> R a b) -> StronglySorted R (l1 ++ l2).
Proof.
  induction l1 as [|x l1 IH]; simpl; intros H1 H2 H; auto.
  inversion H1; subst. constructor; [apply IH; auto|].
  apply Forall_app. split; auto. apply Forall_forall. intros; apply H; auto.
Qed.

Lemma StronglySorted_filter {A} (R : A -> A -> Prop) f l :
  StronglySorted R l -> StronglySorted R (filter f l).
Proof.
  induction 1; simpl; [constructor|]. destruct (f a); auto. constructor; auto.
  rewrite Forall_forall in *. intros x Hx. apply filter_In in Hx. apply H0. tauto.
Qed.

Lemma StronglySorted_seq a n : StronglySorted lt (seq a n).
Proof.
  revert a. induction n; simpl; intros a; constructor; auto.
  apply Forall_forall. intros x Hx. apply in_seq in Hx. lia.
Qed.

Lemma for_each_sorted s : StronglySorted lt (bs_for_each s).
Proof.
  unfold bs_for_each. generalize 0 as idx. induction (bits s) as [|w ws IH]; intros idx; simpl; [constructor|].
  apply StronglySorted_app; auto.
  - assert (Hs : StronglySorted lt (iter_ones w)) by (apply StronglySorted_filter, StronglySorted_seq).
    induction Hs; simpl; constructor; auto.
    rewrite Forall_forall in *. intros x Hx. apply in_map_iff in Hx as (y & <- & Hy).
    specialize (H y Hy). lia.
  - intros a b Ha Hb. apply in_map_iff in Ha as (y & <- & Hy). apply in_iter_ones in Hy as [Hy _].
    pose proof (for_each_from_lower ws (S idx)) as Hf. rewrite Forall_forall in Hf. specialize (Hf b Hb).
    cbv beta in Hf. rewrite Nat.mul_succ_l in Hf. lia.
Qed.

Lemma StronglySorted_NoDup l : StronglySorted lt l -> NoDup l.
Proof.
  induction 1; constructor; auto. rewrite Forall_forall in H0. intros Hc. specialize (H0 _ Hc). lia.
Qed.

(** [full]. *)
Lemma ones_testbit w : (w < 2 ^ 64)%N ->
  (N.eqb w word_max = true <-> forall j, (j < 64)%N -> N.testbit w j = true).
Proof.
  intros Hw. rewrite N.eqb_eq. unfold word_max. split.
  - intros -> j Hj. apply N.ones_spec_low; auto.
  - intros H. apply N.bits_inj. intros j. destruct (N.lt_ge_cases j 64).
    + rewrite H, N.ones_spec_low; auto.
    + rewrite lt_pow2_testbit in Hw. rewrite Hw, N.ones_spec_high; auto.
Qed.

Lemma mem_at s i j : j < word_bits -> mem s (i * word_bits + j) = N.testbit (nth i (bits s) 0%N) (N.of_nat j).
Proof.
  intros Hj. unfold mem. rewrite (Nat.add_comm (i * _)).
  rewrite Nat.div_add, Nat.mod_add, Nat.div_small, Nat.mod_small by (auto using word_bits_pos).
  reflexivity.
Qed.

Lemma full_words ws : Forall (fun w => (w < 2 ^ 64)%N) ws ->
  (forallb (fun w => N.eqb w word_max) ws = true <->
   forall i j, i < length ws -> j < word_bits -> N.testbit (nth i ws 0%N) (N.of_nat j) = true).
Proof.
  intros Hw. rewrite forallb_forall. rewrite Forall_forall in Hw. split.
  - intros H i j Hi Hj. specialize (H (nth i ws 0%N) (nth_In _ _ Hi)).
    rewrite ones_testbit in H by (apply Hw, nth_In; auto). apply H. unfold word_bits in Hj. lia.
  - intros H w Hi. apply ones_testbit; [auto|]. intros j Hj.
    apply (In_nth _ _ 0%N) in Hi as (i & Hi & <-). specialize (H i (N.to_nat j) Hi).
    rewrite N2Nat.id in H. apply H. unfold word_bits. lia.
Qed.

Lemma bs_full_ok {E} n s : wf_bs n s ->
  exists b, @bs_full E s = Ok b /\ (b = true <-> forall c, c < n -> mem s c = true).
Proof.
  intros Hwf. pose proof Hwf as (Hl & Hb & Hw & Ho). unfold bs_full. rewrite Hl.
  pose proof word_bits_pos as W. pose proof (Nat.div_mod n word_bits W) as Hdm.
  pose proof (Nat.mod_upper_bound n word_bits W) as Hub.
  unfold div_ceil in Hb.
  destruct (Nat.eqb_spec (n mod word_bits) 0) as [Hz|Hz].
  - eexists. split; [reflexivity|]. rewrite full_words by auto. split.
    + intros H c Hc. unfold mem. apply H; [|apply Nat.mod_upper_bound; auto].
      rewrite Hb. apply Nat.div_lt_upper_bound; auto.
      set (q := n / word_bits) in *. lia.
    + intros H i j Hi Hj. rewrite <- mem_at by auto. apply H. rewrite Hb in Hi.
      set (q := n / word_bits) in *. nia.
  - destruct (rev (bits s)) as [|last rest] eqn:Hr.
    { apply (f_equal (@length N)) in Hr. rewrite rev_length, Hb in Hr. discriminate. }
    eexists. split; [reflexivity|].
    apply (f_equal (@rev N)) in Hr. rewrite rev_involutive in Hr. simpl in Hr.
    assert (Hlen : length (rev rest) = n / word_bits).
    { rewrite Hr, app_length in Hb. simpl in Hb. lia. }
    assert (Hmod : ((N.of_nat n mod 2 ^ 32) mod 64)%N = N.of_nat (n mod word_bits)).
    { pose proof (bs_pos_eq n) as Hp. unfold bs_pos in Hp. congruence. }
    rewrite Hmod, N.shiftl_1_l, N.sub_1_r, <- N.ones_equiv.
    assert (Hlast : (last < 2 ^ 64)%N).
    { rewrite Forall_forall in Hw. apply Hw. rewrite Hr. apply in_or_app. simpl; auto. }
    rewrite Hr in Hw. apply Forall_app in Hw as [Hw1 Hw2].
    rewrite andb_true_iff, full_words by auto.
    assert (Hlow : forall i j, i < n / word_bits -> j < word_bits ->
              N.testbit (nth i (rev rest) 0%N) (N.of_nat j) = mem s (i * word_bits + j)).
    { intros i j Hi Hj. rewrite mem_at by auto. rewrite Hr, app_nth1 by lia. reflexivity. }
    assert (Hhigh : forall j, j < word_bits ->
              N.testbit last (N.of_nat j) = mem s ((n / word_bits) * word_bits + j)).
    { intros j Hj. rewrite mem_at by auto. rewrite Hr, app_nth2 by lia.
      rewrite Hlen, Nat.sub_diag. reflexivity. }
    split.
    + intros [H1 H2] c Hc. apply N.eqb_eq in H2.
      pose proof (Nat.div_mod c word_bits W) as Hdc. pose proof (Nat.mod_upper_bound c word_bits W) as Huc.
      destruct (Nat.lt_ge_cases (c / word_bits) (n / word_bits)) as [Hlt|Hge].
      * replace c with (c / word_bits * word_bits + c mod word_bits) by lia.
        rewrite <- Hlow by auto. apply H1; [lia|auto].
      * assert (c / word_bits = n / word_bits) as Hq.
        { assert (c / word_bits <= n / word_bits) by (apply Nat.div_le_mono; lia). lia. }
        replace c with (n / word_bits * word_bits + c mod word_bits) by lia.
        rewrite <- Hhigh by auto. rewrite H2. apply N.ones_spec_low.
        assert (c mod word_bits < n mod word_bits) by nia. lia.
    + intros H. split.
      * intros i j Hi Hj. rewrite Hlow by (auto; lia). apply H. rewrite Hlen in Hi. nia.
      * apply N.eqb_eq. apply N.bits_inj. intros j.
        destruct (N.lt_ge_cases j (N.of_nat (n mod word_bits))) as [Hj|Hj].
        -- rewrite N.ones_spec_low by auto.
           rewrite <- (N2Nat.id j). rewrite Hhigh by lia. apply H. lia.
        -- rewrite N.ones_spec_high by auto.
           destruct (N.lt_ge_cases j 64) as [H64|H64].
           ++ rewrite <- (N2Nat.id j). rewrite Hhigh by (unfold word_bits; lia). apply Ho. lia.
           ++ rewrite lt_pow2_testbit in Hlast. apply Hlast; auto.
Qed.
