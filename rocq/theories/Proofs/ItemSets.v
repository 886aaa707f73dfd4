(** Item sets indexed by viable prefixes, and kernels that represent them. *)
From Coq Require Import Arith Bool String NArith List Lia Permutation Sorted.
From Verif Require Import Base.Prelude Spec.Grammar Model.Error.
From Verif Require Import Model.BitSet Model.FixedMap Model.Vocabulary Model.IndexedGrammar Model.FirstMap.
From Verif Require Import Model.Position Model.Closure.
From Verif Require Import Proofs.WP Proofs.BitSetProofs Proofs.FixedMapProofs Proofs.VocabProofs.
From Verif Require Import Proofs.IndexedProofs Proofs.IndexedBuild Proofs.IndexedMain Proofs.FirstProofs.
From Verif Require Import Proofs.ClosureProofs.
Import ListNotations.

(** Sorting. *)
Lemma insert_position_perm p ps : Permutation (insert_position p ps) (p :: ps).
Proof.
  induction ps as [|q ps IH]; simpl; auto. destruct (key_leb p q); auto.
  rewrite IH. apply perm_swap.
Qed.

Lemma kernel_new_perm ps : Permutation (kernel_new ps) ps.
Proof.
  unfold kernel_new. induction ps as [|p ps IH]; simpl; auto. rewrite insert_position_perm. auto.
Qed.

Lemma kernel_new_in ps q : In q (kernel_new ps) <-> In q ps.
Proof. split; apply Permutation_in; [|symmetry]; apply kernel_new_perm. Qed.

Lemma kernel_new_in1 ps q : In q (kernel_new ps) -> In q ps.
Proof. apply kernel_new_in. Qed.
Lemma kernel_new_in2 ps q : In q ps -> In q (kernel_new ps).
Proof. apply kernel_new_in. Qed.

(** The rule ids of the tail are at least that of the head. *)
Definition ids_sorted (ps : list position) : Prop :=
  forall pre p post q, ps = pre ++ p :: post -> In q post -> production_id p <= production_id q.

Lemma key_leb_ids p q : key_leb p q = true -> production_id p <= production_id q.
Proof.
  unfold key_leb. destruct (Nat.ltb_spec (production_id p) (production_id q)); [lia|].
  destruct (Nat.eqb_spec (production_id p) (production_id q)); [lia|discriminate].
Qed.

Lemma key_leb_false_ids p q : key_leb p q = false -> production_id q <= production_id p.
Proof.
  unfold key_leb. destruct (Nat.ltb_spec (production_id p) (production_id q)); [discriminate|].
  destruct (Nat.eqb_spec (production_id p) (production_id q)); lia.
Qed.

Lemma ids_sorted_cons p ps : (forall q, In q ps -> production_id p <= production_id q) -> ids_sorted ps -> ids_sorted (p :: ps).
Proof.
  intros H1 H2 pre p' post q Heq Hq. destruct pre as [|x pre]; simpl in Heq; injection Heq as <- Heq.
  - subst ps. auto.
  - eapply H2; eauto.
Qed.

Lemma ids_sorted_inv p ps : ids_sorted (p :: ps) -> (forall q, In q ps -> production_id p <= production_id q) /\ ids_sorted ps.
Proof.
  intros Hs. split.
  - intros q Hq. apply (Hs [] p ps q); auto.
  - intros pre p' post q -> Hq. apply (Hs (p :: pre) p' post q); auto.
Qed.

Lemma insert_position_sorted p ps : ids_sorted ps -> ids_sorted (insert_position p ps).
Proof.
  induction ps as [|q ps IH]; intros Hs; simpl.
  - apply ids_sorted_cons; auto. simpl; tauto.
  - apply ids_sorted_inv in Hs as Hs'. destruct Hs' as (H1 & H2). destruct (key_leb p q) eqn:Hk.
    + apply key_leb_ids in Hk. apply ids_sorted_cons; auto. intros r [<-|Hr]; auto. specialize (H1 r Hr). lia.
    + apply key_leb_false_ids in Hk. apply ids_sorted_cons; auto.
      intros r Hr. apply (Permutation_in _ (insert_position_perm p ps)) in Hr as [<-|Hr]; auto.
Qed.

Lemma kernel_new_sorted ps : ids_sorted (kernel_new ps).
Proof.
  unfold kernel_new. induction ps as [|p ps IH]; simpl.
  - intros [|] p0 post q; discriminate.
  - apply insert_position_sorted; auto.
Qed.

(** The sort is canonical. *)
Definition pos_le (p q : position) : Prop := key_leb p q = true.

Lemma pos_le_iff p q : pos_le p q <-> production_id p < production_id q \/ (production_id p = production_id q /\ pos p <= pos q).
Proof.
  unfold pos_le, key_leb. destruct (Nat.ltb_spec (production_id p) (production_id q)); [split; auto|].
  destruct (Nat.eqb_spec (production_id p) (production_id q)); [rewrite Nat.leb_le; split; [auto|intros [|]; [lia|tauto]]|].
  split; [discriminate|lia].
Qed.

Lemma pos_le_total p q : key_leb p q = false -> pos_le q p.
Proof.
  intros Hf. apply pos_le_iff. destruct (pos_le_iff p q) as (_ & Hx). unfold pos_le in Hx. rewrite Hf in Hx.
  destruct (Nat.lt_trichotomy (production_id p) (production_id q)) as [|[|]]; [exfalso; assert (false = true) by auto; discriminate| |auto].
  destruct (le_dec (pos p) (pos q)); [exfalso; assert (false = true) by auto; discriminate|]. right. lia.
Qed.

Lemma insert_position_strong p ps : StronglySorted pos_le ps -> StronglySorted pos_le (insert_position p ps).
Proof.
  induction ps as [|q ps IH]; intros Hs; simpl; [repeat constructor|]. apply StronglySorted_inv in Hs as (H1 & H2).
  destruct (key_leb p q) eqn:Hk.
  - constructor; [constructor; auto|]. constructor; auto. rewrite Forall_forall in *. intros r Hr. specialize (H2 r Hr).
    unfold pos_le in Hk. apply pos_le_iff in H2. change (pos_le p q) in Hk. apply pos_le_iff in Hk. apply pos_le_iff. lia.
  - constructor; auto. apply pos_le_total in Hk. apply Forall_forall. intros r Hr.
    apply (Permutation_in _ (insert_position_perm p ps)) in Hr as [<-|Hr]; auto. rewrite Forall_forall in H2; auto.
Qed.

Lemma kernel_new_strong ps : StronglySorted pos_le (kernel_new ps).
Proof. unfold kernel_new. induction ps as [|p ps IH]; simpl; [constructor|]. apply insert_position_strong; auto. Qed.

Definition pos_key (p : position) : nat * nat := (production_id p, pos p).

Lemma strong_unique ps ps' : StronglySorted pos_le ps -> StronglySorted pos_le ps' -> Permutation ps ps' ->
  NoDup (map pos_key ps) -> ps = ps'.
Proof.
  intros Hs. revert ps'. induction Hs as [|p ps Hs IH Hp]; intros ps' Hs' HP Hn.
  - apply Permutation_nil in HP. auto.
  - destruct ps' as [|q ps']; [apply Permutation_sym, Permutation_nil in HP; discriminate|].
    apply StronglySorted_inv in Hs' as (Hs1 & Hq). rewrite Forall_forall in Hp, Hq. simpl in Hn. apply NoDup_cons_iff in Hn as (Hn1 & Hn2).
    assert (p = q).
    { assert (Hi : In p (q :: ps')) by (eapply Permutation_in; [exact HP|simpl; auto]). destruct Hi as [|Hi]; auto.
      assert (Hj : In q (p :: ps)) by (eapply Permutation_in; [symmetry; exact HP|simpl; auto]). destruct Hj as [|Hj]; auto.
      specialize (Hp q Hj). specialize (Hq p Hi). apply pos_le_iff in Hp, Hq. exfalso. apply Hn1.
      apply in_map_iff. exists q. split; auto. unfold pos_key. f_equal; lia. }
    subst q. f_equal. apply IH; auto. eapply Permutation_cons_inv; eauto.
Qed.

Theorem kernel_new_order_free ps ps' : NoDup (map pos_key ps) -> Permutation ps ps' -> kernel_new ps = kernel_new ps'.
Proof.
  intros Hn HP. apply strong_unique; try apply kernel_new_strong.
  - rewrite !kernel_new_perm. auto.
  - eapply Permutation_NoDup; [|exact Hn]. apply Permutation_map. symmetry. apply kernel_new_perm.
Qed.

Section Items.
Context {bm : BuildMode} {E T L : Type} `{EqDec T}.
Variable g : indexed_grammar T L.
Hypothesis Hwf : wf_ig g.
Variable F : first_table.
Hypothesis HF : FInv g F.
Local Notation n := (labels_count g).
Local Notation m := (vocab_size (ivocab g)).
Local Notation rnodes := (rnodes g).
Local Notation nextn := (nextn g).
Local Notation nextl := (nextl g).
Local Notation rsym := (rsym g).

(** Items valid for a viable prefix (top of the stack first). *)
Inductive core : list inode -> nat -> nat -> Prop :=
| core_init : core [] 0 0
| core_close γ i p l j : core γ i p -> nextl i p = Some l -> rsym j l -> core γ j 0
| core_adv γ i p X : core γ i p -> nextn i p = Some X -> core (X :: γ) i (p + 1).

Inductive look : list inode -> nat -> nat -> aug nat -> Prop :=
| look_init : look [] 0 0 EndOfStream
| look_first γ i p l j a : core γ i p -> nextl i p = Some l -> rsym j l -> a <> Epsilon ->
    ffirst F (skipn (p + 1) (rnodes i)) a = true -> look γ j 0 a
| look_follow γ i p l j a : look γ i p a -> nextl i p = Some l -> rsym j l ->
    fnull F (skipn (p + 1) (rnodes i)) = true -> look γ j 0 a
| look_adv γ i p X a : look γ i p a -> nextn i p = Some X -> look (X :: γ) i (p + 1) a.

Lemma look_core γ i p a : look γ i p a -> core γ i p.
Proof.
  induction 1; [apply core_init|eapply core_close; eauto|eapply core_close; eauto|eapply core_adv; eauto].
Qed.

(** A kernel represents the items of a viable prefix. *)
Definition rep (K : kernel) (γ : list inode) : Prop :=
  (forall i p, icore g K i p <-> core γ i p) /\ (forall i p a, ilook g F K i p a <-> look γ i p a).

(** The kernel items of [K']: those of the closure of [K] advanced over [X]. *)
Definition goto_of (K : kernel) (X : inode) (K' : kernel) : Prop :=
  (forall i p, (exists q, In q K' /\ production_id q = i /\ pos q = p) <->
     exists p', p = p' + 1 /\ icore g K i p' /\ nextn i p' = Some X) /\
  (forall i p a, (exists q, In q K' /\ production_id q = i /\ pos q = p /\ vmem (follow_set q) a = true) <->
     exists p', p = p' + 1 /\ ilook g F K i p' a /\ nextn i p' = Some X).

Lemma rep_step K X K' γ : goto_of K X K' -> rep K γ -> rep K' (X :: γ).
Proof.
  intros (G1 & G2) (R1 & R2).
  assert (Hk1 : forall i p, (exists q, In q K' /\ production_id q = i /\ pos q = p) -> core (X :: γ) i p).
  { intros i p Hq. apply G1 in Hq as (p' & -> & Hc & Hn). apply core_adv; auto. apply R1; auto. }
  assert (Hk2 : forall i p a, (exists q, In q K' /\ production_id q = i /\ pos q = p /\ vmem (follow_set q) a = true) ->
      look (X :: γ) i p a).
  { intros i p a Hq. apply G2 in Hq as (p' & -> & Hc & Hn). apply look_adv; auto. apply R2; auto. }
  assert (Hcl : forall l, clabel g K' l -> forall j, rsym j l -> core (X :: γ) j 0).
  { induction 1 as [q l Hq Hl|l j l' Hc IH Hr Hl]; intros k Hk.
    - eapply core_close; eauto.
    - eapply core_close; [apply (IH j)| |]; eauto. }
  assert (Hcf : forall l a, cfollow g F K' l a -> forall j, rsym j l -> look (X :: γ) j 0 a).
  { induction 1 as [q l a Hq Hl Ha Hx|q l a Hq Hl Hx Ha|l j l' a Hc Hr Hl Ha Hx|l j l' a Hc IH Hr Hl Hx]; intros k Hk.
    - eapply (look_first _ (production_id q) (pos q)); eauto.
    - eapply (look_follow _ (production_id q) (pos q)); eauto. apply Hk2. eauto 10.
    - eapply (look_first _ j 0); eauto.
    - eapply (look_follow _ j 0); eauto. }
  assert (HR1 : forall i p, core (X :: γ) i p -> icore g K' i p).
  { clear -G1 R1. intros i p Hc. remember (X :: γ) as γ' eqn:Hγ.
    induction Hc as [|γ0 i p l j Hc IH Hl Hr|γ0 i p Y Hc IH Hn].
    - discriminate.
    - specialize (IH Hγ). right. split; auto. exists l. split; auto.
      destruct IH as [(q & Hq & <- & <-)|(-> & l' & Hr' & Hc')].
      + eapply cl_seed; eauto.
      + eapply cl_step; eauto.
    - injection Hγ as -> ->. left. apply G1. exists p. split; auto. split; auto. apply R1; auto. }
  split.
  - intros i p. split; auto. intros [Hq|(-> & l & Hr & Hc)]; auto. eapply Hcl; eauto.
  - intros i p a. split.
    + intros [Hq|(-> & l & Hr & Hc)]; auto. eapply Hcf; eauto.
    + clear Hk1 Hk2 Hcl Hcf. intros Hc. remember (X :: γ) as γ' eqn:Hγ.
      induction Hc as [|γ0 i p l j a Hc Hl Hr Ha Hx|γ0 i p l j a Hc IH Hl Hr Hx|γ0 i p Y a Hc IH Hn].
      * discriminate.
      * right. split; auto. exists l. split; auto.
        destruct (HR1 _ _ Hc) as [(q & Hq & <- & <-)|(-> & l' & Hr' & Hc')].
        -- eapply cf_seed_first; eauto.
        -- eapply cf_step_first; eauto.
      * specialize (IH Hγ HR1). right. split; auto. exists l. split; auto.
        destruct IH as [(q & Hq & <- & <- & Hv)|(-> & l' & Hr' & Hc')].
        -- eapply cf_seed_follow; eauto.
        -- eapply cf_step_follow; eauto.
      * injection Hγ as -> ->. left. apply G2. exists p. split; auto. split; auto. apply R2; auto.
Qed.

(** The initial kernel. *)
Lemma rep_init s : (forall a, vmem s a = true <-> a = EndOfStream) -> rep [mk_position 0 0 s] [].
Proof.
  intros Hs. set (K := [mk_position 0 0 s]).
  assert (Hcl : forall l, clabel g K l -> forall j, rsym j l -> core [] j 0).
  { induction 1 as [q l Hq Hl|l j l' Hc IH Hr Hl]; intros k Hk.
    - destruct Hq as [<-|[]]. eapply core_close; eauto. apply core_init.
    - eapply core_close; [apply (IH j)| |]; eauto. }
  assert (Hcf : forall l a, cfollow g F K l a -> forall j, rsym j l -> look [] j 0 a).
  { induction 1 as [q l a Hq Hl Ha Hx|q l a Hq Hl Hx Ha|l j l' a Hc Hr Hl Ha Hx|l j l' a Hc IH Hr Hl Hx]; intros k Hk.
    - destruct Hq as [<-|[]]. eapply look_first; eauto. apply core_init.
    - destruct Hq as [<-|[]]. apply Hs in Ha. subst a. eapply look_follow; eauto. apply look_init.
    - eapply (look_first _ j 0); eauto.
    - eapply (look_follow _ j 0); eauto. }
  assert (HR1 : forall i p, core [] i p -> icore g K i p).
  { clear Hcl Hcf. intros i p Hc. remember (@nil inode) as γ eqn:Hγ. induction Hc as [|γ0 i p l j Hc IH Hl Hr|γ0 i p Y Hc IH Hn].
    - left. exists (mk_position 0 0 s). simpl. auto.
    - specialize (IH Hγ). right. split; auto. exists l. split; auto.
      destruct IH as [(q & Hq & <- & <-)|(-> & l' & Hr' & Hc')].
      + eapply cl_seed; eauto.
      + eapply cl_step; eauto.
    - discriminate. }
  split.
  - intros i p. split; auto. intros [(q & [<-|[]] & <- & <-)|(-> & l & Hr & Hc)]; [apply core_init|]. eapply Hcl; eauto.
  - intros i p a. split.
    + intros [(q & [<-|[]] & <- & <- & Ha)|(-> & l & Hr & Hc)]; [|eapply Hcf; eauto].
      apply Hs in Ha. subst a. apply look_init.
    + clear Hcl Hcf. intros Hc. remember (@nil inode) as γ eqn:Hγ.
      induction Hc as [|γ0 i p l j a Hc Hl Hr Ha Hx|γ0 i p l j a Hc IH Hl Hr Hx|γ0 i p Y a Hc IH Hn].
      * left. exists (mk_position 0 0 s). simpl. repeat split; auto. apply Hs. auto.
      * right. split; auto. exists l. split; auto.
        destruct (HR1 _ _ Hc) as [(q & Hq & <- & <-)|(-> & l' & Hr' & Hc')].
        -- eapply cf_seed_first; eauto.
        -- eapply cf_step_first; eauto.
      * specialize (IH Hγ HR1). right. split; auto. exists l. split; auto.
        destruct IH as [(q & Hq & <- & <- & Hv)|(-> & l' & Hr' & Hc')].
        -- eapply cf_seed_follow; eauto.
        -- eapply cf_step_follow; eauto.
      * discriminate.
Qed.

(** Facts about items. *)
Lemma skipn_nextn i p X : nextn i p = Some X -> p < length (rnodes i).
Proof.
  unfold ClosureProofs.nextn. intros Hf. apply find_some in Hf as (Hi & _).
  destruct (Nat.lt_ge_cases p (length (rnodes i))); auto. rewrite skipn_all2 in Hi by auto. destruct Hi.
Qed.

Lemma core_bound γ i p : core γ i p -> i < length (rules g) /\ p <= length (rnodes i).
Proof.
  induction 1 as [|γ i p l j Hc IH Hl (r & Hr & Hs)|γ i p X Hc (IH & IHp) Hn].
  - destruct (wf_root _ Hwf) as (r & mt & Hr & _). split; [|lia]. apply nth_error_Some. congruence.
  - split; [|lia]. apply nth_error_Some. congruence.
  - split; auto. apply skipn_nextn in Hn. lia.
Qed.

Lemma nextn_not_eps i p : nextn i p <> Some (Terminal Epsilon).
Proof. intros Hn. apply nextn_in in Hn as (_ & Hn). discriminate. Qed.

Definition rootclean : Prop := ~ In (Production 0) (rnodes 0).

Lemma no_label0 i p : rootclean -> nextl i p <> Some 0.
Proof.
  intros Hc Hl. unfold ClosureProofs.nextl in Hl.
  assert (Hin : In (Production 0) (rnodes i)).
  { apply (@in_skipn inode _ p). destruct (skipn p (rnodes i)) as [|[a|l] ns]; simpl in Hl; try discriminate.
    injection Hl as ->. simpl; auto. }
  destruct (Nat.eq_dec i 0) as [->|Hne]; [auto|]. unfold ClosureProofs.rnodes in Hin.
  destruct (nth_error (rules g) i) as [r|] eqn:Hr; [|destruct Hin]. apply (wf_rootref _ Hwf i r Hr Hne Hin).
Qed.

Lemma rsym_0 l : rsym 0 l -> l = 0.
Proof. intros (r & Hr & Hs). destruct (wf_root _ Hwf) as (r' & mt & Hr' & Hs' & _). congruence. Qed.

Lemma core_root γ p : rootclean -> core γ 0 p -> p = length γ.
Proof.
  intros Hc Hco. remember 0 as i eqn:Hi. induction Hco as [|γ i p l j Hco IH Hl Hr|γ i p X Hco IH Hn].
  - reflexivity.
  - subst j. apply rsym_0 in Hr. subst l. exfalso. eapply no_label0; eauto.
  - simpl. rewrite IH; auto. lia.
Qed.

Lemma look_root γ p a : rootclean -> look γ 0 p a -> a = EndOfStream.
Proof.
  intros Hc Hco. remember 0 as i eqn:Hi.
  induction Hco as [|γ i p l j a Hco Hl Hr Ha Hx|γ i p l j a Hco IH Hl Hr Hx|γ i p X a Hco IH Hn]; auto.
  - subst j. apply rsym_0 in Hr. subst l. exfalso. eapply no_label0; eauto.
  - subst j. apply rsym_0 in Hr. subst l. exfalso. eapply no_label0; eauto.
Qed.

Lemma look_not_eps γ i p a : look γ i p a -> a <> Epsilon.
Proof. induction 1; auto. discriminate. Qed.

Lemma look_root_eos γ p : rootclean -> core γ 0 p -> look γ 0 p EndOfStream.
Proof.
  intros Hc Hco. remember 0 as i eqn:Hi. induction Hco as [|γ i p l j Hco IH Hl Hr|γ i p X Hco IH Hn].
  - apply look_init.
  - subst j. apply rsym_0 in Hr. subst l. exfalso. eapply no_label0; eauto.
  - apply look_adv; auto.
Qed.

End Items.
