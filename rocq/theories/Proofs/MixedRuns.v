(** Runs of reductions in which every step may be made on another lookahead, as
    the generated parser does when the next token stands for several terminals.
    With a closed FIRST table such a run is a run on its last lookahead alone. *)
From Coq Require Import Arith Bool String NArith List Lia Permutation.
From Verif Require Import Base.Prelude Spec.Grammar Model.Error.
From Verif Require Import Model.BitSet Model.FixedMap Model.Vocabulary Model.IndexedGrammar Model.FirstMap.
From Verif Require Import Model.Position Model.Closure Model.LRTable.
From Verif Require Import Proofs.WP Proofs.BitSetProofs Proofs.FixedMapProofs Proofs.VocabProofs.
From Verif Require Import Proofs.IndexedProofs Proofs.IndexedBuild Proofs.IndexedMain Proofs.FirstProofs.
From Verif Require Import Proofs.ClosureProofs Proofs.ItemSets Proofs.TableProofs Proofs.TableBuild Proofs.Machine.
Import ListNotations.

Section Mixed.
Context {T L : Type} `{EqDec T}.
Variable g : indexed_grammar T L.
Hypothesis Hwf : wf_ig g.
Hypothesis Heps : eps_trailing (igram g).
Variable F : first_table.
Hypothesis HF : FInv g F.
Variable t : lr_table.
Variable ks : list kernel.
Variable acts : nat -> aug nat -> option action.
Variable gts : nat -> nat -> option nat.
Hypothesis Hok : table_ok g F t ks acts gts.

Local Notation rnodes := (rnodes g).
Local Notation nextn := (nextn g).
Local Notation nextl := (nextl g).
Local Notation rsym := (rsym g).
Local Notation core := (core g).
Local Notation look := (look g F).
Local Notation vstk := (vstk acts gts).
Local Notation rstep := (rstep g acts gts).
Local Notation rsteps := (rsteps g acts gts).

(** Runs on one lookahead, counted. *)
Inductive rcount (a : aug nat) : nat -> list entry -> list entry -> Prop :=
| rc_refl stk : rcount a 0 stk stk
| rc_step n s1 s2 s3 : rstep a s1 s2 -> rcount a n s2 s3 -> rcount a (S n) s1 s3.

Lemma rsteps_count a s1 s2 : rsteps a s1 s2 -> exists n, rcount a n s1 s2.
Proof. induction 1 as [|? ? ? Hs _ (n & IH)]; [exists 0; constructor|]. exists (S n). econstructor; eauto. Qed.

Lemma good_no_step a stk stk' : good_end acts a stk -> ~ rstep a stk stk'.
Proof. intros Hg (j & r & po & re & s & A & _). destruct Hg as [(s' & Hs)|Hs]; congruence. Qed.

Lemma count_le a n s1 s2 : rcount a n s1 s2 -> good_end acts a s2 -> forall n' s3, rcount a n' s1 s3 -> n' <= n.
Proof.
  induction 1 as [stk|n s1 s2 s3 Hs Hr IH]; intros Hg n' s4 H'; inversion H' as [|n0 ? s2' ? Hs' Hr']; subst; try lia.
  - exfalso. eapply good_no_step; eauto.
  - rewrite (rstep_fun g acts gts _ _ _ _ Hs' Hs) in Hr'. apply le_n_S. eapply IH; eauto.
Qed.

Lemma count_bound a stk : vstk stk -> exists N, forall n stk', rcount a n stk stk' -> n <= N.
Proof.
  intros Hv. destruct (acts (top stk) a) as [[s|j|]|] eqn:Ha;
    try (exists 0; intros n stk' Hr; inversion Hr as [|? ? ? ? (j' & r & po & re & s' & A & _) _]; subst; auto; congruence).
  destruct (reduce_progress g Hwf Heps F HF t ks acts gts Hok _ _ _ Hv Ha) as (e & Hr & Hg). destruct (rsteps_count _ _ _ Hr) as (N & HN).
  exists N. intros n stk' Hc. eapply count_le; eauto.
Qed.

Lemma counts_bound As stk : vstk stk -> exists N, forall a, In a As -> forall n stk', rcount a n stk stk' -> n <= N.
Proof.
  intros Hv. induction As as [|a As (N & IH)]; [exists 0; intros a []|]. destruct (count_bound a stk Hv) as (N' & HN').
  exists (N + N'). intros b [<-|Hb] n stk' Hc; [apply HN' in Hc; lia|]. apply (IH b Hb) in Hc. lia.
Qed.

(** What may come next, after the item was moved over the last symbol. *)
Hypothesis Hcl : Fclosed g F.

Definition after (γ : list inode) (X : inode) (b : aug nat) : Prop :=
  (exists i p, core γ i p /\ nextn i p = Some X /\ ffirst F (skipn (p + 1) (rnodes i)) b = true) \/
  (exists i p, look γ i p b /\ nextn i p = Some X /\ fnull F (skipn (p + 1) (rnodes i)) = true).

Lemma closed_null j l : rsym j l -> fnull F (rnodes j) = true -> fmem F l Epsilon = true.
Proof. intros (r & Hr & <-) Hn. rewrite (igram_rnodes g _ _ Hr) in Hn. apply nth_error_In in Hr. destruct (Hcl r Hr) as (H1 & H2); auto. Qed.

Lemma closed_first j l b : rsym j l -> b <> Epsilon -> ffirst F (rnodes j) b = true -> fmem F l b = true.
Proof. intros (r & Hr & <-) Hb Hn. rewrite (igram_rnodes g _ _ Hr) in Hn. apply nth_error_In in Hr. destruct (Hcl r Hr) as (H1 & H2); auto. Qed.

Lemma after_core γ i p b : core γ i p -> b <> Epsilon -> ffirst F (skipn p (rnodes i)) b = true -> forall X γ', γ = X :: γ' -> after γ' X b.
Proof.
  induction 1 as [|γ i p l j Hc IH Hl Hr|γ i p Y Hc IH Hn]; intros Hb Hf X γ' Hg.
  - discriminate.
  - apply IH; auto. apply nextl_iff in Hl as (ns & ->). simpl. rewrite skipn_O in Hf. rewrite (closed_first _ _ _ Hr Hb Hf). reflexivity.
  - injection Hg as <- <-. left. eauto.
Qed.

Lemma after_look γ i p b : look γ i p b -> b <> Epsilon -> fnull F (skipn p (rnodes i)) = true -> forall X γ', γ = X :: γ' -> after γ' X b.
Proof.
  induction 1 as [|γ i p l j a Hc Hl Hr Ha Hx|γ i p l j a Hlk IH Hl Hr Hx|γ i p Y a Hlk IH Hn]; intros Hb Hf X γ' Hg.
  - discriminate.
  - apply (after_core _ _ _ _ Hc Hb) with (X := X) (γ' := γ'); auto. apply nextl_iff in Hl as (ns & Hs). rewrite Hs. simpl.
    rewrite (skipn_S g _ _ _ _ Hs) in Hx. rewrite skipn_O in Hf. rewrite (closed_null _ _ Hr Hf), Hx. apply orb_true_r.
  - apply IH; auto. apply nextl_iff in Hl as (ns & Hs). rewrite Hs. simpl. rewrite (skipn_S g _ _ _ _ Hs) in Hx.
    rewrite skipn_O in Hf. rewrite (closed_null _ _ Hr Hf), Hx. reflexivity.
  - injection Hg as <- <-. right. eauto.
Qed.

Lemma strip_fnull (ns : list inode) : strip ns = [] -> fnull F ns = true.
Proof. induction ns as [|[[k| |]|l] ns IH]; simpl; auto; discriminate. Qed.

Lemma root_look γ i p : core γ i p -> i = 0 -> ~ In (Production 0) (rnodes 0) -> look γ 0 p EndOfStream.
Proof.
  induction 1 as [|γ i p l j Hc IH Hl Hr|γ i p X Hc IH Hn]; intros Hi Hno.
  - constructor.
  - exfalso. subst j. destruct Hr as (r & Hr & Hs). destruct (wf_root _ Hwf) as (r0 & mt & Hr0 & Hs0 & _).
    assert (l = 0) by congruence. subst l. apply nextl_iff in Hl as (ns & Hl).
    assert (Hin : In (Production 0) (rnodes i)) by (rewrite <- (firstn_skipn p (rnodes i)); apply in_or_app; right; rewrite Hl; simpl; auto).
    destruct (Nat.eq_dec i 0) as [->|Hne]; auto. apply rnodes_in in Hin as (r' & Hr' & Hin). eapply (wf_rootref _ Hwf i r'); eauto.
  - subst i. apply look_adv; auto.
Qed.

Lemma look_neps γ i p a : look γ i p a -> a <> Epsilon.
Proof. induction 1; auto. discriminate. Qed.

Lemma act_neps stk b x : vstk stk -> acts (top stk) b = Some x -> b <> Epsilon.
Proof.
  intros Hv Ha. destruct x as [s|j|].
  - destruct (act_shift g F t ks acts gts Hok _ _ _ Hv Ha) as (i & p & Hc & Hn). apply (nextn_iff g Heps) in Hn as (ns & Hs & He). intros ->. discriminate.
  - destruct (act_reduce g F t ks acts gts Hok _ _ _ Hv Ha) as (_ & p & Hlk & Hn). eapply look_neps; eauto.
  - destruct (act_accept g F t ks acts gts Hok _ _ Hv Ha) as (-> & _). discriminate.
Qed.

Lemma after_act stk e b x : vstk (e :: stk) -> acts (top (e :: stk)) b = Some x -> after (syms stk) (esym e) b.
Proof.
  intros Hv Ha. pose proof (act_neps _ _ _ Hv Ha) as Hb. destruct x as [s|j|].
  - destruct (act_shift g F t ks acts gts Hok _ _ _ Hv Ha) as (i & p & Hc & Hn). apply (nextn_iff g Heps) in Hn as (ns & Hs & He).
    apply (after_core _ _ _ _ Hc) with (X := esym e) (γ' := syms stk); auto.
    rewrite Hs. destruct b; simpl; try congruence; apply eqb_refl.
  - destruct (act_reduce g F t ks acts gts Hok _ _ _ Hv Ha) as (_ & p & Hlk & Hn).
    apply (after_look _ _ _ _ Hlk) with (X := esym e) (γ' := syms stk); auto.
    apply strip_fnull. apply nextn_none; auto.
  - destruct (act_accept g F t ks acts gts Hok _ _ Hv Ha) as (-> & p & Hc & Hn).
    assert (Hno : ~ In (Production 0) (rnodes 0)).
    { intros Hin. apply (vstk_no0 _ _ _ Hv). rewrite (core_root_gen g Hwf Heps acts gts _ _ Hv Hc Hn). apply -> in_rev. apply filter_In. auto. }
    apply (after_look _ _ _ _ (root_look _ _ _ Hc eq_refl Hno)) with (X := esym e) (γ' := syms stk); auto.
    apply strip_fnull. apply nextn_none; auto.
Qed.

(** A reduction that leaves room for [b] is also made on [b]. *)
Lemma rstep_back a b s1 s2 x : vstk s1 -> rstep a s1 s2 -> acts (top s2) b = Some x -> rstep b s1 s2.
Proof.
  intros Hv Hst Hx. pose proof (rstep_vstk g Hwf F t ks acts gts Hok _ _ _ Hv Hst) as Hv2.
  destruct Hst as (j & r & po & re & s & A & B & C & D & E & ->). pose proof (act_neps _ _ _ Hv2 Hx) as Hb. apply (after_act _ _ _ _ Hv2) in Hx. unfold esym in Hx. simpl in Hx.
  assert (Hlk : look (syms re) j 0 b).
  { destruct Hx as [(i & p & Hc & Hn & Hf)|(i & p & Hc & Hn & Hf)]; apply (nextn_nextl g Heps) in Hn.
    - eapply look_first; eauto. exists r; auto.
    - eapply look_follow; eauto. exists r; auto. }
  assert (Hj : j <> 0) by (destruct (act_reduce g F t ks acts gts Hok _ _ _ Hv A); auto).
  destruct (adv_look g Heps F _ _ _ _ Hlk) as (p' & Hl' & Hn'). rewrite skipn_O, (igram_rnodes g _ _ B) in Hl'.
  rewrite <- (popped_syms g Heps F t ks acts gts Hok _ _ _ _ _ _ Hv A B C D), <- syms_app, <- C in Hl'.
  exists j, r, po, re, s. split; [|auto 10]. eapply (act_reduce_c g F t ks acts gts Hok); eauto.
Qed.

(** Runs on any of some lookaheads. *)
Inductive mixed (As : list (aug nat)) : nat -> list entry -> list entry -> Prop :=
| mx_refl stk : mixed As 0 stk stk
| mx_step n a s1 s2 s3 : In a As -> rstep a s1 s2 -> mixed As n s2 s3 -> mixed As (S n) s1 s3.

Lemma mixed_count As n s1 s2 : mixed As n s1 s2 -> vstk s1 -> n = 0 \/ exists a, In a As /\ rcount a n s1 s2.
Proof.
  induction 1 as [stk|n a s1 s2 s3 Ha Hs Hm IH]; intros Hv; auto. right.
  destruct IH as [->|(b & Hb & Hc)]; [eapply (rstep_vstk g Hwf F t ks acts gts Hok); eauto|inversion Hm; subst; exists a; split; auto; econstructor; eauto; constructor|].
  inversion Hc as [|n' ? s2' ? Hs' Hc']; subst.
  - inversion Hm; subst. exists a. split; auto. econstructor; eauto. constructor.
  - exists b. split; auto. econstructor; eauto. pose proof Hs' as (j & r & po & re & s & A & _). eapply rstep_back; eauto.
Qed.

Theorem mixed_bound As stk : vstk stk -> exists N, forall n stk', mixed As n stk stk' -> n <= N.
Proof.
  intros Hv. destruct (counts_bound As stk Hv) as (N & HN). exists N. intros n stk' Hm.
  destruct (mixed_count _ _ _ _ Hm Hv) as [->|(a & Ha & Hc)]; [lia|eauto].
Qed.

Lemma mixed_snoc As n a s1 s2 s3 : mixed As n s1 s2 -> In a As -> rstep a s2 s3 -> mixed As (S n) s1 s3.
Proof.
  intros Hm Ha Hs. induction Hm as [stk|n b s1 s2 s4 Hb Hs' Hm IH]; [apply (mx_step _ 0 a _ s3); auto; constructor|].
  apply (mx_step _ _ b _ s2); auto.
Qed.
End Mixed.
