(** Items of states, followed backwards along edges. *)
From Coq Require Import Arith Bool String NArith List Lia Permutation.
From Verif Require Import Base.Prelude Spec.Grammar Spec.Validity Spec.Nullable Spec.Observers Spec.States Model.Error.
From Verif Require Import Model.BitSet Model.FixedMap Model.Vocabulary Model.IndexedGrammar Model.FirstMap.
From Verif Require Import Model.Position Model.Closure Model.LRTable Model.StateMap.
From Verif Require Import Proofs.WP Proofs.BitSetProofs Proofs.FixedMapProofs Proofs.VocabProofs.
From Verif Require Import Proofs.IndexedProofs Proofs.IndexedBuild Proofs.IndexedMain Proofs.FirstProofs.
From Verif Require Import Proofs.ClosureProofs Proofs.ItemSets Proofs.TableProofs Proofs.TableBuild.
From Verif Require Import Proofs.Fuel Proofs.Machine Proofs.ParserFinal Proofs.RecognitionFinal Proofs.IndexedFinal Proofs.LR1Proofs Proofs.LR1Final Proofs.StatesFinal Proofs.TableFinal Proofs.StateMapFinal.
Import ListNotations.

Section Items.
Context {bm : BuildMode} {T L : Type} `{EqDec T} `{EqDec L}.
Variable g : grammar T L.
Variable ig : indexed_grammar T L.
Hypothesis Hix : indexes g ig.
Hypothesis Heps : eps_trailing (igram ig).
Variable F : first_table.
Variable t : lr_table.
Variable ks : list kernel.
Variable acts : nat -> aug nat -> option action.
Variable gts : nat -> nat -> option nat.
Hypothesis Hok : table_ok ig F t ks acts gts.
Let Hwf := ix_wf g ig Hix.

Definition sitem (s i p : nat) : Prop := exists K, nth_error ks s = Some K /\ icore ig K i p.

Lemma sitem_state s i p : sitem s i p -> s < num_states t.
Proof. intros (K & HK & _). apply (state_kernel ig F t ks acts gts Hok). eauto. Qed.

(** An item in the middle of a rule has come along every edge. *)
Lemma sitem_back s0 X s i p : s0 < num_states t -> iedge acts gts s0 X s -> sitem s i (p + 1) -> nextn ig i p = Some X /\ sitem s0 i p.
Proof.
  intros Hs0 He (K & HK & Hc). apply (state_kernel ig F t ks acts gts Hok) in Hs0 as (K0 & HK0).
  assert (Hg : exists K, nth_error ks s = Some K /\ goto_of ig F K0 X K).
  { destruct X as [a'|k]; simpl in He; [destruct (to_shift _ _ _ _ _ _ Hok _ _ _ _ HK0 He) as (Hx & _)|destruct (to_goto _ _ _ _ _ _ Hok _ _ _ _ HK0 He) as (Hx & _)]; auto. }
  destruct Hg as (K' & HK' & Hg & _). rewrite HK in HK'. injection HK' as <-.
  destruct Hc as [Hq|(Hx & _)]; [|lia]. apply Hg in Hq as (p' & Hp & Hc & Hn).
  assert (p' = p) as -> by lia. split; auto. exists K0. auto.
Qed.

Lemma sitem_root i p : sitem 0 i p -> p = 0.
Proof.
  intros (K & HK & Hc). destruct (to_root _ _ _ _ _ _ Hok) as (K1 & HK1 & HR & _). rewrite HK in HK1. injection HK1 as <-.
  apply HR in Hc. assert (Hz : forall γ i p, core ig γ i p -> γ = [] -> p = 0) by (induction 1; auto; discriminate). eauto.
Qed.

Lemma sitem_start s i : sitem s i 0 -> i <> 0 -> exists r s', nth_error (rules ig) i = Some r /\ gts s (isymbol r) = Some s'.
Proof.
  intros (K & HK & Hc) Hi.
  assert (Hx : exists l, rsym ig i l /\ clabel ig K l).
  { destruct Hc as [(q & Hq & H1 & H2)|(_ & l & Hr & Hc)]; [|eauto].
    destruct (ki_rep _ _ _ (to_kinv _ _ _ _ _ _ Hok _ _ HK)) as (γ & HR & HR2).
    assert (Hc : core ig γ i 0) by (apply HR; left; eauto).
    destruct (to_reach _ _ _ _ _ _ Hok s) as [->|(s' & Hlt & Hx)]; [apply (state_kernel ig F t ks acts gts Hok); eauto| |].
    - destruct (to_root _ _ _ _ _ _ Hok) as (K1 & HK1 & HR1 & _). rewrite HK in HK1. injection HK1 as <-.
      assert (Hc0 : core ig [] i 0) by (apply HR1; left; eauto). remember (@nil inode) as γ0. remember 0 as p0 eqn:Hp0.
      destruct Hc0 as [|γ0 i0 p l j Hc0 Hl Hr|γ0 i0 p X Hc0 Hn]; [congruence| |lia].
      exists l. split; auto. subst γ0. apply HR1 in Hc0. destruct Hc0 as [(q' & Hq' & <- & <-)|(-> & l' & Hr' & Hc')].
      + eapply cl_seed; eauto.
      + eapply cl_step; eauto.
    - exfalso. assert (He : exists X, iedge acts gts s' X s).
      { destruct Hx as [(a' & _ & Hx)|(k & _ & Hx)]; [exists (Terminal a')|exists (Production k)]; auto. }
      destruct He as (X & He). assert (Hs : s < num_states t) by (apply (state_kernel ig F t ks acts gts Hok); eauto).
      assert (Hs' : s' < num_states t) by lia.
      destruct (iedge_kernel ig F t ks acts gts Hok _ _ _ Hs' He) as (_ & _ & K' & HK' & _ & Hq').
      rewrite HK in HK'. injection HK' as <-. destruct (Hq' q Hq) as (p & Hp & _). lia. }
  destruct Hx as (l & (r & Hr & Hs) & Hc'). subst l.
  assert (Hn : exists i' p', icore ig K i' p' /\ nextl ig i' p' = Some (isymbol r)).
  { destruct Hc' as [q l Hq Hl|l j l' Hc' Hr' Hl].
    - exists (production_id q), (pos q). split; auto. left. eauto.
    - exists j, 0. split; auto. right. eauto. }
  destruct Hn as (i' & p' & Hc2 & Hn). apply (nextn_nextl ig Heps) in Hn.
  destruct (to_goto_c _ _ _ _ _ _ Hok _ _ _ _ _ HK Hc2 Hn) as (s' & Hs'). eauto.
Qed.

Lemma sitem_zero s : rootclean ig -> sitem s 0 0 -> s = 0.
Proof.
  intros Hrc Hi. pose proof (sitem_state _ _ _ Hi) as Hs. destruct Hi as (K & HK & Hc).
  destruct (to_reach _ _ _ _ _ _ Hok s Hs) as [|(s' & Hlt & Hx)]; auto. exfalso.
  assert (He : exists X, iedge acts gts s' X s).
  { destruct Hx as [(a' & _ & Hx)|(k & _ & Hx)]; [exists (Terminal a')|exists (Production k)]; auto. }
  destruct He as (X & He). assert (Hs' : s' < num_states t) by lia.
  destruct (iedge_kernel ig F t ks acts gts Hok _ _ _ Hs' He) as (_ & _ & K' & HK' & _ & Hq'). rewrite HK in HK'. injection HK' as <-.
  destruct Hc as [(q & Hq & H1 & H2)|(_ & l & Hr & Hc)]; [destruct (Hq' q Hq) as (p & Hp & _); lia|].
  apply (rsym_0 ig Hwf) in Hr. subst l. remember 0 as z eqn:Hz. destruct Hc as [q l Hq Hl|l j l' Hc' Hr' Hl]; subst; eapply (no_label0 ig Hwf); eauto.
Qed.

Lemma sitem_sbody s i p : sitem s i p -> p <= length (sbody ig i).
Proof.
  intros (K & HK & Hc). destruct (ki_rep _ _ _ (to_kinv _ _ _ _ _ _ Hok _ _ HK)) as (γ & HR & _). apply HR in Hc.
  destruct (core_suffix ig Heps _ _ _ Hc) as (δ & _ & _ & Hl & _).
  assert (Hsp : sbody ig i = strip (firstn p (rnodes ig i)) ++ strip (skipn p (rnodes ig i))) by (unfold sbody; rewrite <- strip_app, firstn_skipn; reflexivity).
  apply (f_equal (@length _)) in Hsp. rewrite app_length in Hsp. lia.
Qed.

Lemma sitem_end s i p : sitem s i p -> nextn ig i p = None -> p = length (sbody ig i).
Proof.
  intros Hi Hn. pose proof (sitem_sbody _ _ _ Hi). rewrite (nextn_sbody ig Heps) in Hn. apply nth_error_None in Hn. lia.
Qed.

Lemma reduce_sitem s a j : s < num_states t -> acts s a = Some (Reduce j) -> j <> 0 /\ sitem s j (length (sbody ig j)).
Proof.
  intros Hs Ha. apply (state_kernel ig F t ks acts gts Hok) in Hs as (K & HK).
  destruct (to_reduce _ _ _ _ _ _ Hok _ _ _ _ HK Ha) as (Hj & p & Hl & Hn). split; auto.
  assert (Hi : sitem s j p).
  { exists K. split; auto. destruct Hl as [(q & Hq & H1 & H2 & _)|(-> & l & Hr & Hc)]; [left; eauto|right; split; auto; exists l; split; auto].
    eapply cfollow_clabel; eauto. }
  rewrite <- (sitem_end _ _ _ Hi Hn). auto.
Qed.

Lemma accept_sitem s a : s < num_states t -> acts s a = Some Accept -> a = EndOfStream /\ sitem s 0 (length (sbody ig 0)).
Proof.
  intros Hs Ha. apply (state_kernel ig F t ks acts gts Hok) in Hs as (K & HK).
  destruct (to_accept _ _ _ _ _ _ Hok _ _ _ HK Ha) as (Hj & p & Hl & Hn). split; auto.
  assert (Hi : sitem s 0 p) by (exists K; auto). rewrite <- (sitem_end _ _ _ Hi Hn). auto.
Qed.
End Items.
