(** [IndexedGrammar::build]: main specification, and transfer of derivations
    between a grammar and its indexed form. *)
From Coq Require Import Arith Bool String NArith List Lia Permutation.
From Verif Require Import Base.Prelude Spec.Grammar Spec.Validity Model.Error.
From Verif Require Import Model.BitSet Model.FixedMap Model.Vocabulary Model.IndexedGrammar.
From Verif Require Import Proofs.WP Proofs.BitSetProofs Proofs.FixedMapProofs Proofs.VocabProofs.
From Verif Require Import Proofs.IndexedProofs Proofs.IndexedBuild.
Import ListNotations.

(** The indexed grammar seen as a grammar over token ids and label numbers. *)
Definition igram {T L} (ig : indexed_grammar T L) : grammar nat nat := map irule (rules ig).

Section Transfer.
Context {T L : Type} `{EqDec T} `{EqDec L}.
Variable g : grammar T L.
Variable ig : indexed_grammar T L.
Hypothesis Hix : indexes g ig.

Lemma ilabel_fun k l l' : ilabel ig k l -> ilabel ig k l' -> l = l'.
Proof. intros (m & Hm & <-) (m' & Hm' & <-). congruence. Qed.

Lemma ilabel_inj k k' l : ilabel ig k l -> ilabel ig k' l -> k = k'.
Proof.
  intros (m & Hm & He) (m' & Hm' & He'). pose proof (wf_labels _ (ix_wf _ _ Hix)) as Hn.
  rewrite NoDup_nth_error in Hn. apply Hn.
  - rewrite map_length. apply nth_error_Some. congruence.
  - rewrite !nth_error_map, Hm, Hm'. simpl. congruence.
Qed.

Lemma ilabel_bound k l : ilabel ig k l -> k < labels_count ig.
Proof. intros (m & Hm & _). apply nth_error_Some. unfold labels_count. congruence. Qed.

Lemma ilabel_total k : k < labels_count ig -> exists l, ilabel ig k l.
Proof.
  intros Hk. unfold labels_count in Hk. apply nth_error_Some in Hk.
  destruct (nth_error (rule_metadata ig) k) as [m|] eqn:Hm; [|congruence]. exists (original_label m), m. auto.
Qed.

Lemma ix_rule_fwd i r : nth_error g i = Some r ->
  exists j ir, nth_error (rules ig) j = Some ir /\ irule_rel ig (r, i) ir.
Proof.
  intros Hr. destruct (ix_ps _ _ Hix) as (ps & Hp & Hf).
  assert (Hin : In (r, i) (combine g (seq 0 (length g)))).
  { apply in_combine_seq. rewrite Nat.sub_0_r. split; [lia|auto]. }
  apply (Permutation_in _ (Permutation_sym Hp)) in Hin.
  destruct (Forall2_in_l _ _ _ _ Hf Hin) as (ir & Hir & Hrel).
  apply In_nth_error in Hir as (j & Hj). eauto.
Qed.

Lemma ix_rule_bwd j ir : nth_error (rules ig) j = Some ir ->
  exists r, nth_error g (original_index ir) = Some r /\ irule_rel ig (r, original_index ir) ir.
Proof.
  intros Hj. destruct (ix_ps _ _ Hix) as (ps & Hp & Hf).
  apply nth_error_In in Hj. destruct (Forall2_in_r _ _ _ _ Hf Hj) as ([r i] & Hin & Hrel).
  apply (Permutation_in _ Hp) in Hin. apply in_combine_seq in Hin as (_ & Hin). rewrite Nat.sub_0_r in Hin.
  pose proof Hrel as (_ & Ho & _). simpl in Ho. rewrite Ho. eauto.
Qed.

Lemma ix_orig_inj j j' ir ir' : nth_error (rules ig) j = Some ir -> nth_error (rules ig) j' = Some ir' ->
  original_index ir = original_index ir' -> j = j'.
Proof.
  intros Hj Hj' He. destruct (ix_ps _ _ Hix) as (ps & Hp & Hf).
  assert (Hn : NoDup (map original_index (rules ig))).
  { assert (Heq : map original_index (rules ig) = map snd ps).
    { clear -Hf. induction Hf as [|p r ps rs (_ & Ho & _) Hf IH]; simpl; congruence. }
    rewrite Heq. eapply Permutation_NoDup; [apply Permutation_map, Permutation_sym, Hp|].
    rewrite map_snd_combine by (rewrite seq_length; auto). apply seq_NoDup. }
  rewrite NoDup_nth_error in Hn. apply Hn.
  - rewrite map_length. apply nth_error_Some. congruence.
  - rewrite !nth_error_map, Hj, Hj'. simpl. congruence.
Qed.

Lemma ix_length : length (rules ig) = length g.
Proof.
  destruct (ix_ps _ _ Hix) as (ps & Hp & Hf). apply Forall2_len in Hf. apply Permutation_length in Hp.
  rewrite combine_length, seq_length in Hp. lia.
Qed.

Lemma ix_labels_le : labels_count ig <= length g.
Proof.
  rewrite <- ix_length. pose proof (ix_wf _ _ Hix) as Hwf.
  assert (Hinc : incl (seq 0 (labels_count ig)) (map isymbol (rules ig))).
  { intros l Hl. apply in_seq in Hl. assert (Hlt : l < labels_count ig) by lia. unfold labels_count in Hlt.
    apply nth_error_Some in Hlt. destruct (nth_error (rule_metadata ig) l) as [m|] eqn:Hm; [|congruence].
    destruct (wf_meta _ Hwf _ _ Hm) as (H1 & H2 & H3).
    assert (Hs : start_index m < length (rules ig)) by lia. apply nth_error_Some in Hs.
    destruct (nth_error (rules ig) (start_index m)) as [r|] eqn:Hr; [|congruence].
    apply in_map_iff. exists r. split; [apply (H3 _ _ Hr); lia|eapply nth_error_In; eauto]. }
  apply NoDup_incl_length in Hinc; [|apply seq_NoDup]. rewrite seq_length, map_length in Hinc. auto.
Qed.

Lemma ix_root_rule : exists r ir, nth_error g 0 = Some r /\ nth_error (rules ig) 0 = Some ir /\ irule_rel ig (r, 0) ir.
Proof.
  destruct (wf_root _ (ix_wf _ _ Hix)) as (ir & m & Hr & _).
  pose proof (ix_root _ _ Hix _ Hr) as Ho. destruct (ix_rule_bwd _ _ Hr) as (r & Hg & Hrel).
  rewrite Ho in *. eauto.
Qed.

Lemma inode_rel_prod l ns k : inode_rel ig (Production l) k -> ns = k -> exists j, k = Production j /\ ilabel ig j l.
Proof. intros Hr _. destruct k as [a|j]; simpl in Hr; [tauto|eauto]. Qed.

(** Reachability agrees. *)
Lemma defined_ilabel l : defined g l <-> exists k, ilabel ig k l.
Proof.
  split.
  - intros (r & Hr & <-). apply In_nth_error in Hr as (i & Hr).
    destruct (ix_rule_fwd _ _ Hr) as (j & ir & _ & Hl & _). eauto.
  - intros (k & Hk). pose proof (ilabel_bound _ _ Hk) as Hlt.
    destruct (@production_rule_ids_ok unit T L _ ig (ix_wf _ _ Hix) k Hlt) as (ids & _ & _ & Hne & Hids).
    destruct ids as [|i ids]; [congruence|]. destruct (proj1 (Hids i)) as (ir & Hir & Hs); [simpl; auto|].
    destruct (ix_rule_bwd _ _ Hir) as (r & Hr & Hl & _). exists r. split; [eapply nth_error_In; eauto|].
    simpl in Hl. rewrite Hs in Hl. eapply ilabel_fun; eauto.
Qed.

Lemma ireach_reachable k l : ilabel ig k l -> (ireach ig k <-> reachable g l).
Proof.
  intros Hk. split.
  - intros Hr. revert l Hk. induction Hr as [|ir k Hr IH Hin Hu]; intros l Hk.
    + destruct ix_root_rule as (r & ir & Hg & Hir & Hl & _). simpl in Hl.
      destruct (wf_root _ (ix_wf _ _ Hix)) as (ir' & m & Hr' & Hs & _). rewrite Hir in Hr'. injection Hr' as <-.
      rewrite Hs in Hl. rewrite <- (ilabel_fun _ _ _ Hl Hk).
      destruct g as [|r' rest]; [discriminate|]. simpl in Hg. injection Hg as ->. econstructor. reflexivity.
    + apply In_nth_error in Hin as (j & Hin). destruct (ix_rule_bwd _ _ Hin) as (r & Hg & Hl & _ & Hns).
      destruct (Forall2_in_r _ _ _ _ Hns Hu) as ([a|u] & Hu' & Hx); [destruct Hx|].
      simpl in Hx. rewrite <- (ilabel_fun _ _ _ Hx Hk).
      eapply reachable_use; [apply IH; exact Hl| |exact Hu']. eapply nth_error_In; eauto.
  - intros Hr. revert k Hk. induction Hr as [r rest Hg|r l Hr IH Hin Hu]; intros k Hk.
    + destruct ix_root_rule as (r' & ir & Hg' & Hir & Hl & _). simpl in Hl.
      assert (r' = r) as -> by (clear IHHr || idtac; rewrite Hg in Hg'; simpl in Hg'; congruence).
      destruct (wf_root _ (ix_wf _ _ Hix)) as (ir' & m & Hr' & Hs & _). rewrite Hir in Hr'. injection Hr' as <-.
      rewrite (ilabel_inj _ _ _ Hk Hl), Hs. constructor.
    + apply In_nth_error in Hin as (i & Hin). destruct (ix_rule_fwd _ _ Hin) as (j & ir & Hir & Hl & _ & Hns).
      destruct (Forall2_in_l _ _ _ _ Hns Hu) as ([a|k'] & Hu' & Hx); [destruct Hx|].
      simpl in Hx. rewrite (ilabel_inj _ _ _ Hk Hx).
      eapply ireach_use; [apply IH; exact Hl| |exact Hu']. eapply nth_error_In; eauto.
Qed.

(** Derivations. *)
Definition tok_rel (t : T) (i : nat) : Prop := nth_error (id_map (ivocab ig)) i = Some t.

Inductive tree_rel : tree T -> tree nat -> Prop :=
| tree_rel_leaf t i : tok_rel t i -> tree_rel (Leaf t) (Leaf i)
| tree_rel_node j ir ts ts' : nth_error (rules ig) j = Some ir ->
    Forall2 tree_rel ts ts' -> tree_rel (Node (original_index ir) ts) (Node j ts').

Lemma igram_nth j r : nth_error (igram ig) j = Some r <-> exists ir, nth_error (rules ig) j = Some ir /\ irule ir = r.
Proof.
  unfold igram. rewrite nth_error_map. destruct (nth_error (rules ig) j) as [ir|]; simpl; split.
  - intros He. exists ir. split; congruence.
  - intros (ir' & He & <-). congruence.
  - discriminate.
  - intros (ir' & He & _). discriminate.
Qed.

Lemma derives_bwd ns' w' ts' : derives (igram ig) ns' w' ts' ->
  forall ns, Forall2 (inode_rel ig) ns ns' ->
  exists w ts, derives g ns w ts /\ Forall2 tok_rel w w' /\ Forall2 tree_rel ts ts'.
Proof.
  induction 1 as [|t ns' w' ts' Hd IH|ns' w' ts' Hd IH|j r ts1 w1 ns' w2 ts2 Hj Hd1 IH1 Hd2 IH2]; intros ns Hns.
  - inversion Hns; subst. exists [], []. repeat constructor.
  - inversion Hns as [|n ? ns0 ? Hn Hns0]; subst. destruct n as [[u| |]|l]; simpl in Hn; try tauto.
    destruct (IH _ Hns0) as (w & ts & D & W & Tr). exists (u :: w), (Leaf u :: ts).
    split; [constructor; auto|]. split; constructor; auto. constructor. auto.
  - inversion Hns as [|n ? ns0 ? Hn Hns0]; subst. destruct n as [[u| |]|l]; simpl in Hn; try tauto.
    destruct (IH _ Hns0) as (w & ts & D & W & Tr). exists w, ts. split; [constructor; auto|]. auto.
  - inversion Hns as [|n ? ns0 ? Hn Hns0]; subst. destruct n as [a|l]; simpl in Hn; [tauto|].
    apply igram_nth in Hj as (ir & Hir & <-). destruct (ix_rule_bwd _ _ Hir) as (r & Hr & Hl & _ & Hrel). simpl in *.
    destruct (IH1 _ Hrel) as (w1' & ts1' & D1 & W1 & T1). destruct (IH2 _ Hns0) as (w2' & ts2' & D2 & W2 & T2).
    exists (w1' ++ w2'), (Node (original_index ir) ts1' :: ts2').
    rewrite (ilabel_fun _ _ _ Hn Hl). split; [econstructor; eauto|].
    split; [apply Forall2_app; auto|]. constructor; auto. econstructor; eauto.
Qed.

Lemma derives_fwd ns w ts : derives g ns w ts ->
  forall ns', Forall2 (inode_rel ig) ns ns' ->
  exists w' ts', derives (igram ig) ns' w' ts' /\ Forall2 tok_rel w w' /\ Forall2 tree_rel ts ts'.
Proof.
  induction 1 as [|t ns w ts Hd IH|ns w ts Hd IH|i r ts1 w1 ns w2 ts2 Hi Hd1 IH1 Hd2 IH2]; intros ns' Hns.
  - inversion Hns; subst. exists [], []. repeat constructor.
  - inversion Hns as [|? n ? ns0 Hn Hns0]; subst. destruct n as [[u| |]|l]; simpl in Hn; try tauto.
    destruct (IH _ Hns0) as (w' & ts' & D & W & Tr). exists (u :: w'), (Leaf u :: ts').
    split; [constructor; auto|]. split; constructor; auto. constructor. auto.
  - inversion Hns as [|? n ? ns0 Hn Hns0]; subst. destruct n as [[u| |]|l]; simpl in Hn; try tauto.
    destruct (IH _ Hns0) as (w' & ts' & D & W & Tr). exists w', ts'. split; [constructor; auto|]. auto.
  - inversion Hns as [|? n ? ns0 Hn Hns0]; subst. destruct n as [a|k]; simpl in Hn; [tauto|].
    destruct (ix_rule_fwd _ _ Hi) as (j & ir & Hir & Hl & Ho & Hrel). simpl in *.
    destruct (IH1 _ Hrel) as (w1' & ts1' & D1 & W1 & T1). destruct (IH2 _ Hns0) as (w2' & ts2' & D2 & W2 & T2).
    exists (w1' ++ w2'), (Node j ts1' :: ts2').
    rewrite (ilabel_inj _ _ _ Hn Hl). split; [|split].
    + change (isymbol ir) with (symbol (irule ir)). econstructor; eauto. apply igram_nth. eauto.
    + apply Forall2_app; auto.
    + constructor; auto. rewrite <- Ho. econstructor; eauto.
Qed.

Lemma parses_bwd w' t' : parses (igram ig) w' t' -> exists w t, parses g w t /\ Forall2 tok_rel w w' /\ tree_rel t t'.
Proof.
  intros (r' & ts' & Hr & Hd & ->). destruct ix_root_rule as (r & ir & Hg & Hir & _ & Ho & Hrel).
  apply igram_nth in Hr as (ir' & Hir' & <-). rewrite Hir in Hir'. injection Hir' as <-.
  destruct (derives_bwd _ _ _ Hd _ Hrel) as (w & ts & D & W & Tr).
  exists w, (Node 0 ts). split; [exists r, ts; auto|]. split; [auto|]. simpl in Ho. rewrite <- Ho at 1. econstructor; eauto.
Qed.

Lemma parses_fwd w t : parses g w t -> exists w' t', parses (igram ig) w' t' /\ Forall2 tok_rel w w' /\ tree_rel t t'.
Proof.
  intros (r0 & ts & Hr & Hd & ->). destruct ix_root_rule as (r & ir & Hg & Hir & _ & Ho & Hrel).
  rewrite Hr in Hg. injection Hg as ->. simpl in *.
  destruct (derives_fwd _ _ _ Hd _ Hrel) as (w' & ts' & D & W & Tr).
  exists w', (Node 0 ts'). split.
  - exists (irule ir), ts'. split; [|auto]. apply igram_nth. eauto.
  - split; [auto|]. rewrite <- Ho at 1. econstructor; eauto.
Qed.

Lemma tok_rel_fun_l t t' i : tok_rel t i -> tok_rel t' i -> t = t'.
Proof. unfold tok_rel. congruence. Qed.

Lemma tok_rel_inj t i i' : tok_rel t i -> tok_rel t i' -> i = i'.
Proof.
  unfold tok_rel. intros H1 H2. destruct (wf_voc _ (ix_wf _ _ Hix)) as (Hn & _).
  rewrite NoDup_nth_error in Hn. apply Hn; [|congruence]. apply nth_error_Some. congruence.
Qed.

Lemma toks_rel_fun_l w w' i : Forall2 tok_rel w i -> Forall2 tok_rel w' i -> w = w'.
Proof.
  intros Hw. revert w'. induction Hw; intros w' Hw'; inversion Hw'; subst; auto.
  f_equal; auto. eapply tok_rel_fun_l; eauto.
Qed.

Lemma toks_rel_inj w i i' : Forall2 tok_rel w i -> Forall2 tok_rel w i' -> i = i'.
Proof.
  intros Hw. revert i'. induction Hw; intros w' Hw'; inversion Hw'; subst; auto.
  f_equal; auto. eapply tok_rel_inj; eauto.
Qed.

Lemma no_eos_ig : no_eos g -> no_eos (igram ig).
Proof.
  intros Hn r Hr Hin. apply in_map_iff in Hr as (ir & <- & Hir). apply In_nth_error in Hir as (j & Hj).
  destruct (ix_rule_bwd _ _ Hj) as (r & Hr & _ & _ & Hns).
  destruct (Forall2_in_r _ _ _ _ Hns Hin) as ([[| |]|] & Hu & Hx); simpl in Hx; try tauto.
  apply nth_error_In in Hr. eapply Hn; eauto.
Qed.

Lemma Forall2_app_inv_r' {A B} (P : A -> B -> Prop) l l1 l2 : Forall2 P l (l1 ++ l2) ->
  exists k1 k2, l = k1 ++ k2 /\ Forall2 P k1 l1 /\ Forall2 P k2 l2.
Proof. intros Hf. apply Forall2_app_inv_r in Hf as (k1 & k2 & ? & ? & ?). eauto. Qed.

Lemma eps_trailing_ig : eps_trailing g -> eps_trailing (igram ig).
Proof.
  intros He r Hr ns1 ns2 n Hrhs Hin. apply in_map_iff in Hr as (ir & <- & Hir). apply In_nth_error in Hir as (j & Hj).
  destruct (ix_rule_bwd _ _ Hj) as (r & Hr & _ & _ & Hns). simpl in Hns.
  unfold irhs in Hns. rewrite Hrhs in Hns. apply Forall2_app_inv_r' in Hns as (k1 & k2 & Hk & F1 & F2).
  inversion F2 as [|e ? k2' ? Hx F3]; subst. destruct e as [[| |]|]; simpl in Hx; try tauto.
  destruct (Forall2_in_r _ _ _ _ F3 Hin) as (m & Hm & Hrel).
  apply nth_error_In in Hr. rewrite (He _ Hr k1 k2' m Hk Hm) in Hrel.
  destruct n as [[| |]|]; simpl in Hrel; tauto.
Qed.

End Transfer.

Section Main.
Context {bm : BuildMode} {T L : Type} `{EqDec T} `{EqDec L}.

Definition build_error_spec (g : grammar T L) (e : lr_error T L) : Prop :=
  match e with
  | BuildGrammar EmptyGrammar => g = []
  | BuildGrammar RootProductionRepeated =>
      exists root rest, g = root :: rest /\ first_offence (symbol root) rest true
  | BuildGrammar RootProductionReferenced =>
      exists root rest, g = root :: rest /\ first_offence (symbol root) rest false
  | UnrecognizedLabel l =>
      exists root rest, g = root :: rest /\ Forall (root_clean (symbol root)) rest /\
        ~ defined g l /\ exists r, In r g /\ uses r l
  | BuildGrammar (NotConnected ls) =>
      exists root rest, g = root :: rest /\ Forall (root_clean (symbol root)) rest /\
        labels_defined g /\ ls <> [] /\ forall l, In l ls <-> defined g l /\ ~ reachable g l
  | _ => False
  end.

Lemma combine_seq_fst {A} (l : list A) n : map fst (combine l (seq n (length l))) = l.
Proof. apply map_fst_combine. rewrite seq_length. auto. Qed.

Lemma indexes_labels_defined (g : grammar T L) ig : indexes g ig -> labels_defined g.
Proof.
  intros Hix r l Hr Hu. apply In_nth_error in Hr as (i & Hr).
  destruct (ix_rule_fwd _ _ Hix _ _ Hr) as (j & ir & Hir & _ & _ & Hns).
  destruct (Forall2_in_l _ _ _ _ Hns Hu) as ([a|k] & _ & Hx); [destruct Hx|]. simpl in Hx.
  eapply defined_ilabel; eauto.
Qed.

Theorem build_from_grammar_spec Dv fuel (g : grammar T L) :
  (Dv \/ length g < fuel) ->
  wp False Dv (build_from_grammar fuel g) (fun '(ig, lm) => indexes g ig /\ valid_grammar g /\
       forall l k, hm_get l lm = Some k <-> ilabel ig k l) (build_error_spec g).
Proof.
  intros Hfuel. unfold build_from_grammar. destruct g as [|root rest]; [reflexivity|].
  cbn [length seq combine].
  pose proof (grouping_spec root (combine rest (seq 1 (length rest))) [(root, 0)]
                ([(symbol root, root_production_label)], [(symbol root, [(root, 0)])])) as HG.
  assert (Hinit : group_inv [(root, 0)] ([(symbol root, root_production_label)], [(symbol root, [(root, 0)])])).
  { unfold group_inv. simpl. split; [repeat constructor; simpl; tauto|]. split; [auto|]. split; [|split].
    - intros k l rs Hk. destruct k as [|k]; simpl in Hk; [|destruct k; discriminate]. injection Hk as <- <-.
      simpl. unfold sym_is. simpl. rewrite eqb_refl. auto.
    - intros p [<-|[]]. auto.
    - intros l [<-|[]]. exists (root, 0). auto. }
  specialize (HG Hinit). clear Hinit.
  destruct (foldM _ _ _) as [[lm gs]|e|why|] eqn:Hfold; cbn [bind].
  2:{ destruct e as [[]| | | | | | | ]; try tauto; rewrite combine_seq_fst in HG; simpl; eauto. }
  2:{ destruct HG. } 2:{ destruct HG. }
  destruct HG as (Hinv & Hclean & Hkeep).
  assert (Hclean' : Forall (root_clean (symbol root)) rest).
  { rewrite <- (combine_seq_fst rest 1), Forall_map. auto. }
  assert (Hgs0 : nth_error gs 0 = Some (symbol root, [(root, 0)])) by (apply (Hkeep 0 (symbol root, [(root, 0)])); reflexivity).
  clear Hkeep Hclean Hfold.
  change ([(root, 0)] ++ combine rest (seq 1 (length rest))) with ((root, 0) :: combine rest (seq 1 (length rest))) in Hinv.
  assert (Hgs : forall p, In p (concat (map snd gs)) <-> In p ((root, 0) :: combine rest (seq 1 (length rest)))).
  { destruct Hinv as (Hn & Hlm & Hg & Hd & Hl).
    intros p. rewrite (groups_concat gs _ Hg).
    pose proof (groups_perm _ _ Hn Hd) as Hpp.
    split; intros Hp; [eapply Permutation_in; [exact Hpp|exact Hp]|eapply Permutation_in; [apply Permutation_sym, Hpp|exact Hp]]. }
  apply wp_bind. eapply wp_mono.
  { eapply wp_mono; [|intros a Ha; exact Ha|intros e He; exact He].
    pose proof (index_groups_spec lm (enumerate gs)) as Hi.
    destruct (map_accumM _ _ _); simpl in *; tauto || exact Hi. }
  - intros [v rss] (Hv & _ & Hrel).
    destruct (build_groups_ok root rest lm gs v rss Hinv Hgs0 Hclean' Hv Hrel) as (Hix & Hlm1 & Hlm2).
    set (ig := mk_indexed (concat rss) (scan_metadata 0 gs) v) in *.
    apply wp_bind.
    assert (Hlc : labels_count ig = length gs) by (unfold labels_count; simpl; apply scan_metadata_length).
    eapply wp_mono; [apply (verify_connected_ok ig (ix_wf _ _ Hix))| |].
    + destruct Hfuel as [|Hf]; auto. right. pose proof (ix_labels_le _ _ Hix). lia.
    + intros p Hp. rewrite Hlc. auto.
    + intros l Hl. destruct (ilabel_total _ _ Hl) as (u & Hu). exists u. apply Hlm2. auto.
    + intros [] Hall. simpl. split; [auto|]. split.
      * exists root, rest. split; [auto|]. split; [auto|]. split; [eapply indexes_labels_defined; eauto|].
        intros l Hl. apply (defined_ilabel _ _ Hix) in Hl as (k & Hk).
        apply (ireach_reachable _ _ Hix _ _ Hk). apply Hall. eapply ilabel_bound; eauto.
      * intros l k. rewrite <- Hlm2. destruct Hinv as (Hn & Hlm & _).
        rewrite Hlm, (hm_get_numbered0 _ _ _ Hn), in_combine_seq, Nat.sub_0_r. intuition lia.
    + intros e (ls & -> & Hne & Hls). simpl. exists root, rest. split; [auto|]. split; [auto|].
      split; [eapply indexes_labels_defined; eauto|]. split; [auto|].
      intros u. rewrite Hls. split.
      * intros (k & Hk & Hr). apply Hlm2 in Hk. split; [eapply defined_ilabel; eauto|].
        rewrite <- (ireach_reachable _ _ Hix _ _ Hk). auto.
      * intros (Hd & Hr). apply (defined_ilabel _ _ Hix) in Hd as (k & Hk). exists k.
        split; [apply Hlm2; auto|]. rewrite (ireach_reachable _ _ Hix _ _ Hk). auto.
  - intros e (grp & p & Hgrp & Hp & l & -> & Hu & Hget). simpl. exists root, rest. split; [auto|]. split; [auto|].
    assert (Hpd : In p ((root, 0) :: combine rest (seq 1 (length rest)))).
    { apply Hgs. apply in_concat. exists (snd (snd grp)). split; auto. apply in_map.
      destruct grp as [k x]. apply in_combine_r in Hgrp. auto. }
    split.
    + intros (r & Hr & <-). destruct Hinv as (Hn & Hlm & _ & Hd & _).
      assert (exists i, In (r, i) ((root, 0) :: combine rest (seq 1 (length rest)))) as (i & Hi).
      { change ((root, 0) :: combine rest (seq 1 (length rest))) with (combine (root :: rest) (seq 0 (length (root :: rest)))).
        apply In_nth_error in Hr as (i & Hr). exists i. apply in_combine_seq. rewrite Nat.sub_0_r. split; [lia|auto]. }
      apply Hd in Hi. simpl in Hi. apply hm_get_none in Hget. apply Hget. rewrite Hlm, numbered_keys. auto.
    + exists (fst p). split; [|auto]. destruct Hpd as [<-|Hpd]; [simpl; auto|]. right. destruct p. eapply in_combine_l; eauto.
Qed.

Theorem indexed_build_spec Dv fuel (g : grammar T L) :
  (Dv \/ length g < fuel) ->
  wp False Dv (indexed_build fuel g) (fun ig => indexes g ig /\ valid_grammar g) (build_error_spec g).
Proof.
  intros Hf. unfold indexed_build. apply wp_bind. eapply wp_conseq; [apply build_from_grammar_spec; auto|].
  intros [ig lm] (H1 & H2 & _). simpl. auto.
Qed.

End Main.
