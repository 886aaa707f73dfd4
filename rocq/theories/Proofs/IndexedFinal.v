(** Validation errors are exact; indexing loses nothing. *)
From Coq Require Import Arith Bool String NArith List Lia Permutation.
From Verif Require Import Base.Prelude Spec.Grammar Spec.Validity Spec.Observers Model.Error.
From Verif Require Import Model.BitSet Model.FixedMap Model.Vocabulary Model.IndexedGrammar.
From Verif Require Import Proofs.WP Proofs.BitSetProofs Proofs.FixedMapProofs Proofs.VocabProofs.
From Verif Require Import Proofs.IndexedProofs Proofs.IndexedBuild Proofs.IndexedMain.
Import ListNotations.

Section Final.
Context {bm : BuildMode} {T L : Type} `{EqDec T} `{EqDec L}.

Lemma first_offence_not_clean root (rs : list (rule T L)) b : first_offence root rs b -> ~ Forall (root_clean root) rs.
Proof.
  intros (pre & r & post & -> & _ & Hr) Hf. rewrite Forall_app in Hf. destruct Hf as (_ & Hf).
  inversion Hf as [|? ? (H1 & H2) _]; subst. destruct b; [congruence|tauto].
Qed.

Lemma first_offence_fun root (rs : list (rule T L)) : first_offence root rs true -> first_offence root rs false -> False.
Proof.
  intros (p1 & r1 & q1 & -> & C1 & O1) (p2 & r2 & q2 & Heq & C2 & O2 & O3).
  revert p2 Heq C2. induction p1 as [|x p1 IH]; intros [|y p2] Heq C2; simpl in Heq; injection Heq as -> Heq.
  - congruence.
  - inversion C2 as [|? ? (Hx & _)]; subst. congruence.
  - inversion C1 as [|? ? (_ & Hx)]; subst. tauto.
  - inversion C1; inversion C2; subst. eapply IH; eauto.
Qed.

Lemma indexed_build_total fuel (g : grammar T L) : length g < fuel ->
  match indexed_build fuel g with
  | Ok ig => indexes g ig /\ valid_grammar g
  | Err e => build_error_spec g e
  | _ => False
  end.
Proof.
  intros Hf. pose proof (indexed_build_spec False fuel g (or_intror Hf)) as Hs. unfold wp in Hs.
  destruct (indexed_build fuel g); auto.
Qed.

Ltac uncons := repeat match goal with
  | H1 : ?g = ?a :: ?b, H2 : ?g = ?c :: ?d |- _ => rewrite H1 in H2; injection H2 as <- <-
  end.

Lemma validation_exact fuel (g : grammar T L) : length g < fuel ->
  let res := indexed_build fuel g in
  ((exists ig, res = Ok ig) <-> valid_grammar g) /\
  (res = Err (BuildGrammar EmptyGrammar) <-> g = []) /\
  (res = Err (BuildGrammar RootProductionRepeated) <->
     exists root rest, g = root :: rest /\ first_offence (symbol root) rest true) /\
  (res = Err (BuildGrammar RootProductionReferenced) <->
     exists root rest, g = root :: rest /\ first_offence (symbol root) rest false) /\
  ((exists l, res = Err (UnrecognizedLabel l)) <->
     exists root rest, g = root :: rest /\ Forall (root_clean (symbol root)) rest /\ ~ labels_defined g) /\
  (forall l, res = Err (UnrecognizedLabel l) -> ~ defined g l /\ exists r, In r g /\ uses r l) /\
  ((exists ls, res = Err (BuildGrammar (NotConnected ls))) <->
     exists root rest, g = root :: rest /\ Forall (root_clean (symbol root)) rest /\ labels_defined g /\
       exists l, defined g l /\ ~ reachable g l) /\
  (forall ls, res = Err (BuildGrammar (NotConnected ls)) -> forall l, In l ls <-> defined g l /\ ~ reachable g l) /\
  ((exists ig, res = Ok ig) \/ exists e, res = Err e).
Proof.
  intros Hf res. pose proof (indexed_build_total fuel g Hf) as Hs. fold res in Hs.
  assert (Hundef : forall l, ~ defined g l -> (exists r, In r g /\ uses r l) -> ~ labels_defined g).
  { intros l Hl (r & Hr & Hu) Hd. apply Hl. eapply Hd; eauto. }
  assert (HV : valid_grammar g -> exists root rest, g = root :: rest /\ Forall (root_clean (symbol root)) rest /\
     labels_defined g /\ ~ exists l, defined g l /\ ~ reachable g l).
  { intros (root & rest & Hg & Hc & Hd & Hr). exists root, rest. split; auto. split; auto. split; auto.
    intros (l & Hl & Hn). auto. }
  destruct res as [ig|e|why|] eqn:Hres; [| |tauto|tauto].
  - destruct Hs as (_ & Hv). pose proof (HV Hv) as (root & rest & Hg & Hc & Hd & Hr).
    repeat match goal with |- _ /\ _ => split end; try (split; intros Hx); try discriminate; try (intros; discriminate); eauto.
    + subst g. discriminate.
    + destruct Hx as (root' & rest' & Hg' & Ho). uncons. exfalso. eapply first_offence_not_clean; eauto.
    + destruct Hx as (root' & rest' & Hg' & Ho). uncons. exfalso. eapply first_offence_not_clean; eauto.
    + destruct Hx as (l & Hx). discriminate.
    + destruct Hx as (root' & rest' & Hg' & _ & Hx). tauto.
    + destruct Hx as (l & Hx). discriminate.
    + destruct Hx as (root' & rest' & Hg' & _ & _ & Hx). tauto.
  - assert (Hcases : forall (P : Prop), ~ P -> (e = e -> False) -> P -> False) by tauto. clear Hcases.
    assert (Hnv : ~ valid_grammar g).
    { intros Hv. destruct (HV Hv) as (root & rest & Hg & Hc & Hd & Hr).
      destruct e as [[| | |ls]|l| | | | | |]; simpl in Hs; try tauto.
      - congruence.
      - destruct Hs as (r' & t' & Hg' & Ho). uncons. eapply first_offence_not_clean; eauto.
      - destruct Hs as (r' & t' & Hg' & Ho). uncons. eapply first_offence_not_clean; eauto.
      - destruct Hs as (r' & t' & Hg' & _ & _ & Hne & Hl). destruct ls as [|l ls]; [congruence|]. apply Hr. exists l. apply Hl. simpl. auto.
      - destruct Hs as (r' & t' & Hg' & _ & Hn & Hu). eapply Hundef; eauto. }
    split; [split; [intros (ig & Hx); discriminate|tauto]|].
    split. { split; [intros Hx; injection Hx as ->; auto|]. intros ->. destruct e as [[| | |ls]|l| | | | | |]; simpl in Hs; auto; try tauto;
      destruct Hs as (r' & t' & Hg' & _); discriminate. }
    split. { split; [intros Hx; injection Hx as ->; auto|]. intros (root & rest & Hg & Ho).
      destruct e as [[| | |ls]|l| | | | | |]; simpl in Hs; auto; try tauto; try congruence; exfalso; destruct Hs as (r' & t' & Hg' & Hs); uncons.
      - eapply first_offence_fun; eauto.
      - eapply first_offence_not_clean; eauto; tauto.
      - eapply first_offence_not_clean; eauto; tauto. }
    split. { split; [intros Hx; injection Hx as ->; auto|]. intros (root & rest & Hg & Ho).
      destruct e as [[| | |ls]|l| | | | | |]; simpl in Hs; auto; try tauto; try congruence; exfalso; destruct Hs as (r' & t' & Hg' & Hs); uncons.
      - eapply first_offence_fun; eauto.
      - eapply first_offence_not_clean; eauto; tauto.
      - eapply first_offence_not_clean; eauto; tauto. }
    split. { split.
      - intros (l & Hx). injection Hx as ->. destruct Hs as (r' & t' & Hg' & Hc & Hn & Hu). exists r', t'. split; auto. split; auto. eapply Hundef; eauto.
      - intros (root & rest & Hg & Hc & Hnd).
        destruct e as [[| | |ls]|l| | | | | |]; simpl in Hs; try tauto; try congruence; eauto; exfalso; destruct Hs as (r' & t' & Hg' & Hs); uncons.
        + eapply first_offence_not_clean; eauto.
        + eapply first_offence_not_clean; eauto.
        + tauto. }
    split. { intros l Hx. injection Hx as ->. destruct Hs as (r' & t' & Hg' & Hc & Hn & Hu). auto. }
    split. { split.
      - intros (ls & Hx). injection Hx as ->. destruct Hs as (r' & t' & Hg' & Hc & Hd & Hne & Hl). exists r', t'. split; auto. split; auto. split; auto.
        destruct ls as [|l ls]; [congruence|]. exists l. apply Hl. simpl. auto.
      - intros (root & rest & Hg & Hc & Hd & Hx).
        destruct e as [[| | |ls]|l| | | | | |]; simpl in Hs; try tauto; try congruence; eauto; exfalso; destruct Hs as (r' & t' & Hg' & Hs); uncons.
        + eapply first_offence_not_clean; eauto.
        + eapply first_offence_not_clean; eauto.
        + destruct Hs as (_ & Hn & Hu). eapply Hundef; eauto. }
    split. { intros ls Hx. injection Hx as ->. destruct Hs as (r' & t' & Hg' & Hc & Hd & Hne & Hl). auto. }
    eauto.
Qed.

(** Mapping an indexed node back to the user's. *)
Lemma ilabel_orig ig k l : ilabel ig k l <-> @orig_production_label unit T L ig k = Ok l.
Proof.
  unfold ilabel, orig_production_label, index. destruct (nth_error (rule_metadata ig) k) as [mt|]; simpl; split.
  - intros (m' & Hm & <-). injection Hm as <-. reflexivity.
  - intros Hx. injection Hx as <-. eauto.
  - intros (m' & Hm & _). discriminate.
  - discriminate.
Qed.

Lemma inode_rel_back (ig : indexed_grammar T L) nd nd' : inode_rel ig nd nd' -> node_back (L:=L) ig nd' nd.
Proof.
  destruct nd as [a|l], nd' as [i|k]; simpl; try tauto.
  - destruct a, i; simpl; try tauto. unfold index. intros ->. reflexivity.
  - apply ilabel_orig.
Qed.

Lemma ascending_seq a k : forall i j x y, nth_error (seq a k) i = Some x -> nth_error (seq a k) j = Some y -> i < j -> x < y.
Proof.
  intros i j x y Hi Hj Hlt.
  assert (forall i x, nth_error (seq a k) i = Some x -> x = a + i) as Hs.
  { clear. intros i x Hi. assert (Hl : i < k) by (rewrite <- (seq_length k a); apply nth_error_Some; congruence).
    rewrite (nth_error_nth' _ 0) in Hi by (rewrite seq_length; auto). rewrite seq_nth in Hi by auto. congruence. }
  apply Hs in Hi, Hj. lia.
Qed.

(** Every token of the vocabulary occurs in the grammar. *)
Lemma map_accumM_grow {E S A B} (P : A -> S -> S -> Prop) (Q : S -> S -> Prop) (f : S -> A -> outcome E (S * B)) l s s' bs :
  (forall s, Q s s) -> (forall a b c, Q a b -> Q b c -> Q a c) ->
  (forall s a s' b, In a l -> f s a = Ok (s', b) -> Q s s') ->
  map_accumM f s l = Ok (s', bs) -> Q s s'.
Proof.
  intros Hr Ht. revert s bs. induction l as [|a l IH]; intros s bs Hf Hm; simpl in Hm.
  - injection Hm as <- _. auto.
  - destruct (f s a) as [[s1 b]| | |] eqn:Hfa; simpl in Hm; try discriminate.
    destruct (map_accumM f s1 l) as [[s2 bs']| | |] eqn:Hml; simpl in Hm; try discriminate. injection Hm as <- _.
    eapply Ht; [eapply Hf; [simpl; auto|exact Hfa]|]. eapply IH; eauto. intros; eapply Hf; simpl; eauto.
Qed.

Lemma vocab_occurs fuel (g : grammar T L) ig : indexed_build fuel g = Ok ig ->
  forall t, In t (id_map (ivocab ig)) -> exists r, In r g /\ In (Terminal (Token t)) (rhs r).
Proof.
  set (Q := fun v v' : vocab T => wf_vocab v -> wf_vocab v' /\ forall t, In t (id_map v') -> In t (id_map v) \/
     exists r, In r g /\ In (Terminal (Token t)) (rhs r)).
  assert (Qr : forall v, Q v v) by (intros v Hv; auto).
  assert (Qt : forall a b c, Q a b -> Q b c -> Q a c).
  { intros a b c H1 H2 Ha. destruct (H1 Ha) as (Hb & Hi1). destruct (H2 Hb) as (Hc & Hi2). split; auto.
    intros t Ht. destruct (Hi2 t Ht); auto. }
  unfold indexed_build, build_from_grammar. destruct g as [|root rest]; [discriminate|].
  cbn [length seq combine].
  pose proof (grouping_spec root (combine rest (seq 1 (length rest))) [(root, 0)]
                ([(symbol root, root_production_label)], [(symbol root, [(root, 0)])])) as HG.
  destruct (foldM _ _ _) as [[lm gs]|e|why|] eqn:Hfold; cbn [bind]; try discriminate.
  assert (Hinit : group_inv [(root, 0)] ([(symbol root, root_production_label)], [(symbol root, [(root, 0)])])).
  { unfold group_inv. simpl. split; [repeat constructor; simpl; tauto|]. split; [auto|]. split; [|split].
    - intros k l rs Hk. destruct k as [|k]; simpl in Hk; [|destruct k; discriminate]. injection Hk as <- <-.
      simpl. unfold sym_is. simpl. rewrite eqb_refl. auto.
    - intros p [<-|[]]. auto.
    - intros l [<-|[]]. exists (root, 0). auto. }
  destruct (HG Hinit) as ((_ & _ & Hgs & _) & _). clear HG.
  destruct (map_accumM (index_group lm) vocab_empty (enumerate gs)) as [[v rss]| | |] eqn:Hm; cbn [bind]; try discriminate.
  destruct (verify_connected _ _ _); cbn [bind]; try discriminate. intros Hi. injection Hi as <-. simpl.
  assert (HQ : Q vocab_empty v).
  { eapply (map_accumM_grow (fun _ _ _ => True) Q); [auto|exact Qt| |exact Hm].
    intros s [k [l rs]] s' b Hin Hg. unfold index_group in Hg. simpl in Hg.
    eapply (map_accumM_grow (fun _ _ _ => True) Q); [auto|exact Qt| |exact Hg].
    intros s1 [r oi] s1' b1 Hin1 Hr. unfold index_rule in Hr.
    destruct (map_accumM (index_node lm) s1 (rhs r)) as [[v1 ns]| | |] eqn:Hn; simpl in Hr; try discriminate.
    injection Hr as <- <-.
    assert (Hrin : In r (root :: rest)).
    { apply In_nth_error in Hin as (k' & Hk'). apply nth_error_enumerate in Hk' as (_ & Hk'). simpl in Hk'.
      rewrite (Hgs _ _ _ Hk') in Hin1. apply filter_In in Hin1 as (Hin1 & _). apply in_app_or in Hin1 as [[Hx|[]]|Hx].
      - injection Hx as <- <-. simpl. auto.
      - apply in_combine_l in Hx. simpl. auto. }
    eapply (map_accumM_grow (fun _ _ _ => True) Q); [auto|exact Qt| |exact Hn].
    intros s2 nd s2' b2 Hnd Hx Hwf. destruct nd as [a0|l2]; simpl in Hx.
    - pose proof (get_id_or_insert_spec s2 a0 Hwf) as Hg2. destruct (get_id_or_insert s2 a0) as [v2 i2].
      injection Hx as <- <-. destruct Hg2 as (Hw2 & _ & _ & Hi2). split; auto. intros t Ht. apply Hi2 in Ht as [| ->]; auto.
      right. exists r. auto.
    - destruct (hm_get l2 lm); [|discriminate]. injection Hx as <- <-. auto. }
  intros t Ht. destruct (HQ wf_vocab_empty) as (_ & HQ'). destruct (HQ' t Ht) as [[]|]; auto.
Qed.

Lemma indexing_lossless fuel (g : grammar T L) ig : indexed_build fuel g = Ok ig ->
  length (rules ig) = length g /\
  (forall i r, nth_error g i = Some r ->
     exists j, forall j', (exists ir, nth_error (rules ig) j' = Some ir /\ original_index ir = i) <-> j' = j) /\
  (forall j ir, nth_error (rules ig) j = Some ir ->
     exists r, nth_error g (original_index ir) = Some r /\
       @orig_production_label unit T L ig (isymbol ir) = Ok (symbol r) /\
       Forall2 (node_back ig) (irhs ir) (rhs r)) /\
  (exists ir, nth_error (rules ig) 0 = Some ir /\ original_index ir = 0 /\ isymbol ir = 0) /\
  (forall l, l < labels_count ig -> exists start len,
     @production_rule_ids_for_label unit T L ig l = Ok (seq start len) /\
     (forall j ir, nth_error (rules ig) j = Some ir -> (In j (seq start len) <-> isymbol ir = l)) /\
     (forall j j' ir ir', nth_error (rules ig) j = Some ir -> nth_error (rules ig) j' = Some ir' ->
        In j (seq start len) -> In j' (seq start len) -> j < j' -> original_index ir < original_index ir')) /\
  (forall k k' l, @orig_production_label unit T L ig k = Ok l -> @orig_production_label unit T L ig k' = Ok l -> k = k') /\
  (forall t, (exists i, token_to_id (ivocab ig) t = Some i) <-> exists r, In r g /\ In (Terminal (Token t)) (rhs r)).
Proof.
  intros Hb. pose proof (indexed_build_spec True fuel g (or_introl I)) as Hs. rewrite Hb in Hs. destruct Hs as (Hix & Hv).
  split; [apply ix_length; auto|]. split; [|split; [|split; [|split; [|split]]]].
  - intros i r Hi. destruct (ix_rule_fwd g ig Hix i r Hi) as (j & ir & Hj & Hr). exists j. intros j'. split.
    + intros (ir' & Hj' & Ho). apply (ix_orig_inj g ig Hix j' j ir' ir); auto. rewrite Ho. symmetry. apply Hr.
    + intros ->. exists ir. split; auto. apply Hr.
  - intros j ir Hj. destruct (ix_rule_bwd g ig Hix j ir Hj) as (r & Hr & H1 & _ & H2). exists r. split; auto. split.
    + apply ilabel_orig. auto.
    + simpl in H2. clear -H2. induction H2; constructor; auto. apply inode_rel_back; auto.
  - destruct (wf_root _ (ix_wf _ _ Hix)) as (r & mt & Hr & Hs & _). exists r. split; auto. split; auto. apply (ix_root _ _ Hix); auto.
  - intros l Hl. unfold labels_count in Hl. apply nth_error_Some in Hl. destruct (nth_error (rule_metadata ig) l) as [mt|] eqn:Hm; [|congruence].
    destruct (wf_meta _ (ix_wf _ _ Hix) l mt Hm) as (H1 & H2 & H3).
    exists (start_index mt), (end_index mt - start_index mt).
    assert (Hin : forall j, In j (seq (start_index mt) (end_index mt - start_index mt)) <-> start_index mt <= j < end_index mt).
    { intros j. rewrite in_seq. lia. }
    split; [unfold production_rule_ids_for_label, index; rewrite Hm; reflexivity|]. split.
    + intros j ir Hj. rewrite Hin. symmetry. apply (H3 _ _ Hj).
    + intros j j' ir ir' Hj Hj' Hi Hi' Hlt. rewrite Hin, <- (H3 _ _ Hj) in Hi. rewrite Hin, <- (H3 _ _ Hj') in Hi'.
      apply (ix_order _ _ Hix j j'); auto. congruence.
  - intros k k' l H1 H2. apply ilabel_orig in H1, H2. apply (ilabel_inj g ig Hix k k' l); auto.
  - intros t. split.
    + intros (i & Hi). apply (token_to_id_spec _ _ _ (wf_voc _ (ix_wf _ _ Hix))) in Hi.
      apply (vocab_occurs fuel g ig); auto. eapply nth_error_In; eauto.
    + intros (r & Hr & Ht). apply In_nth_error in Hr as (i & Hi).
      destruct (ix_rule_fwd g ig Hix i r Hi) as (j & ir & Hj & _ & _ & Hf).
      destruct (Forall2_in_l _ _ _ _ Hf Ht) as ([[k| |]|] & _ & Hk); simpl in Hk; try tauto.
      exists k. apply (token_to_id_spec _ _ _ (wf_voc _ (ix_wf _ _ Hix))). auto.
Qed.

End Final.
