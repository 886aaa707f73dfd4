(** The finished table: its states and its accessors. *)
From Coq Require Import Arith Bool String NArith List Lia Permutation FinFun.
From Verif Require Import Base.Prelude Spec.Grammar Spec.Validity Spec.Nullable Spec.Observers Spec.States Model.Error.
From Verif Require Import Model.BitSet Model.FixedMap Model.Vocabulary Model.IndexedGrammar Model.FirstMap.
From Verif Require Import Model.Position Model.Closure Model.LRTable Model.ParseSimulator.
From Verif Require Import Proofs.WP Proofs.BitSetProofs Proofs.FixedMapProofs Proofs.VocabProofs.
From Verif Require Import Proofs.IndexedProofs Proofs.IndexedBuild Proofs.IndexedMain Proofs.FirstProofs.
From Verif Require Import Proofs.ClosureProofs Proofs.ItemSets Proofs.TableProofs Proofs.TableBuild.
From Verif Require Import Proofs.Fuel Proofs.Machine Proofs.ParserFinal Proofs.RecognitionFinal Proofs.IndexedFinal.
From Verif Require Import Spec.LR1 Proofs.LR1Proofs Proofs.LR1Final Proofs.StatesFinal.
Import ListNotations.

(** Rows of a row-major table. *)
Lemma firstn_rows {A} (l : list A) (f : nat -> A) m : forall o i, (forall k, k < m -> nth_error l (o + k) = Some (f (i + k))) ->
  firstn m (skipn o l) = map f (seq i m).
Proof.
  induction m as [|m IH]; intros o i Hk; [reflexivity|].
  rewrite skipn_S_nth. pose proof (Hk 0 ltac:(lia)) as H0. rewrite !Nat.add_0_r in H0. rewrite H0. cbn [firstn seq map]. f_equal.
  apply IH. intros k Hlt. rewrite Nat.add_succ_comm, (Nat.add_succ_comm i). apply Hk. lia.
Qed.

Lemma slice_row {E A} (l : list A) (f : nat -> A) m s : (forall k, k < m -> nth_error l (m * s + k) = Some (f k)) -> m * s + m <= length l ->
  @slice E A l (s * m) (s * m + m) = Ok (map f (seq 0 m)).
Proof.
  intros Hf Hl. unfold slice. rewrite (Nat.mul_comm s m).
  replace (m * s <=? m * s + m) with true by (symmetry; apply Nat.leb_le; lia).
  replace (m * s + m <=? length l) with true by (symmetry; apply Nat.leb_le; lia). simpl.
  rewrite Nat.add_comm, Nat.add_sub. rewrite (firstn_rows l f m (m * s) 0); auto.
Qed.

Lemma combine_map {A B} (f : A -> B) l : combine (map f l) l = map (fun x => (f x, x)) l.
Proof. induction l as [|x l IH]; simpl; congruence. Qed.

Section Table.
Context {bm : BuildMode} {T L : Type} `{EqDec T} `{EqDec L}.
Variable g : grammar T L.
Variable ig : indexed_grammar T L.
Hypothesis Hix : indexes g ig.
Variable F : first_table.
Hypothesis HF : FInv ig F.
Variables (t : lr_table) (ks : list kernel) (acts : nat -> aug nat -> option action) (gts : nat -> nat -> option nat).
Hypothesis Hok : table_ok ig F t ks acts gts.
Local Notation nrel := (inode_rel ig).
Local Notation arel := (aug_rel (ivocab ig)).
Local Notation m := (vocab_size (ivocab ig)).
Local Notation n := (labels_count ig).
Let Hwf : wf_ig ig := ix_wf _ _ Hix.

Lemma state_kernel s : s < num_states t <-> exists K, nth_error ks s = Some K.
Proof.
  rewrite (to_states _ _ _ _ _ _ Hok). split.
  - intros Hs. apply nth_error_Some in Hs. destruct (nth_error ks s); [eauto|congruence].
  - intros (K & HK). apply nth_error_Some. congruence.
Qed.

Lemma ilabel_bound k l : ilabel ig k l -> k < n.
Proof. intros (mt & Hm & _). apply nth_error_Some. congruence. Qed.

Lemma ilabel_total k : k < n -> exists l, ilabel ig k l.
Proof. intros Hk. apply nth_error_Some in Hk. destruct (nth_error (rule_metadata ig) k) as [mt|] eqn:Hm; [|congruence]. exists (original_label mt), mt. auto. Qed.

Lemma leads_ok γ s : leads ig t γ s -> exists γ' K, Forall2 nrel γ (rev γ') /\ nth_error ks s = Some K /\ rep ig F K γ'.
Proof.
  induction 1 as [|γ s a a' s' Hl (γ' & K & Hγ & HK & HR) Ha Hs|γ s l k s' Hl (γ' & K & Hγ & HK & HR) Hk Hs].
  - destruct (to_root _ _ _ _ _ _ Hok) as (K & HK & HR). exists [], K. split; [constructor|auto].
  - apply (augmented_token_to_id_spec _ _ _ (wf_voc _ Hwf)) in Ha.
    rewrite (get_action_ok ig _ _ _ _ _ Hok) in Hs by first [apply state_kernel; eauto|eapply aug_rel_bound; eauto].
    injection Hs as Hs. destruct (to_shift _ _ _ _ _ _ Hok _ _ _ _ HK Hs) as ((K' & HK' & Hg) & _).
    exists (Terminal a' :: γ'), K'. split; [simpl; apply Forall2_app; [auto|constructor; [exact Ha|constructor]]|]. split; auto. eapply rep_step; eauto.
  - apply label_of in Hk. rewrite (get_goto_ok ig _ _ _ _ _ Hok) in Hs by first [apply state_kernel; eauto|eapply ilabel_bound; eauto].
    injection Hs as Hs. destruct (to_goto _ _ _ _ _ _ Hok _ _ _ _ HK Hs) as ((K' & HK' & Hg) & _).
    exists (Production k :: γ'), K'. split; [simpl; apply Forall2_app; [auto|constructor; [exact Hk|constructor]]|]. split; auto. eapply rep_step; eauto.
Qed.

Lemma leads_total s : s < num_states t <-> exists γ, leads ig t γ s.
Proof.
  split.
  - induction s as [s IH] using lt_wf_ind. intros Hs. destruct (to_reach _ _ _ _ _ _ Hok s Hs) as [->|(s' & Hlt & Hx)].
    + exists []. constructor.
    + destruct (IH s' Hlt ltac:(lia)) as (γ & Hγ). destruct Hx as [(a' & Ha & Hx)|(k & Hk & Hx)].
      * destruct (@id_to_token_spec T unit (ivocab ig) a' Ha) as (a & _ & Har). exists (γ ++ [Terminal a]).
        eapply leads_shift; [exact Hγ|apply (augmented_token_to_id_spec _ _ _ (wf_voc _ Hwf)); exact Har|].
        rewrite (get_action_ok ig _ _ _ _ _ Hok) by (auto; lia). congruence.
      * destruct (ilabel_total k Hk) as (l & Hl). exists (γ ++ [Production l]).
        eapply leads_goto; [exact Hγ|apply label_of; exact Hl|]. rewrite (get_goto_ok ig _ _ _ _ _ Hok) by (auto; lia). congruence.
  - intros (γ & Hγ). destruct (leads_ok _ _ Hγ) as (_ & K & _ & HK & _). apply state_kernel. eauto.
Qed.

Lemma get_action_range s a' s' : s < num_states t -> label_id a' < m -> acts s a' = Some (Shift s') -> s' < num_states t.
Proof.
  intros Hs Ha Hx. apply state_kernel in Hs as (K & HK). destruct (to_shift _ _ _ _ _ _ Hok _ _ _ _ HK Hx) as ((K' & HK' & _) & _).
  apply state_kernel. eauto.
Qed.

Lemma get_goto_range s k s' : s < num_states t -> k < n -> gts s k = Some s' -> s' < num_states t.
Proof.
  intros Hs Ha Hx. apply state_kernel in Hs as (K & HK). destruct (to_goto _ _ _ _ _ _ Hok _ _ _ _ HK Hx) as ((K' & HK' & _) & _).
  apply state_kernel. eauto.
Qed.

Lemma reduce_range s a' j : s < num_states t -> label_id a' < m -> acts s a' = Some (Reduce j) -> 0 < j < length (rules ig).
Proof.
  intros Hs Ha Hx. apply state_kernel in Hs as (K & HK). destruct (to_reduce _ _ _ _ _ _ Hok _ _ _ _ HK Hx) as (Hj & p & Hl & _).
  split; [lia|]. destruct (ki_rep _ _ _ (to_kinv _ _ _ _ _ _ Hok _ _ HK)) as (γ & HR). apply (proj2 HR), look_core in Hl.
  apply (core_bound ig Hwf) in Hl as (Hl & _). auto.
Qed.

(** The tokens of the vocabulary by id. *)
Definition tok_of (a' : aug nat) : aug T := match id_to_token (E := unit) (ivocab ig) a' with Ok a => a | _ => Epsilon end.
Lemma tok_of_ok E a' : label_id a' < m -> id_to_token (E := E) (ivocab ig) a' = Ok (tok_of a') /\ arel (tok_of a') a'.
Proof.
  intros Ha. unfold tok_of. destruct (@id_to_token_spec T unit (ivocab ig) a' Ha) as (a & Hx & Har). rewrite Hx. split; auto.
  destruct (@id_to_token_spec T E (ivocab ig) a' Ha) as (b & Hy & Hbr). rewrite Hy. f_equal. eapply (arel_fun ig); eauto.
Qed.

Lemma slice_len (k s : nat) : s < num_states t -> k * s + k <= k * num_states t.
Proof. intros Hs. replace (k * s + k) with (k * S s) by lia. apply Nat.mul_le_mono_l. lia. Qed.

Lemma state_actions_ok E s : s < num_states t -> exists l, state_actions (E := E) t ig s = Ok l /\ NoDup (map fst l) /\
  forall a act, In (a, act) l <-> exists a', arel a a' /\ acts s a' = Some act.
Proof.
  intros Hs. unfold state_actions. rewrite (table_vocab_size_ok ig _ _ _ _ _ Hok). unfold debug_assertM. simpl.
  rewrite Nat.eqb_refl.
  set (f := fun k => acts s (aug_from_id k)).
  assert (Hsl : @slice E _ (action_table t) (s * m) (s * m + m) = Ok (map f (seq 0 m))).
  { apply slice_row.
    - intros k Hk. unfold f. pose proof (to_acts _ _ _ _ _ _ Hok s (aug_from_id k) Hs) as Hx. rewrite label_aug_from_id in Hx. auto.
    - rewrite (to_len_a _ _ _ _ _ _ Hok). apply slice_len; auto. }
  set (ids := for_each_id (ivocab ig)).
  assert (Hids : map f (seq 0 m) = map (acts s) ids) by (unfold ids, for_each_id; rewrite map_map; reflexivity).
  assert (Hin : forall a', In a' ids <-> label_id a' < m).
  { intros a'. unfold ids, for_each_id. rewrite in_map_iff. split.
    - intros (k & <- & Hk). apply in_seq in Hk. rewrite label_aug_from_id. lia.
    - intros Ha. exists (label_id a'). split; [apply aug_from_id_label|]. apply in_seq. lia. }
  set (h := fun p : option action * aug nat => match fst p with Some a => [(tok_of (snd p), a)] | None => [] end).
  exists (concat (map h (combine (map (acts s) ids) ids))). rewrite combine_map.
  assert (Hmem : forall a act, In (a, act) (concat (map h (map (fun x => (acts s x, x)) ids))) <-> exists a', arel a a' /\ acts s a' = Some act).
  { intros a act. rewrite in_concat. split.
    - intros (x & Hx & Hax). apply in_map_iff in Hx as (p & <- & Hp). apply in_map_iff in Hp as (a' & <- & Ha'). unfold h in Hax. simpl in Hax.
      destruct (acts s a') as [act'|] eqn:Hact; [|destruct Hax]. destruct Hax as [Hax|[]]. injection Hax as <- <-.
      exists a'. split; auto. apply (tok_of_ok unit). apply Hin; auto.
    - intros (a' & Har & Hact). assert (Hb : label_id a' < m) by (eapply aug_rel_bound; eauto).
      exists (h (acts s a', a')). split; [apply in_map; apply (in_map (fun x => (acts s x, x))); apply Hin; auto|].
      unfold h. simpl. rewrite Hact. left. f_equal. eapply (arel_fun ig); [apply (tok_of_ok unit)|]; eauto. }
  split; [|split; auto].
  - destruct (bm : bool); simpl; rewrite Hsl; simpl; fold ids; rewrite Hids, combine_map;
      rewrite (mapM_ok _ h); auto; intros p Hp; apply in_map_iff in Hp as (a' & <- & Ha'); unfold h; simpl;
      destruct (acts s a'); auto; rewrite (proj1 (tok_of_ok E a' (proj1 (Hin a') Ha'))); reflexivity.
  - assert (Hnd : NoDup ids) by
      (unfold ids, for_each_id; apply FinFun.Injective_map_NoDup; [intros x y Hxy; rewrite <- (label_aug_from_id x), <- (label_aug_from_id y); congruence|apply seq_NoDup]). clear Hids Hsl Hmem.
    assert (Hsub : forall a', In a' ids -> label_id a' < m) by (intros; apply Hin; auto). clear Hin. revert Hnd Hsub. generalize ids.
    intros ids'. induction ids' as [|a' ids' IH]; intros Hnd Hsub; simpl; [constructor|]. inversion Hnd as [|? ? Hn1 Hn2]; subst.
    specialize (IH Hn2 (fun b Hb => Hsub b (or_intror Hb))). unfold h at 1. simpl. destruct (acts s a') as [act|]; [|exact IH]. simpl. constructor; auto.
    intros Hx. apply in_map_iff in Hx as ((b & act') & Hb & Hx). simpl in Hb. subst b.
    apply in_concat in Hx as (x & Hx & Hin2). apply in_map_iff in Hx as (p & <- & Hp). apply in_map_iff in Hp as (b' & <- & Hb').
    unfold h in Hin2. simpl in Hin2. destruct (acts s b'); [|destruct Hin2]. destruct Hin2 as [Heq|[]]. injection Heq as Heq _.
    apply Hn1. replace a' with b'; auto. eapply (arel_inj g ig Hix).
    + apply (tok_of_ok unit). apply Hsub. right; auto.
    + rewrite Heq. apply (tok_of_ok unit). apply Hsub. left; auto.
Qed.

Lemma goto_actions_ok E s : s < num_states t -> exists l, goto_actions (E := E) t ig s = Ok l /\ NoDup (map fst l) /\
  forall k s', In (k, s') l <-> k < n /\ gts s k = Some s'.
Proof.
  intros Hs. unfold goto_actions. rewrite (num_production_labels_ok ig _ _ _ _ _ Hok). unfold debug_assertM. simpl. rewrite Nat.eqb_refl.
  assert (Hsl : @slice E _ (goto_table t) (s * n) (s * n + n) = Ok (map (gts s) (seq 0 n))).
  { apply slice_row.
    - intros k Hk. apply (to_gts _ _ _ _ _ _ Hok); auto.
    - rewrite (to_len_g _ _ _ _ _ _ Hok). apply slice_len; auto. }
  set (h := fun p : option nat * nat => match fst p with Some s0 => [(snd p, s0)] | None => [] end).
  exists (concat (map h (combine (map (gts s) (seq 0 n)) (seq 0 n)))). rewrite combine_map. unfold all_production_labels.
  split; [destruct (bm : bool); simpl; rewrite Hsl; simpl; rewrite combine_map; reflexivity|]. split.
  - pose proof (seq_NoDup n 0) as Hnd. revert Hnd. generalize (seq 0 n). intros ids. induction ids as [|k ids IH]; intros Hnd; simpl; [constructor|].
    inversion Hnd as [|? ? Hn1 Hn2]; subst. specialize (IH Hn2). unfold h at 1. simpl. destruct (gts s k) as [s0|]; [|exact IH]. simpl. constructor; auto.
    intros Hx. apply in_map_iff in Hx as ((b & s1) & Hb & Hx). simpl in Hb. subst b.
    apply in_concat in Hx as (x & Hx & Hin2). apply in_map_iff in Hx as (p & <- & Hp). apply in_map_iff in Hp as (b' & <- & Hb').
    unfold h in Hin2. simpl in Hin2. destruct (gts s b'); [|destruct Hin2]. destruct Hin2 as [Heq|[]]. injection Heq as -> _. auto.
  - intros k s'. rewrite in_concat. split.
    + intros (x & Hx & Hax). apply in_map_iff in Hx as (p & <- & Hp). apply in_map_iff in Hp as (k' & <- & Hk'). unfold h in Hax. simpl in Hax.
      destruct (gts s k') as [s0|] eqn:Hg; [|destruct Hax]. destruct Hax as [Hax|[]]. injection Hax as <- <-. apply in_seq in Hk'. split; auto. lia.
    + intros (Hk & Hg). exists (h (gts s k, k)). split; [apply in_map; apply (in_map (fun x => (gts s x, x))); apply in_seq; lia|].
      unfold h. simpl. rewrite Hg. left. reflexivity.
Qed.
End Table.

Section Final.
Context {bm : BuildMode} {T L : Type} `{EqDec T} `{EqDec L}.
Variable g : grammar T L.
Variable ig : indexed_grammar T L.
Variable t : lr_table.
Variables fuel fuel' : nat.
Hypothesis Hig : indexed_build fuel g = Ok ig.
Hypothesis Ht : table_build ig fuel' = Ok t.

Lemma table_built : indexes g ig /\ exists F ks acts gts, FInv ig F /\ first_build (E := lr_error T L) fuel' ig = Ok F /\ table_ok ig F t ks acts gts.
Proof.
  destruct (build_indexes _ _ _ Hig) as (Hix & _). split; auto. destruct (table_build_ok ig (ix_wf _ _ Hix)) as (N & HN).
  specialize (HN True fuel' (or_introl I)). rewrite Ht in HN. exact HN.
Qed.

Theorem states_reachable s : s < num_states t <-> exists γ, leads ig t γ s.
Proof. destruct table_built as (Hix & F & ks & acts & gts & HF & _ & Hok). eapply leads_total; eauto. Qed.

Lemma root_rootclean : indexes g ig -> (forall r, nth_error g 0 = Some r -> ~ uses r (symbol r)) -> rootclean ig.
Proof.
  intros Hix Hroot Hx. destruct (ix_root_rule _ _ Hix) as (r & ir & Hg & Hir & Hl & _ & Hns). apply (Hroot r Hg).
  unfold rnodes in Hx. rewrite Hir in Hx. destruct (Forall2_in_r _ _ _ _ Hns Hx) as (nd & Hin & Hrel).
  destruct nd as [a|l]; simpl in Hrel; [tauto|]. simpl in Hl.
  destruct (wf_root _ (ix_wf _ _ Hix)) as (ir' & mt & Hir' & Hs' & _). rewrite Hir in Hir'. injection Hir' as <-.
  rewrite Hs' in Hl. rewrite (ilabel_fun _ _ _ _ Hl Hrel). exact Hin.
Qed.

(** Each prefix that leads to a state is one the builder followed, and each state
    stands for the kernel built along any prefix leading to it. *)
Theorem states_kernels F γ s γ' s' k k' : first_build (E := lr_error T L) fuel' ig = Ok F ->
  (forall r, nth_error g 0 = Some r -> ~ uses r (symbol r)) ->
  leads ig t γ s -> leads ig t γ' s' -> reached ig F γ k -> reached ig F γ' k' -> (s = s' <-> k = k').
Proof.
  intros HF' Hroot Hl Hl' Hr Hr'. destruct table_built as (Hix & F0 & ks & acts & gts & HF & HFb & Hok).
  rewrite HFb in HF'. injection HF' as ->. pose proof (root_rootclean Hix Hroot) as Hrc.
  assert (Hk : forall γ s k, leads ig t γ s -> reached ig F γ k -> nth_error ks s = Some k).
  { clear -Hix HF Hok Hrc. intros γ s k Hl Hr. destruct (leads_ok g ig Hix F t ks acts gts Hok _ _ Hl) as (δ & K & Hδ & HK & HR).
    destruct (reached_ok g ig Hix F HF _ _ Hr) as (δ' & Hδ' & HK' & HR').
    pose proof (nrels_inj g ig Hix _ _ _ Hδ Hδ') as He. apply (f_equal (@rev _)) in He. rewrite !rev_involutive in He. subst δ'.
    rewrite HK. f_equal. apply (kinv_canon ig (ix_wf _ _ Hix) F Hrc K k δ δ); auto.
    - apply (to_kinv _ _ _ _ _ _ Hok _ _ HK).
    - split; intros; tauto. }
  pose proof (Hk _ _ _ Hl Hr) as H1. pose proof (Hk _ _ _ Hl' Hr') as H2. split; [intros ->; congruence|].
  intros ->. pose proof (to_nodup _ _ _ _ _ _ Hok) as Hn. rewrite NoDup_nth_error in Hn. apply Hn; [apply nth_error_Some; congruence|congruence].
Qed.

Theorem leads_reached F γ s : first_build (E := lr_error T L) fuel' ig = Ok F -> leads ig t γ s -> exists k, reached ig F γ k.
Proof.
  intros HF' Hl. destruct table_built as (Hix & F0 & ks & acts & gts & HF & HFb & Hok). rewrite HFb in HF'. injection HF' as ->.
  destruct (leads_ok g ig Hix F t ks acts gts Hok _ _ Hl) as (δ & K & Hδ & HK & HR). apply (reached_core g ig Hix F HF δ γ Hδ).
  pose proof (to_kinv _ _ _ _ _ _ Hok _ _ HK) as HKi. destruct K as [|q K]; [exfalso; apply (ki_nonempty _ _ _ HKi); auto|].
  exists (production_id q), (pos q). apply (proj1 HR). left. exists q. simpl. auto.
Qed.

(** Two prefixes lead to the same state exactly if they have the same items. *)
Theorem states_items γ s γ' s' : eps_trailing g -> first_complete g -> (forall r, nth_error g 0 = Some r -> ~ uses r (symbol r)) ->
  leads ig t γ s -> leads ig t γ' s' ->
  (s = s' <-> (forall i p, item g γ i p <-> item g γ' i p) /\ (forall i p a, lookahead g γ i p a <-> lookahead g γ' i p a)).
Proof.
  intros Heps Hfc Hroot Hl Hl'. destruct table_built as (Hix & F & ks & acts & gts & HF & HFb & Hok).
  pose proof (root_rootclean Hix Hroot) as Hrc. pose proof (first_complete_fuel g ig F _ _ Hig HFb Hfc) as HFc.
  destruct (leads_ok g ig Hix F t ks acts gts Hok _ _ Hl) as (δ & K & Hδ & HK & HR).
  destruct (leads_ok g ig Hix F t ks acts gts Hok _ _ Hl') as (δ' & K' & Hδ' & HK' & HR'). split.
  - intros <-. rewrite HK in HK'. injection HK' as <-. split.
    + assert (Hx : forall γ γ' δ δ' i p, Forall2 (inode_rel ig) γ (rev δ) -> Forall2 (inode_rel ig) γ' (rev δ') ->
        rep ig F K δ -> rep ig F K δ' -> item g γ i p -> item g γ' i p); [|intros; split; eapply Hx; eauto].
      clear -Hix Heps. intros γ γ' δ δ' i p Hδ Hδ' HR HR' Hi. destruct (item_fwd g ig Hix Heps _ _ _ Hi) as (_ & j & _ & Hj & _).
      apply (item_iff g ig Hix Heps γ' δ' i j); auto. apply (proj1 HR'), (proj1 HR). apply (item_iff g ig Hix Heps γ δ i j); auto.
    + assert (Hx : forall γ γ' δ δ' i p a, Forall2 (inode_rel ig) γ (rev δ) -> Forall2 (inode_rel ig) γ' (rev δ') ->
        rep ig F K δ -> rep ig F K δ' -> lookahead g γ i p a -> lookahead g γ' i p a); [|intros; split; eapply Hx; eauto].
      clear -Hix Heps HF HFc. intros γ γ' δ δ' i p a Hδ Hδ' HR HR' Hi. destruct (look_fwd g ig Hix Heps F HFc _ _ _ _ Hi) as (_ & j & a' & _ & Hj & Ha & _).
      apply (lookahead_iff g ig Hix Heps F HF HFc γ' δ' i j p a a'); auto. apply (proj2 HR'), (proj2 HR). apply (lookahead_iff g ig Hix Heps F HF HFc γ δ i j p a a'); auto.
  - intros (Hi & Hla). assert (HKK : K = K').
    { apply (kinv_canon ig (ix_wf _ _ Hix) F Hrc K K' δ δ'); auto; [apply (to_kinv _ _ _ _ _ _ Hok _ _ HK)|apply (to_kinv _ _ _ _ _ _ Hok _ _ HK')|].
      split.
      - assert (Hx : forall γ γ' δ δ' j p, Forall2 (inode_rel ig) γ (rev δ) -> Forall2 (inode_rel ig) γ' (rev δ') ->
          (forall i p, item g γ i p <-> item g γ' i p) -> core ig δ j p -> core ig δ' j p).
        { clear -Hix Heps. intros γ γ' δ δ' j p Hδ Hδ' Hi Hc. destruct (core_rule g ig Hix _ _ _ Hc) as (i & Hr).
          apply (item_iff g ig Hix Heps γ' δ' i j); auto. apply Hi. apply (item_iff g ig Hix Heps γ δ i j); auto. }
        intros j p. split; [apply (Hx γ γ')|apply (Hx γ' γ)]; auto. intros; symmetry; auto.
      - assert (Hx : forall γ γ' δ δ' j p a', Forall2 (inode_rel ig) γ (rev δ) -> Forall2 (inode_rel ig) γ' (rev δ') ->
          (forall i p a, lookahead g γ i p a <-> lookahead g γ' i p a) -> look ig F δ j p a' -> look ig F δ' j p a').
        { clear -Hix Heps HF HFc. intros γ γ' δ δ' j p a' Hδ Hδ' Hi Hc. destruct (look_bwd g ig Hix Heps F HF _ _ _ _ Hc) as (_ & i & a & _ & Hr & Ha & _).
          apply (lookahead_iff g ig Hix Heps F HF HFc γ' δ' i j p a a'); auto. apply Hi.
          apply (lookahead_iff g ig Hix Heps F HF HFc γ δ i j p a a'); auto. }
        intros j p a'. split; [apply (Hx γ γ')|apply (Hx γ' γ)]; auto. intros; symmetry; auto. }
    subst K'. pose proof (to_nodup _ _ _ _ _ _ Hok) as Hn. rewrite NoDup_nth_error in Hn. apply Hn; [apply nth_error_Some; congruence|congruence].
Qed.

(** The accessors. *)
Theorem accessors E s : s < num_states t ->
  (forall a a', augmented_token_to_id (ivocab ig) a = Some a' -> exists o, get_action (E := E) t s a' = Ok o) /\
  (forall k l, @orig_production_label unit T L ig k = Ok l -> exists o, get_goto (E := E) t s k = Ok o) /\
  (exists acts, state_actions (E := E) t ig s = Ok acts /\ NoDup (map fst acts) /\
     forall a act, In (a, act) acts <-> exists a', augmented_token_to_id (ivocab ig) a = Some a' /\ get_action (E := E) t s a' = Ok (Some act)) /\
  (exists gts, goto_actions (E := E) t ig s = Ok gts /\ NoDup (map fst gts) /\
     forall k s', In (k, s') gts <-> (exists l, @orig_production_label unit T L ig k = Ok l) /\ get_goto (E := E) t s k = Ok (Some s')) /\
  (forall a a' s', augmented_token_to_id (ivocab ig) a = Some a' -> get_action (E := E) t s a' = Ok (Some (Shift s')) -> s' < num_states t) /\
  (forall a a' j, augmented_token_to_id (ivocab ig) a = Some a' -> get_action (E := E) t s a' = Ok (Some (Reduce j)) -> 0 < j < length (rules ig)) /\
  (forall k l s', @orig_production_label unit T L ig k = Ok l -> get_goto (E := E) t s k = Ok (Some s') -> s' < num_states t).
Proof.
  intros Hs. destruct table_built as (Hix & F & ks & acts & gts & HF & HFb & Hok). pose proof (wf_voc _ (ix_wf _ _ Hix)) as Hv.
  assert (Hb : forall a a', augmented_token_to_id (ivocab ig) a = Some a' -> aug_rel (ivocab ig) a a' /\ label_id a' < vocab_size (ivocab ig)).
  { intros a a' Ha. apply (augmented_token_to_id_spec _ _ _ Hv) in Ha. split; auto. eapply aug_rel_bound; eauto. }
  assert (Hga : forall a', label_id a' < vocab_size (ivocab ig) -> get_action (E := E) t s a' = Ok (acts s a')) by (intros; apply (get_action_ok ig _ _ _ _ _ Hok); auto).
  assert (Hgg : forall k, k < labels_count ig -> get_goto (E := E) t s k = Ok (gts s k)) by (intros; apply (get_goto_ok ig _ _ _ _ _ Hok); auto).
  assert (Hlb : forall k l, @orig_production_label unit T L ig k = Ok l -> k < labels_count ig) by (intros k l Hk; apply label_of in Hk; eapply ilabel_bound; eauto).
  split; [intros a a' Ha; rewrite Hga by apply (Hb _ _ Ha); eauto|].
  split; [intros k l Hk; rewrite Hgg by eauto; eauto|].
  split.
  { destruct (state_actions_ok g ig Hix F t ks acts gts Hok E s Hs) as (l & Hl & Hn & Hin). exists l. split; auto. split; auto.
    intros a act. rewrite Hin. split.
    - intros (a' & Ha & Hx). exists a'. split; [apply (augmented_token_to_id_spec _ _ _ Hv); auto|]. rewrite Hga by (eapply aug_rel_bound; eauto). congruence.
    - intros (a' & Ha & Hx). apply Hb in Ha as (Ha & Hbd). rewrite Hga in Hx by auto. exists a'. split; auto. congruence. }
  split.
  { destruct (goto_actions_ok ig F t ks acts gts Hok E s Hs) as (l & Hl & Hn & Hin). exists l. split; auto. split; auto.
    intros k s'. rewrite Hin. split.
    - intros (Hk & Hx). split; [destruct (ilabel_total ig k Hk) as (lb & Hlbl); exists lb; apply label_of; auto|]. rewrite Hgg by auto. congruence.
    - intros ((lb & Hk) & Hx). apply Hlb in Hk. rewrite Hgg in Hx by auto. split; auto. congruence. }
  split; [intros a a' s' Ha Hx; apply Hb in Ha as (Ha & Hbd); rewrite Hga in Hx by auto; injection Hx as Hx; eapply (get_action_range ig F); eauto|].
  split; [intros a a' j Ha Hx; apply Hb in Ha as (Ha & Hbd); rewrite Hga in Hx by auto; injection Hx as Hx; eapply (reduce_range g ig Hix F); eauto|].
  intros k l s' Hk Hx. apply Hlb in Hk. rewrite Hgg in Hx by auto. injection Hx as Hx. eapply (get_goto_range ig F); eauto.
Qed.
End Final.
