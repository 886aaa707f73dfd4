(** Labels are numbered in the order of their first rules; FIRST tables of grammars
    whose vanishing labels are early; complete tables are those that obey the rules. *)
From Coq Require Import Arith Bool String NArith List Lia Permutation.
From Verif Require Import Base.Prelude Spec.Grammar Spec.Validity Spec.Nullable Spec.Observers Spec.Early Model.Error.
From Verif Require Import Model.BitSet Model.FixedMap Model.Vocabulary Model.IndexedGrammar Model.FirstMap.
From Verif Require Import Proofs.WP Proofs.BitSetProofs Proofs.FixedMapProofs Proofs.VocabProofs.
From Verif Require Import Proofs.IndexedProofs Proofs.IndexedBuild Proofs.IndexedMain Proofs.FirstProofs Proofs.FirstEarly.
From Verif Require Import Proofs.RecognitionFinal Proofs.IndexedFinal Spec.LR1 Proofs.LR1Proofs Proofs.LR1Final.
Import ListNotations.

Section Distinct.
Context {A : Type} `{EqDec A}.

Lemma in_distinct x (l : list A) : In x (distinct l) <-> In x l.
Proof.
  induction l as [|y l IH]; simpl; [tauto|]. rewrite filter_In, IH. destruct (eqb y x) eqn:He.
  - apply eqb_eq in He. tauto.
  - simpl. tauto.
Qed.

Lemma NoDup_distinct (l : list A) : NoDup (distinct l).
Proof.
  induction l as [|y l IH]; simpl; constructor; [|apply NoDup_filter; auto].
  rewrite filter_In, eqb_refl. simpl. intros (_ & Hx). discriminate.
Qed.

Lemma distinct_snoc (l : list A) x : distinct (l ++ [x]) = distinct l ++ (if in_dec eq_dec x l then [] else [x]).
Proof.
  induction l as [|y l IH]; [reflexivity|]. cbn [distinct app]. f_equal. rewrite IH, filter_app. f_equal.
  destruct (in_dec eq_dec x l) as [Hx|Hx], (in_dec eq_dec x (y :: l)) as [Hy|Hy]; simpl in Hy; auto; try tauto; simpl.
  - destruct Hy as [<-|]; [|tauto]. rewrite eqb_refl. auto.
  - destruct (eqb y x) eqn:He; auto. apply eqb_eq in He. tauto.
Qed.

Lemma distinct_split (l : list A) a b : forall i, nth_error l i = Some a -> (forall j, nth_error l j = Some b -> i < j) ->
  exists u v, distinct l = u ++ a :: v /\ ~ In b u.
Proof.
  induction l as [|x l IH]; intros i Hi Hb; [destruct i; discriminate|].
  assert (Hxb : x <> b \/ i = 0).
  { destruct i as [|i]; auto. left. intros ->. specialize (Hb 0 eq_refl). lia. }
  simpl. destruct (eq_dec x a) as [->|Hne]; [exists [], (filter (fun y => negb (eqb a y)) (distinct l)); split; auto|].
  destruct i as [|i]; [simpl in Hi; congruence|]. destruct Hxb as [Hxb|]; [|discriminate].
  destruct (IH i Hi) as (u & v & He & Hu).
  { intros j Hj. specialize (Hb (S j) Hj). lia. }
  exists (x :: filter (fun y => negb (eqb x y)) u), (filter (fun y => negb (eqb x y)) v). split.
  - rewrite He, filter_app. simpl. destruct (eqb x a) eqn:Hxa; auto. apply eqb_eq in Hxa. congruence.
  - simpl. rewrite filter_In. tauto.
Qed.

Lemma distinct_order (l : list A) a b i k k' : nth_error l i = Some a -> (forall j, nth_error l j = Some b -> i < j) ->
  nth_error (distinct l) k = Some a -> nth_error (distinct l) k' = Some b -> k < k'.
Proof.
  intros Hi Hb Hk Hk'. destruct (distinct_split l a b i Hi Hb) as (u & v & He & Hu).
  assert (Hab : a <> b) by (intros ->; specialize (Hb _ Hi); lia).
  assert (k = length u).
  { apply (proj1 (NoDup_nth_error _) (NoDup_distinct l)); [apply nth_error_Some; congruence|].
    rewrite Hk, He, nth_error_app2, Nat.sub_diag; auto. }
  subst k. destruct (Nat.lt_trichotomy (length u) k') as [|[<-|Hlt]]; auto; exfalso.
  - congruence.
  - rewrite He, nth_error_app1 in Hk' by auto. apply Hu. eapply nth_error_In; eauto.
Qed.
End Distinct.

Section Labels.
Context {bm : BuildMode} {T L : Type} `{EqDec T} `{EqDec L}.

Lemma add_labels (root : rule T L) done st p st' : group_inv done st -> add_production root st p = Ok st' ->
  map fst (snd st) = distinct (map (fun q => symbol (fst q)) done) ->
  map fst (snd st') = distinct (map (fun q => symbol (fst q)) (done ++ [p])).
Proof.
  destruct st as [lm gs], p as [r idx]. intros (Hn & Hlm & Hg & Hd & Hl) Ha He. simpl in *.
  rewrite map_app. simpl. rewrite distinct_snoc, <- He. unfold add_production in Ha. simpl in Ha.
  destruct (eqb (symbol r) (symbol root)); [discriminate|]. destruct (references (symbol root) r); [discriminate|].
  assert (Hlen : length lm = length gs).
  { rewrite Hlm, combine_length, seq_length, map_length. apply Nat.min_id. }
  destruct (hm_get (symbol r) lm) as [k|] eqn:Hget.
  - rewrite Nat.eqb_refl in Ha. simpl in Ha. rewrite Hlm in Hget. apply hm_get_numbered0 in Hget; auto.
    rewrite nth_error_map in Hget. destruct (nth_error gs k) as [[l rs]|] eqn:Hk; simpl in Hget; [|congruence]. injection Hget as Hsym. subst l.
    rewrite (index_ok _ _ _ Hk) in Ha. simpl in Ha.
    rewrite store_ok in Ha by (apply nth_error_Some; congruence). simpl in Ha. injection Ha as <-. simpl.
    rewrite map_fst_list_set by (rewrite nth_error_map, Hk; reflexivity).
    destruct (in_dec eq_dec (symbol r) (map (fun q => symbol (fst q)) done)) as [Hin|Hin]; [rewrite app_nil_r; auto|]. exfalso. apply Hin.
    destruct (Hl (symbol r)) as (q & Hq & Hqs); [apply nth_error_In in Hk; apply in_map with (f := fst) in Hk; exact Hk|].
    rewrite <- Hqs. apply in_map_iff. exists q. auto.
  - unfold hm_insert_vacant in Ha. rewrite app_length in Ha. simpl in Ha.
    destruct (Nat.eqb_spec (length lm + 1) (length lm)) as [|_]; [lia|]. simpl in Ha.
    destruct (debug_assert _ _) as [[]|e|w|]; simpl in Ha; try discriminate. injection Ha as <-. simpl. rewrite map_app. simpl. f_equal.
    destruct (in_dec eq_dec (symbol r) (map (fun q => symbol (fst q)) done)) as [Hin|Hin]; auto. exfalso. apply in_map_iff in Hin as (q & Hqs & Hq).
    apply Hd in Hq. rewrite Hqs in Hq. apply In_nth_error in Hq as (k & Hk).
    assert (Hx : hm_get (symbol r) lm = Some k) by (rewrite Hlm; apply hm_get_numbered0; auto). congruence.
Qed.

Lemma fold_labels (root : rule T L) rest : forall done st st', group_inv done st -> foldM (add_production root) st rest = Ok st' ->
  map fst (snd st) = distinct (map (fun q => symbol (fst q)) done) ->
  map fst (snd st') = distinct (map (fun q => symbol (fst q)) (done ++ rest)).
Proof.
  induction rest as [|p rest IH]; intros done st st' Hi Hf He.
  - simpl in Hf. injection Hf as <-. rewrite app_nil_r. auto.
  - rewrite foldM_cons in Hf. destruct (add_production root st p) as [st1|e|w|] eqn:Ha; simpl in Hf; try discriminate.
    destruct (root_clean_dec (symbol root) (fst p)) as [Hc|Hc].
    + destruct (add_production_spec (bm := bm) root done st p Hi Hc) as (st1' & Heq & Hi1 & _). rewrite Heq in Ha. injection Ha as ->.
      replace (done ++ p :: rest) with ((done ++ [p]) ++ rest) by (rewrite <- app_assoc; auto).
      eapply IH; eauto. eapply add_labels; eauto.
    + destruct (add_production_bad (bm := bm) root st p Hc) as [(_ & Hx)|(_ & _ & Hx)]; rewrite Hx in Ha; discriminate.
Qed.

Lemma group_inv_init (root : rule T L) : group_inv [(root, 0)] ([(symbol root, root_production_label)], [(symbol root, [(root, 0)])]).
Proof.
  unfold group_inv. simpl. split; [repeat constructor; simpl; tauto|]. split; [auto|]. split; [|split].
  - intros k l rs Hk. destruct k as [|k]; simpl in Hk; [|destruct k; discriminate]. injection Hk as <- <-.
    simpl. unfold sym_is. simpl. rewrite eqb_refl. auto.
  - intros p [<-|[]]. auto.
  - intros l [<-|[]]. exists (root, 0). auto.
Qed.

Theorem labels_in_order fuel (g : grammar T L) ig : indexed_build fuel g = Ok ig ->
  map original_label (rule_metadata ig) = distinct (map symbol g).
Proof.
  unfold indexed_build, build_from_grammar. destruct g as [|root rest]; [discriminate|]. cbn [combine length seq].
  match goal with |- context [foldM ?a ?b ?c] => destruct (foldM a b c) as [[lm gs]|e|w|] eqn:Hf end; simpl; try discriminate.
  match goal with |- context [map_accumM ?a ?b ?c] => destruct (map_accumM a b c) as [[v rss]|e|w|] end; simpl; try discriminate.
  match goal with |- context [verify_connected ?a ?b ?c] => destruct (verify_connected a b c) as [[]|e|w|] end; simpl; try discriminate. intros Hx. injection Hx as <-. simpl rule_metadata.
  rewrite scan_metadata_labels. change gs with (snd (lm, gs)).
  rewrite (fold_labels root _ [(root, 0)] _ _ (group_inv_init root) Hf); [|reflexivity].
  simpl. f_equal. f_equal. f_equal. rewrite <- (map_map fst symbol). f_equal.
  clear. generalize 1. induction rest as [|r rest IH]; intros n; simpl; auto. f_equal. auto.
Qed.

Variable g : grammar T L.
Variable ig : indexed_grammar T L.
Hypothesis Hix : indexes g ig.
Hypothesis Hord : map original_label (rule_metadata ig) = distinct (map symbol g).

Lemma ilabel_nth k l : ilabel ig k l -> nth_error (distinct (map symbol g)) k = Some l.
Proof. intros (m & Hm & <-). rewrite <- Hord, nth_error_map, Hm. auto. Qed.

Lemma before_lt l l' k k' : before g l l' -> ilabel ig k l -> ilabel ig k' l' -> k < k'.
Proof.
  intros (i & r & Hi & <- & Hb) Hk Hk'. apply ilabel_nth in Hk, Hk'.
  apply (distinct_order (map symbol g) (symbol r) l' i); auto.
  - rewrite nth_error_map, Hi. auto.
  - intros j Hj. rewrite nth_error_map in Hj. destruct (nth_error g j) as [r'|] eqn:Hr; [|discriminate]. injection Hj as Hj. eauto.
Qed.

Scheme early_ind2 := Minimality for early Sort Prop
with early_node_ind2 := Minimality for early_node Sort Prop.
Combined Scheme early_mutind from early_ind2, early_node_ind2.

Lemma early_ig : (forall l, early g l -> forall k, ilabel ig k l -> iearly ig k) /\
  (forall l nd, early_node g l nd -> forall k nd', ilabel ig k l -> inode_rel ig nd nd' -> iearly_node ig k nd').
Proof.
  apply early_mutind.
  - intros r Hr _ IH k Hk. apply In_nth_error in Hr as (i & Hr). destruct (ix_rule_fwd g ig Hix _ _ Hr) as (j & ir & Hir & Hl & _ & Hns).
    simpl in Hl, Hns. rewrite (ilabel_inj g ig Hix _ _ _ Hk Hl). constructor; [eapply nth_error_In; eauto|].
    intros nd' Hnd'. destruct (Forall2_in_r _ _ _ _ Hns Hnd') as (nd & Hnd & Hx). eapply IH; eauto.
  - intros l k nd' _ Hx. destruct nd' as [[| |]|]; simpl in Hx; try tauto. constructor.
  - intros l l' Hb _ IH k nd' Hk Hx. destruct nd' as [|k']; simpl in Hx; [tauto|]. constructor; auto. eapply before_lt; eauto.
Qed.

Lemma early_epsilon_ig : early_epsilon g -> eps_early ig.
Proof.
  intros (H1 & H2).
  assert (Hlab : forall k, inullable ig k -> exists l, ilabel ig k l).
  { intros k (ts & D). inversion D as [| | |i r ts1 w1 ns w2 ts2 Hi D1 D2]; subst.
    apply igram_nth in Hi as (ir & Hir & <-). apply (ilabel_total ig). eapply wf_sym; [apply (ix_wf _ _ Hix)|]. eapply nth_error_In; eauto. }
  split.
  - intros k Hk Hu. destruct (Hlab _ Hk) as (l & Hl). apply (proj1 early_ig l); auto. apply H1; [eapply inullable_nullable; eauto|eapply iused_used; eauto].
  - intros (k & Hk & Hu). destruct (Hlab _ Hk) as (l & Hl).
    destruct H2 as (r & pre & t & post & Hr & Hh & Ht & Hpre); [exists l; split; [eapply inullable_nullable; eauto|eapply iused_used; eauto]|].
    apply In_nth_error in Hr as (i & Hr). destruct (ix_rule_fwd g ig Hix _ _ Hr) as (j & ir & Hir & Hl' & _ & Hns). simpl in Hns, Hl'.
    rewrite Hh in Hns. apply Forall2_app_inv_l in Hns as (pre' & rest' & Hp & Hq & He). inversion Hq as [|? nd' ? post' Hx]; subst.
    destruct nd' as [t'|]; simpl in Hx; [|tauto]. exists ir, pre', t', post'. split; [eapply nth_error_In; eauto|]. split; [auto|].
    split; [intros ->; destruct t; simpl in Hx; tauto|]. intros nd' Hnd'. destruct (Forall2_in_r _ _ _ _ Hp Hnd') as (nd & Hnd & Hrel).
    rewrite Forall_forall in Hpre. eapply (proj2 early_ig); eauto.
Qed.
End Labels.

Section Final.
Context {bm : BuildMode} {T L : Type} `{EqDec T} `{EqDec L}.

Theorem early_first_complete (g : grammar T L) : early_epsilon g -> first_complete g.
Proof.
  intros He. apply first_complete_closed. intros fuel ig F Hig HF. destruct (build_indexes _ _ _ Hig) as (Hix & _).
  pose proof (first_build_early (E:=lr_error T L) ig (ix_wf _ _ Hix) True True fuel (fun _ => True) (or_introl I)) as Hf. rewrite HF in Hf.
  apply Hf. apply (early_epsilon_ig g ig Hix); auto. eapply labels_in_order; eauto.
Qed.

Theorem direct_early (g : grammar T L) : direct_epsilon g -> early_epsilon g.
Proof.
  intros (H1 & H2). split.
  - intros l Hn Hu. destruct (H1 l Hn Hu) as (r & Hr & <- & He). rewrite Forall_forall in He. constructor; auto.
    intros nd Hnd. rewrite (He nd Hnd). constructor.
  - intros Hx. destruct (H2 Hx) as (r & t & Hr & Hh & Ht). destruct (rhs r) as [|nd post] eqn:Hrhs; [discriminate|].
    simpl in Hh. injection Hh as ->. exists r, [], t, post. repeat split; auto.
Qed.

(** What the table says of a list of nodes, in terms of the source. *)
Section Obeys.
Variable g : grammar T L.
Variable ig : indexed_grammar T L.
Hypothesis Hix : indexes g ig.
Variable F : first_table.
Hypothesis HF : FInv ig F.

Lemma has_epsilon l k : ilabel ig k l -> (first_has ig F l Epsilon <-> fmem F k Epsilon = true).
Proof.
  intros Hk. rewrite (first_has_iff g ig Hix F HF). split.
  - intros (k' & i & Hk' & Hi & Hm). destruct i; simpl in Hi; try tauto. rewrite (ilabel_inj g ig Hix _ _ _ Hk Hk'). auto.
  - intros Hm. exists k, Epsilon. repeat split; auto.
Qed.

Lemma has_token l k a i : ilabel ig k l -> aug_rel (ivocab ig) a i -> (first_has ig F l a <-> fmem F k i = true).
Proof.
  intros Hk Hi. rewrite (first_has_iff g ig Hix F HF). split.
  - intros (k' & i' & Hk' & Hi' & Hm). rewrite (ilabel_inj g ig Hix _ _ _ Hk Hk'), (arel_inj g ig Hix _ _ _ Hi Hi'). auto.
  - intros Hm. exists k, i. auto.
Qed.

Lemma vanish_fnull ns ns' : Forall2 (inode_rel ig) ns ns' -> (Forall (may_vanish (first_has ig F)) ns <-> fnull F ns' = true).
Proof.
  induction 1 as [|nd nd' ns ns' Hx Hns IH]; simpl; [split; auto|].
  destruct nd as [a|l], nd' as [i|k]; simpl in Hx; try tauto.
  - destruct a, i; simpl in Hx; try tauto.
    + split; [inversion 1; subst; discriminate|discriminate].
    + rewrite <- IH. split; [inversion 1; auto|intros Hv; constructor; [reflexivity|auto]].
    + split; [inversion 1; subst; discriminate|discriminate].
  - rewrite andb_true_iff, <- IH, <- (has_epsilon l k Hx). split; [inversion 1; auto|intros (H1 & H2); constructor; auto].
Qed.

Lemma begin_ffirst ns ns' a i : Forall2 (inode_rel ig) ns ns' -> aug_rel (ivocab ig) a i -> a <> Epsilon ->
  ((exists pre nd post, ns = pre ++ nd :: post /\ Forall (may_vanish (first_has ig F)) pre /\ may_begin (first_has ig F) nd a) <->
   ffirst F ns' i = true).
Proof.
  intros Hns Hi Ha. assert (Hie : i <> Epsilon) by (intros ->; destruct a; simpl in Hi; tauto).
  induction Hns as [|nd nd' ns ns' Hx Hns IH].
  - split; [|discriminate]. intros (pre & nd & post & He & _). destruct pre; discriminate.
  - assert (Hsplit : (exists pre nd0 post, nd :: ns = pre ++ nd0 :: post /\ Forall (may_vanish (first_has ig F)) pre /\ may_begin (first_has ig F) nd0 a) <->
      may_begin (first_has ig F) nd a \/ (may_vanish (first_has ig F) nd /\
        exists pre nd0 post, ns = pre ++ nd0 :: post /\ Forall (may_vanish (first_has ig F)) pre /\ may_begin (first_has ig F) nd0 a)).
    { split.
      - intros (pre & nd0 & post & He & Hp & Hb). destruct pre as [|x pre]; simpl in He; injection He as -> ->; [auto|].
        right. inversion Hp; subst. split; auto. exists pre, nd0, post. auto.
      - intros [Hb|(Hv & pre & nd0 & post & -> & Hp & Hb)]; [exists [], nd, ns; auto|].
        exists (nd :: pre), nd0, post. split; [auto|]. split; auto. }
    rewrite Hsplit, IH. clear Hsplit IH. destruct nd as [b|l], nd' as [j|k]; simpl in Hx; try tauto; simpl.
    + destruct j as [t| |].
      * split; [intros [<-|(Hv & _)]|].
        -- rewrite (arel_inj g ig Hix _ _ _ Hi Hx). apply eqb_refl.
        -- exfalso. subst b. simpl in Hx. tauto.
        -- intros He. apply eqb_eq in He. subst i. left. exact (arel_fun ig _ _ _ Hi Hx).
      * destruct b; simpl in Hx; tauto.
      * split; [intros [<-|(Hv & _)]|].
        -- rewrite (arel_inj g ig Hix _ _ _ Hi Hx). apply eqb_refl.
        -- exfalso. subst b. simpl in Hx. tauto.
        -- intros He. apply eqb_eq in He. subst i. left. exact (arel_fun ig _ _ _ Hi Hx).
    + rewrite orb_true_iff, andb_true_iff, (has_token l k a i Hx Hi), (has_epsilon l k Hx). tauto.
Qed.

Lemma obeys_closed : obeys g (first_has ig F) <-> Fclosed ig F.
Proof.
  split.
  - intros Ho ir Hir. apply In_nth_error in Hir as (j & Hj). destruct (ix_rule_bwd g ig Hix _ _ Hj) as (r & Hr & Hl & _ & Hns). simpl in Hl, Hns.
    destruct (Ho r (nth_error_In _ _ Hr)) as (H1 & H2). split.
    + intros Hn. apply (has_epsilon (symbol r) (isymbol ir)); auto. apply H1. apply (vanish_fnull _ _ Hns). auto.
    + intros i Hi Hf.
      assert (Hex : exists a, aug_rel (ivocab ig) a i).
      { destruct (ffirst_begins g ig Hix F HF _ _ _ Hf Hi Hns) as (b & Hb & _). eauto. }
      destruct Hex as (a & Ha). assert (Hae : a <> Epsilon) by (intros ->; destruct i; simpl in Ha; tauto).
      apply (has_token (symbol r) (isymbol ir) a i); auto. destruct (proj2 (begin_ffirst _ _ a i Hns Ha Hae) Hf) as (pre & nd & post & He & Hp & Hb). exact (H2 _ _ _ _ He Hp Hae Hb).
  - intros Hc r Hr. apply In_nth_error in Hr as (i & Hi). destruct (ix_rule_fwd g ig Hix _ _ Hi) as (j & ir & Hir & Hl & _ & Hns). simpl in Hl, Hns.
    destruct (Hc ir (nth_error_In _ _ Hir)) as (H1 & H2). split.
    + intros Hv. apply (has_epsilon (symbol r) (isymbol ir)); auto. apply H1. apply (vanish_fnull _ _ Hns). auto.
    + intros pre nd post a He Hp Ha Hb.
      assert (Hex : exists i, aug_rel (ivocab ig) a i).
      { destruct nd as [b|l]; simpl in Hb.
        - subst b. assert (Hin : In (Terminal a) (rhs r)) by (rewrite He; apply in_or_app; simpl; auto).
          destruct (Forall2_in_l _ _ _ _ Hns Hin) as ([b|] & _ & Hx); simpl in Hx; [eauto|tauto].
        - apply (first_has_iff g ig Hix F HF) in Hb as (k & i' & _ & Hi' & _). eauto. }
      destruct Hex as (b & Hab). apply (has_token (symbol r) (isymbol ir) a b); auto.
      assert (Hbe : b <> Epsilon) by (intros ->; destruct a; simpl in Hab; tauto). apply H2; auto.
      apply (begin_ffirst _ _ a b Hns Hab Ha). exists pre, nd, post. auto.
Qed.
End Obeys.

Theorem complete_iff_obeys fuel (g : grammar T L) ig F : indexed_build fuel g = Ok ig -> first_build (E := lr_error T L) fuel ig = Ok F ->
  ((forall l, (forall a, begins g [Production l] a -> first_has ig F l a) /\ (vanishes g [Production l] -> first_has ig F l Epsilon)) <->
   obeys g (first_has ig F)).
Proof.
  intros Hig HF. destruct (build_indexes _ _ _ Hig) as (Hix & _). pose proof (build_first _ _ _ (ix_wf _ _ Hix) HF) as HFI. split.
  - intros Hc. apply (obeys_closed g ig Hix F HFI). intros ir Hir.
    apply In_nth_error in Hir as (j & Hj). destruct (ix_rule_bwd g ig Hix _ _ Hj) as (r & Hr & Hl & _ & Hns). simpl in Hl, Hns.
    assert (Hrg : In r g) by (eapply nth_error_In; eauto).
    destruct (Hc (symbol r)) as (Hc1 & Hc2). split.
    + intros Hn. pose proof (fnull_vanishes g ig Hix F HFI _ _ Hn Hns) as Hv.
      apply (has_epsilon g ig Hix F HFI (symbol r) (isymbol ir)); auto. apply Hc2. eapply steps_trans; [apply steps_rule; auto|auto].
    + intros a Ha Hf. destruct (ffirst_begins g ig Hix F HFI _ _ _ Hf Ha Hns) as (b & Hb & Hbg).
      assert (Hbl : begins g [Production (symbol r)] b) by (apply begins_iff, fst_here; auto; apply begins_iff; auto).
      apply (has_token g ig Hix F HFI (symbol r) (isymbol ir) b a); auto.
  - intros Ho l. apply first_closed_complete; auto. apply (obeys_closed g ig Hix F HFI). auto.
Qed.

Theorem labels_numbered fuel (g : grammar T L) ig k l : indexed_build fuel g = Ok ig ->
  (orig_production_label (E := unit) ig k = Ok l <-> nth_error (distinct (map symbol g)) k = Some l).
Proof.
  intros Hig. rewrite <- (labels_in_order _ _ _ Hig), nth_error_map. rewrite label_of. unfold ilabel.
  destruct (nth_error (rule_metadata ig) k) as [m|]; simpl; split.
  - intros (m' & Hm & <-). congruence.
  - intros He. exists m. split; congruence.
  - intros (m' & Hm & _). discriminate.
  - discriminate.
Qed.
End Final.
