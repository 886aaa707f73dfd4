(** Sparse fixed-size maps as finite maps with insertion-ordered keys. *)
From Coq Require Import Arith Bool String NArith List Lia.
From Verif Require Import Base.Prelude Model.BitSet Model.FixedMap Proofs.WP Proofs.BitSetProofs.
Import ListNotations.

Class LabelInj (K : Type) `{Label K} := label_inj : forall k k' : K, label_id k = label_id k' -> k = k'.
#[global] Instance LabelInj_nat : LabelInj nat.
Proof. intros k k' H. exact H. Qed.

Section Sparse.
Context {bm : BuildMode} {E K V : Type} `{LI : LabelInj K}.

Definition wf_sm (cap : nat) (m : sparse_map K V) : Prop :=
  length (index_map m) = cap /\
  (forall i k v, nth_error (entries m) i = Some (k, v) ->
     nth_error (index_map m) (label_id k) = Some (Some i)) /\
  (forall id i, nth_error (index_map m) id = Some (Some i) ->
     exists k v, nth_error (entries m) i = Some (k, v) /\ label_id k = id).

Definition lookup (m : sparse_map K V) (k : K) : option V :=
  match nth_error (index_map m) (label_id k) with
  | Some (Some i) => option_map snd (nth_error (entries m) i)
  | _ => None
  end.

Definition keys (m : sparse_map K V) : list K := map fst (entries m).

Lemma wf_sm_new cap : wf_sm cap (sm_new cap).
Proof.
  unfold sm_new. repeat split; simpl.
  - apply repeat_length.
  - intros [|i] k v; discriminate.
  - intros id i Hn. apply nth_error_In in Hn. apply repeat_spec in Hn. discriminate.
Qed.

Lemma lookup_new cap k : lookup (sm_new cap) k = None.
Proof.
  unfold lookup, sm_new. simpl. destruct (nth_error (repeat None cap) (label_id k)) as [[i|]|] eqn:Hn; auto.
  apply nth_error_In, repeat_spec in Hn. discriminate.
Qed.

Lemma keys_new cap : keys (sm_new cap) = [].
Proof. reflexivity. Qed.

Lemma lookup_in cap m k v : wf_sm cap m -> (lookup m k = Some v <-> In (k, v) (entries m)).
Proof.
  intros (Hl & He & Hi). unfold lookup. split.
  - destruct (nth_error (index_map m) (label_id k)) as [[i|]|] eqn:Hn; try discriminate.
    destruct (Hi _ _ Hn) as (k' & v' & Hen & Hk). rewrite Hen. simpl. intros Hv. injection Hv as ->.
    apply LI in Hk. subst k'. eapply nth_error_In; eauto.
  - intros Hin. apply In_nth_error in Hin as (i & Hin).
    rewrite (He _ _ _ Hin), Hin. reflexivity.
Qed.

Lemma lookup_none cap m k : wf_sm cap m -> (lookup m k = None <-> ~ In k (keys m)).
Proof.
  intros Hwf. destruct (lookup m k) as [v|] eqn:Hl.
  - split; [discriminate|]. intros Hc. exfalso. apply Hc.
    apply (lookup_in cap) in Hl; auto. change k with (fst (k, v)). apply in_map; auto.
  - split; auto. intros _ Hc. apply in_map_iff in Hc as ([k' v] & Hk & Hin). simpl in Hk. subst k'.
    apply (lookup_in cap) in Hin; auto. congruence.
Qed.

Lemma keys_nodup cap m : wf_sm cap m -> NoDup (keys m).
Proof.
  intros (Hl & He & Hi). apply NoDup_nth_error. intros i j Hij Heq.
  unfold keys in *. rewrite map_length in Hij. rewrite !nth_error_map in Heq.
  destruct (nth_error (entries m) i) as [[k v]|] eqn:H1.
  2:{ apply nth_error_None in H1. lia. }
  destruct (nth_error (entries m) j) as [[k' v']|] eqn:H2; simpl in Heq; [|discriminate].
  injection Heq as <-. apply He in H1, H2. congruence.
Qed.

Lemma keys_bound cap m k : wf_sm cap m -> In k (keys m) -> label_id k < cap.
Proof.
  intros (Hl & He & Hi) Hk. apply in_map_iff in Hk as ([k' v] & <- & Hin).
  apply In_nth_error in Hin as (i & Hin). apply He in Hin. rewrite <- Hl.
  apply nth_error_Some. simpl. congruence.
Qed.

Lemma index_map_some cap m k : wf_sm cap m -> label_id k < cap ->
  exists oi, nth_error (index_map m) (label_id k) = Some oi.
Proof.
  intros (Hl & _) Hk. rewrite <- Hl in Hk. apply nth_error_Some in Hk.
  destruct (nth_error (index_map m) (label_id k)); [eauto|congruence].
Qed.

Lemma sm_get_ok cap m k : wf_sm cap m -> label_id k < cap -> @sm_get E K V _ m k = Ok (lookup m k).
Proof.
  intros Hwf Hk. destruct (index_map_some _ _ _ Hwf Hk) as (oi & Hn).
  destruct Hwf as (Hl & He & Hi).
  unfold sm_get, sm_maybe_index, lookup. rewrite (index_ok _ _ _ Hn), Hn. simpl.
  destruct oi as [i|]; auto. destruct (Hi _ _ Hn) as (k' & v & Hen & _).
  unfold sm_deref. rewrite (index_ok _ _ _ Hen), Hen. reflexivity.
Qed.

Lemma sm_get_mut_ok cap m k : wf_sm cap m -> label_id k < cap ->
  match lookup m k with
  | None => @sm_get_mut E K V _ m k = Ok None
  | Some v => exists i, @sm_get_mut E K V _ m k = Ok (Some i) /\ nth_error (entries m) i = Some (k, v)
  end.
Proof.
  intros Hwf Hk. destruct (index_map_some _ _ _ Hwf Hk) as (oi & Hn).
  destruct Hwf as (Hl & He & Hi).
  unfold sm_get_mut, sm_maybe_index, lookup. rewrite Hn. rewrite (index_ok _ _ _ Hn). simpl.
  destruct oi as [i|]; auto. destruct (Hi _ _ Hn) as (k' & v & Hen & Hk').
  unfold sm_deref. rewrite (index_ok _ _ _ Hen), Hen. simpl. apply LI in Hk'. subst k'. eauto.
Qed.

Lemma sm_insert_ok cap m k v : wf_sm cap m -> label_id k < cap -> lookup m k = None ->
  exists m', @sm_insert bm E K V _ m k v = Ok (m', length (entries m)) /\
    wf_sm cap m' /\ entries m' = entries m ++ [(k, v)].
Proof.
  intros Hwf Hk Hlk. destruct (index_map_some _ _ _ Hwf Hk) as (oi & Hn).
  pose proof Hwf as (Hl & He & Hi).
  assert (oi = None) as ->.
  { unfold lookup in Hlk. rewrite Hn in Hlk. destruct oi as [i|]; auto.
    destruct (Hi _ _ Hn) as (k' & v' & Hen & _). rewrite Hen in Hlk. discriminate. }
  unfold sm_insert, debug_assertM. rewrite (index_ok _ _ _ Hn). simpl.
  assert (Hd : (if debug_assertions then @Ok E unit tt else Ok tt) = Ok tt) by (destruct debug_assertions; auto).
  rewrite Hd. simpl. rewrite store_ok by lia. simpl.
  eexists. split; [reflexivity|]. split; [|reflexivity].
  repeat split; simpl.
  - rewrite list_set_length. auto.
  - intros i k' v' Hnth. destruct (Nat.lt_ge_cases i (length (entries m))) as [Hlt|Hge].
    + rewrite nth_error_app1 in Hnth by auto. apply He in Hnth as Hx.
      rewrite nth_error_list_set_neq; auto. intros Hc. rewrite <- Hc in Hx. congruence.
    + rewrite nth_error_app2 in Hnth by auto.
      destruct (i - length (entries m)) as [|x] eqn:Hx; simpl in Hnth; [|destruct x; discriminate].
      injection Hnth as <- <-. rewrite nth_error_list_set_eq by lia. do 2 f_equal. lia.
  - intros id i Hnth. destruct (Nat.eq_dec (label_id k) id) as [<-|Hne].
    + rewrite nth_error_list_set_eq in Hnth by lia. injection Hnth as <-.
      exists k, v. rewrite nth_error_app2, Nat.sub_diag by lia. auto.
    + rewrite nth_error_list_set_neq in Hnth by auto. destruct (Hi _ _ Hnth) as (k' & v' & Hen & Hk').
      exists k', v'. split; auto. rewrite nth_error_app1; auto. apply nth_error_Some. congruence.
Qed.

Lemma sm_assign_ok cap m i k v v' : wf_sm cap m -> nth_error (entries m) i = Some (k, v) ->
  exists m', @sm_assign E K V m i v' = Ok m' /\ wf_sm cap m' /\
    keys m' = keys m /\
    (forall k', lookup m' k' = if Nat.eqb (label_id k) (label_id k') then Some v' else lookup m k').
Proof.
  intros (Hl & He & Hi) Hn. unfold sm_assign. rewrite (index_ok _ _ _ Hn). simpl.
  assert (Hlen : i < length (entries m)) by (apply nth_error_Some; congruence).
  eexists. split; [reflexivity|]. set (m' := mk_sparse _ _).
  assert (Hwf : wf_sm cap m').
  { repeat split; simpl; auto.
    - intros j k1 v1 Hj. destruct (Nat.eq_dec i j) as [<-|Hne].
      + rewrite nth_error_list_set_eq in Hj by auto. injection Hj as <- <-. eauto.
      + rewrite nth_error_list_set_neq in Hj by auto. eauto.
    - intros id j Hj. destruct (Hi _ _ Hj) as (k1 & v1 & Hen & Hid).
      destruct (Nat.eq_dec i j) as [<-|Hne].
      + rewrite Hn in Hen. injection Hen as <- <-. exists k, v'. rewrite nth_error_list_set_eq; auto.
      + exists k1, v1. rewrite nth_error_list_set_neq; auto. }
  split; [exact Hwf|]. split.
  - unfold keys, m'. simpl. clear -Hn. revert i Hn. induction (entries m) as [|e l IH]; intros [|i] Hn; simpl in *; auto.
    + injection Hn as ->. reflexivity.
    + f_equal. auto.
  - intros k'. unfold lookup, m'. simpl.
    destruct (Nat.eqb_spec (label_id k) (label_id k')) as [Heq|Hne].
    + rewrite <- Heq, (He _ _ _ Hn). rewrite nth_error_list_set_eq by auto. reflexivity.
    + destruct (nth_error (index_map m) (label_id k')) as [[j|]|] eqn:Hj; auto.
      rewrite nth_error_list_set_neq; auto. intros <-. destruct (Hi _ _ Hj) as (k1 & v1 & Hen & Hid).
      rewrite Hn in Hen. injection Hen as <- <-. auto.
Qed.

Lemma lookup_snoc cap m m' k v : wf_sm cap m -> wf_sm cap m' ->
  entries m' = entries m ++ [(k, v)] ->
  forall k', lookup m' k' = if Nat.eqb (label_id k) (label_id k') then Some v else lookup m k'.
Proof.
  intros Hwf Hwf' He k'. destruct (Nat.eqb_spec (label_id k) (label_id k')) as [Heq|Hne].
  - apply LI in Heq. subst k'. apply (lookup_in cap); auto. rewrite He. apply in_or_app. simpl; auto.
  - destruct (lookup m k') as [v'|] eqn:Hlk.
    + apply (lookup_in cap); auto. rewrite He. apply in_or_app. left. apply (lookup_in cap); auto.
    + apply (lookup_none cap); auto. unfold keys. rewrite He, map_app. simpl. intros Hc.
      apply in_app_or in Hc as [Hc|[Hc|[]]].
      * eapply lookup_none in Hlk; eauto.
      * subst. congruence.
Qed.

Lemma sm_try_insert_ok cap m k v : wf_sm cap m -> label_id k < cap ->
  match lookup m k with
  | Some v' => @sm_try_insert bm E K V _ m k v = Ok (inr v')
  | None => exists m', @sm_try_insert bm E K V _ m k v = Ok (inl m') /\ wf_sm cap m' /\
      entries m' = entries m ++ [(k, v)]
  end.
Proof.
  intros Hwf Hk. unfold sm_try_insert, sm_maybe_index. destruct (index_map_some _ _ _ Hwf Hk) as (oi & Hn).
  pose proof Hwf as (Hl & He & Hi).
  rewrite (index_ok _ _ _ Hn). simpl. destruct (lookup m k) as [v'|] eqn:Hlk.
  - unfold lookup in Hlk. rewrite Hn in Hlk. destruct oi as [i|]; [|discriminate].
    destruct (nth_error (entries m) i) as [[k' v'']|] eqn:Hen; [|discriminate]. simpl in Hlk. injection Hlk as ->.
    unfold sm_deref. rewrite (index_ok _ _ _ Hen). reflexivity.
  - pose proof Hlk as Hlk'. unfold lookup in Hlk. rewrite Hn in Hlk. destruct oi as [i|].
    { destruct (Hi _ _ Hn) as (k' & v' & Hen & _). rewrite Hen in Hlk. discriminate. }
    destruct (sm_insert_ok _ _ _ v Hwf Hk Hlk') as (m' & Hins & Hwf' & Hent).
    rewrite Hins. simpl. eauto.
Qed.

Lemma sm_get_mut_or_insert_ok cap m k c : wf_sm cap m -> label_id k < cap ->
  exists m' i, @sm_get_mut_or_insert_with bm E K V _ m k c =
      Ok (m', i, match lookup m k with Some _ => false | None => true end) /\
    wf_sm cap m' /\
    nth_error (entries m') i = Some (k, match lookup m k with Some v => v | None => c end) /\
    keys m' = keys m ++ (match lookup m k with Some _ => [] | None => [k] end) /\
    (forall k', lookup m' k' = if Nat.eqb (label_id k) (label_id k')
                               then Some (match lookup m k with Some v => v | None => c end)
                               else lookup m k').
Proof.
  intros Hwf Hk. unfold sm_get_mut_or_insert_with, sm_maybe_index.
  destruct (index_map_some _ _ _ Hwf Hk) as (oi & Hn). pose proof Hwf as (Hl & He & Hi).
  rewrite (index_ok _ _ _ Hn). simpl. destruct (lookup m k) as [v|] eqn:Hlk.
  - pose proof Hlk as Hlk'. unfold lookup in Hlk. rewrite Hn in Hlk. destruct oi as [i|]; [|discriminate].
    destruct (Hi _ _ Hn) as (k' & v' & Hen & Hk'). rewrite Hen in Hlk. simpl in Hlk. injection Hlk as ->.
    apply LI in Hk'. subst k'. unfold sm_deref. rewrite (index_ok _ _ _ Hen). simpl.
    exists m, i. split; [reflexivity|]. rewrite app_nil_r. repeat split; auto.
    intros k'. destruct (Nat.eqb_spec (label_id k) (label_id k')) as [Heq|]; auto.
    apply LI in Heq. subst k'. auto.
  - pose proof Hlk as Hlk'. unfold lookup in Hlk'. rewrite Hn in Hlk'. destruct oi as [i|].
    { destruct (Hi _ _ Hn) as (k' & v' & Hen & _). rewrite Hen in Hlk'. discriminate. }
    destruct (sm_insert_ok _ _ _ c Hwf Hk Hlk) as (m' & Hins & Hwf' & Hent).
    rewrite Hins. simpl. exists m', (length (entries m)). split; [reflexivity|].
    split; [auto|]. split; [rewrite Hent, nth_error_app2, Nat.sub_diag by lia; reflexivity|].
    split; [unfold keys; rewrite Hent, map_app; reflexivity|].
    eapply lookup_snoc; eauto.
Qed.

Lemma in_keys_lookup cap m k : wf_sm cap m -> (In k (keys m) <-> exists v, lookup m k = Some v).
Proof.
  intros Hwf. destruct (lookup m k) eqn:Hl.
  - split; [eauto|]. intros _. apply (lookup_in cap) in Hl; auto. change k with (fst (k, v)). apply in_map; auto.
  - pose proof (proj1 (lookup_none cap m k Hwf) Hl). split; [tauto|]. intros (v & Hv). discriminate.
Qed.

End Sparse.
