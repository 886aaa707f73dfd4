(** Labels and their ids; sets and maps of fixed size. *)
From Coq Require Import Arith Bool String List Lia.
From Verif Require Import Base.Prelude Spec.Grammar Spec.Histories Model.BitSet Model.FixedMap Model.Vocabulary Model.IndexedGrammar Model.FixedSize Spec.FixedSize.
From Verif Require Import Proofs.WP Proofs.BitSetProofs Proofs.DataFinal.
Import ListNotations.

Lemma u8_last : u8_from_id (bm := true) (E := unit) (u8_id 255) = Panic "id < u8::MAX as usize".
Proof. reflexivity. Qed.

Lemma u8_back {bm : BuildMode} {E} l : l < 256 -> (debug_assertions = true -> l <> 255) -> u8_from_id (E := E) (u8_id l) = Ok l.
Proof.
  intros Hl Hd. unfold u8_from_id, u8_id. assert (Hm : l mod 256 = l) by (apply Nat.mod_small; auto). rewrite Hm. unfold debug_assert.
  destruct debug_assertions; [|reflexivity]. assert (Hb : (l <? 255) = true) by (apply Nat.ltb_lt; specialize (Hd eq_refl); lia). rewrite Hb. reflexivity.
Qed.

Lemma option_back {E K} (lab : Label K) (from_id : nat -> outcome E K) : (forall k, from_id (label_id k) = Ok k) ->
  forall o : option K, option_from_id from_id (label_id o) = Ok o.
Proof.
  intros Hk [k|]; unfold label_id, Label_option, option_from_id; simpl; auto. rewrite Nat.sub_0_r. unfold label_id in Hk. rewrite Hk. reflexivity.
Qed.

Lemma aug_back a : aug_from_id (label_id a) = a.
Proof. destruct a as [t| |]; auto. unfold label_id, Label_aug, aug_from_id. rewrite Nat.add_comm. simpl. f_equal. lia. Qed.

Lemma category_back vsize o : (forall a, o = Some (Terminal a) -> label_id a < vsize) -> static_from_id (static_id o vsize) vsize = o.
Proof.
  destruct o as [[a|l]|]; simpl; auto; intros Hv.
  - specialize (Hv a eq_refl). unfold static_from_id, static_id. rewrite Nat.add_comm. simpl. rewrite Nat.sub_0_r, aug_back.
    assert (Hb : (S (label_id a) <=? vsize) = true) by (apply Nat.leb_le; lia).
    destruct vsize; [lia|]. simpl in Hb. rewrite Hb. reflexivity.
  - unfold static_from_id, static_id. destruct (Nat.eqb_spec (vsize + 1 + l) 0) as [Hx|_]; [lia|].
    destruct (Nat.leb_spec (vsize + 1 + l) vsize) as [Hx|_]; [lia|]. f_equal. f_equal. lia.
Qed.

Section Sets.
Context {bm : BuildMode} {E K : Type} {lab : Label K}.

Lemma run_labels_history cap ks : run_labels cap ks = @run_set bm E cap (fold_right (fun k h => SSet (label_id k) h) SNew ks).
Proof. induction ks as [|k ks IH]; simpl; auto. rewrite IH. reflexivity. Qed.

Lemma members_labels ks b : members (fold_right (fun k h => SSet (label_id k) h) SNew ks) b <-> exists k, In k ks /\ label_id k = b.
Proof.
  induction ks as [|k ks IH]; simpl; [split; [tauto|intros (k & [] & _)]|]. rewrite IH. split.
  - intros [->|(k' & Hk & Hb)]; eauto.
  - intros (k' & [->|Hk] & Hb); eauto.
Qed.

Lemma fixed_set_ok : (forall k k' : K, label_id k = label_id k' -> k = k') -> forall cap ks, Forall (fun k : K => label_id k < cap) ks ->
  exists s, run_labels (E := E) cap ks = Ok s /\
  (forall k, label_id k < cap -> exists r, fs_has (E := E) s k = Ok r /\ (r = true <-> In k ks)) /\
  exists r, fs_full (E := E) s = Ok r /\ (r = true <-> forall b, b < cap -> exists k, In k ks /\ label_id k = b).
Proof.
  intros Hinj cap ks Hk. set (h := fold_right (fun k h => SSet (label_id k) h) SNew ks).
  assert (Hw : within cap h) by (unfold h; clear h; induction Hk; simpl; auto).
  destruct (@bitset_is_set bm E cap h Hw) as (s & Hs & Hhas & _ & (r & Hf & Hr) & _). exists s. split; [rewrite run_labels_history; exact Hs|]. split.
  - intros k Hc. destruct (Hhas _ Hc) as (r' & Hr' & Hm). exists r'. split; auto. rewrite Hm. unfold h. rewrite members_labels. split; [|eauto].
    intros (k' & Hin & Hb). apply Hinj in Hb. subst; auto.
  - exists r. split; auto. rewrite Hr. unfold h. split; intros Hx b Hb; apply members_labels; auto.
Qed.
End Sets.

Section Maps.
Context {bm : BuildMode} {E K V : Type} {lab : Label K} {dec : EqDec K}.

Lemma list_set_len {A} (l : list A) i a : length (list_set l i a) = length l.
Proof. revert i; induction l as [|x l IH]; intros [|i]; simpl; auto. Qed.

Lemma fixed_map_from (f : nat -> V) (Hinj : forall k k' : K, label_id k = label_id k' -> k = k') cap ws : Forall (fun w => label_id (fst w) < cap) ws ->
  forall m (o : K -> option V), length m = cap -> (forall k : K, label_id k < cap -> nth_error m (label_id k) = Some (match o k with Some v => v | None => f (label_id k) end)) ->
  exists m', foldM (fun m w => fm_get_mut_assign (E := E) m (fst w) (snd w)) m ws = Ok m' /\ length m' = cap /\
  forall k : K, label_id k < cap -> nth_error m' (label_id k) =
    Some (match fold_left (fun o w => if eq_dec k (fst w) then Some (snd w) else o) ws (o k) with Some v => v | None => f (label_id k) end).
Proof.
  induction 1 as [|[k0 v0] ws Hk _ IH]; intros m o Hl Ho; simpl in *; [exists m; auto|].
  unfold fm_get_mut_assign at 1, store. assert (Hb : (label_id k0 <? length m) = true) by (apply Nat.ltb_lt; lia). rewrite Hb. cbn [bind].
  destruct (IH (list_set m (label_id k0) v0) (fun k => if eq_dec k k0 then Some v0 else o k)) as (m' & Hm & Hl' & Hx).
  - rewrite list_set_len. auto.
  - intros k Hc. destruct (eq_dec k k0) as [->|Hne].
    + rewrite nth_error_list_set_eq; auto. lia.
    + rewrite nth_error_list_set_neq; auto.
  - exists m'. auto.
Qed.

Lemma fixed_map_ok : (forall k k' : K, label_id k = label_id k' -> k = k') -> forall cap (constructor : nat -> V) ws, Forall (fun w => label_id (fst w) < cap) ws ->
  exists m, run_writes (E := E) cap constructor ws = Ok m /\
  forall k : K, (label_id k < cap -> fm_get (E := E) m k = Ok (match last_write k ws with Some v => v | None => constructor (label_id k) end)) /\
    (cap <= label_id k -> exists why, fm_get (E := E) m k = Panic why).
Proof.
  intros Hinj cap f ws Hw. destruct (fixed_map_from f Hinj cap ws Hw (fm_new cap f) (fun _ => None)) as (m & Hm & Hl & Hx).
  - unfold fm_new. rewrite map_length, seq_length. reflexivity.
  - intros k Hk. unfold fm_new. rewrite nth_error_map, nth_error_nth' with (d := 0) by (rewrite seq_length; auto). rewrite seq_nth by auto. reflexivity.
  - exists m. split; [exact Hm|]. intros k. split; intros Hk; unfold fm_get, index.
    + rewrite Hx by auto. reflexivity.
    + assert (Hn : nth_error m (label_id k) = None) by (apply nth_error_None; lia). rewrite Hn. eauto.
Qed.
End Maps.
