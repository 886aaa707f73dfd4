(** One row of the table: what building from the partitions of a kernel does. *)
From Coq Require Import Arith Bool String NArith List Lia Permutation Sorted.
From Verif Require Import Base.Prelude Spec.Grammar Model.Error.
From Verif Require Import Model.BitSet Model.FixedMap Model.Vocabulary Model.IndexedGrammar Model.FirstMap.
From Verif Require Import Model.Position Model.Closure Model.LRTable.
From Verif Require Import Proofs.WP Proofs.BitSetProofs Proofs.FixedMapProofs Proofs.VocabProofs.
From Verif Require Import Proofs.IndexedProofs Proofs.IndexedBuild Proofs.IndexedMain Proofs.FirstProofs.
From Verif Require Import Proofs.ClosureProofs Proofs.ItemSets.
Import ListNotations.

Definition pkey (q : position) : nat * nat := (production_id q, pos q).
Definition adv (q : position) : position := mk_position (production_id q) (pos q + 1) (follow_set q).
Definition next_kernel (ps : list position) : kernel := kernel_new (map adv ps).

Lemma key_dec : forall x y : nat * nat, {x = y} + {x <> y}.
Proof. decide equality; apply Nat.eq_dec. Qed.

Lemma skipn_skipn {A} x y (l : list A) : skipn x (skipn y l) = skipn (x + y) l.
Proof.
  revert l. induction y as [|y IH]; intros l; [rewrite Nat.add_0_r; reflexivity|].
  rewrite Nat.add_succ_r. destruct l; simpl; [apply skipn_nil|apply IH].
Qed.

Definition occ (ps : list position) (k : nat * nat) : nat := count_occ key_dec (map pkey ps) k.

Lemma occ_app ps ps' k : occ (ps ++ ps') k = occ ps k + occ ps' k.
Proof. unfold occ. rewrite map_app. apply count_occ_app. Qed.

Lemma occ_filter f ps k : occ (filter f ps) k <= occ ps k.
Proof.
  unfold occ. induction ps as [|q ps IH]; simpl; auto. destruct (f q); simpl; destruct (key_dec (pkey q) k); lia.
Qed.

Lemma occ_perm ps ps' k : Permutation ps ps' -> occ ps k = occ ps' k.
Proof. intros Hp. unfold occ. apply Permutation_count_occ. apply Permutation_map. auto. Qed.

Lemma occ_adv ps i p : occ (map adv ps) (i, p + 1) = occ ps (i, p).
Proof.
  unfold occ. induction ps as [|q ps IH]; simpl; auto.
  destruct (key_dec (pkey (adv q)) (i, p + 1)) as [Heq|Hne];
  destruct (key_dec (pkey q) (i, p)) as [Heq'|Hne']; unfold pkey in *; simpl in *.
  - f_equal. auto.
  - exfalso. apply Hne'. injection Heq as -> Hp. f_equal. lia.
  - exfalso. apply Hne. injection Heq' as -> ->. auto.
  - auto.
Qed.

Lemma occ_in ps q : In q ps -> 1 <= occ ps (pkey q).
Proof. intros Hi. unfold occ. apply count_occ_In. apply in_map. auto. Qed.

Lemma occ_zero ps i p : (forall q, In q ps -> pkey q <> (i, p)) -> occ ps (i, p) = 0.
Proof.
  intros Hn. unfold occ. apply count_occ_not_In. intros Hi. apply in_map_iff in Hi as (q & Hq & Hi).
  apply (Hn q Hi Hq).
Qed.

Lemma occ_split l1 q l2 q' k : In q' l1 -> pkey q' = k -> pkey q = k -> 2 <= occ (l1 ++ q :: l2) k.
Proof.
  intros Hi Hk Hk'. rewrite occ_app. pose proof (occ_in _ _ Hi) as Ho. rewrite Hk in Ho.
  assert (1 <= occ (q :: l2) k); [|lia]. rewrite <- Hk'. apply occ_in. simpl; auto.
Qed.

(** Kernel table. *)
Definition kt_wf (t : kernel_table) : Prop :=
  NoDup (kstates t) /\ ktable t = combine (kstates t) (seq 0 (length (kstates t))).

Definition kt_ext (t t' : kernel_table) : Prop := exists ext, kstates t' = kstates t ++ ext.

Lemma kt_ext_refl t : kt_ext t t. Proof. exists []. rewrite app_nil_r; auto. Qed.
Lemma kt_ext_trans a b c : kt_ext a b -> kt_ext b c -> kt_ext a c.
Proof. intros (e & He) (e' & He'). exists (e ++ e'). rewrite app_assoc. congruence. Qed.
Lemma kt_ext_nth t t' s k : kt_ext t t' -> nth_error (kstates t) s = Some k -> nth_error (kstates t') s = Some k.
Proof. intros (e & ->) Hn. rewrite nth_error_app1; auto. apply nth_error_Some. congruence. Qed.

Lemma get_or_insert_ok t k : kt_wf t ->
  let '(t', s) := get_or_insert t k in
  kt_wf t' /\ kt_ext t t' /\ nth_error (kstates t') s = Some k /\
  (forall k', In k' (kstates t') -> In k' (kstates t) \/ k' = k).
Proof.
  intros (Hn & Ht). unfold get_or_insert. destruct (hm_get k (ktable t)) as [s|] eqn:Hg.
  - split; [split; auto|]. split; [apply kt_ext_refl|]. split; [|auto].
    rewrite Ht in Hg. apply hm_get_numbered0 in Hg; auto.
  - assert (Hni : ~ In k (kstates t)).
    { intros Hi. apply In_nth_error in Hi as (i & Hi). apply hm_get_numbered0 in Hi; auto. rewrite Ht in Hg. congruence. }
    assert (Hlen : List.length (ktable t) = length (kstates t)).
    { rewrite Ht, combine_length, seq_length. lia. }
    split; [split|].
    + simpl. apply NoDup_snoc; auto.
    + simpl. unfold hm_insert_vacant. rewrite Ht at 1. rewrite Hlen. symmetry. apply numbered_snoc.
    + split; [exists [k]; reflexivity|]. simpl. split.
      * rewrite Hlen, nth_error_app2, Nat.sub_diag by lia. reflexivity.
      * intros k' Hk. apply in_app_iff in Hk as [|[<-|[]]]; auto.
Qed.

Section Row.
Context {bm : BuildMode} {T L : Type} `{EqDec T}.
Local Notation E := (lr_error T L).
Variable g : indexed_grammar T L.
Hypothesis Hwf : wf_ig g.
Variable F : first_table.
Hypothesis HF : FInv g F.
Local Notation n := (labels_count g).
Local Notation m := (vocab_size (ivocab g)).
Local Notation rnodes := (rnodes g).
Local Notation nextn := (nextn g).
Local Notation nextl := (nextl g).
Local Notation rsym := (rsym g).
Local Notation rootclean := (rootclean g).
Local Notation qnext := (qnext g).
Local Notation qcat := (qcat g).
Local Notation good_pos := (good_pos g).

Lemma rootclean_dec : {rootclean} + {In (Production 0) (rnodes 0)}.
Proof.
  destruct (in_dec (eq_dec (A := inode)) (Production 0) (rnodes 0)) as [Hi|Hi]; auto.
Qed.

(** Invariant of the kernels in the table. *)
Definition kshape (K : kernel) : Prop :=
  (exists s, K = [mk_position 0 0 s]) \/ (forall q, In q K -> 1 <= pos q).
Record kinv (K : kernel) : Prop := mk_kinv {
  ki_good : good_kernel g K;
  ki_sorted : ids_sorted K;
  ki_strong : StronglySorted pos_le K;
  ki_rep : exists γ, rep g F K γ;
  ki_shape : kshape K;
  ki_cnt2 : forall k, occ K k <= 2;
  ki_cnt1 : forall i p, i <> 0 \/ rootclean -> occ K (i, p) <= 1;
  ki_pred : forall q, In q K -> pos q = 0 \/ nextn (production_id q) (pos q - 1) <> None;
  ki_nonempty : K <> [];
}.

Section WithKernel.
Variable K : kernel.
Hypothesis HK : kinv K.
Variable C : list position.
Hypothesis HC : is_closure g F K C.
Local Notation P := (K ++ C).

Lemma good_P q : In q P -> good_pos q.
Proof.
  intros Hq. apply in_app_iff in Hq as [Hq|Hq].
  - pose proof (ki_good _ HK) as Hg. unfold good_kernel in Hg. rewrite Forall_forall in Hg. auto.
  - apply HC; auto.
Qed.

Lemma closure_occ i p : occ C (i, p) <= (if p =? 0 then 1 else 0).
Proof.
  destruct HC as (C1 & _ & C3). destruct (Nat.eqb_spec p 0) as [->|Hp].
  - clear -C3. unfold occ. induction C as [|q C' IH]; simpl; [lia|].
    inversion C3 as [|? ? Hn Hd]; subst. specialize (IH Hd). destruct (key_dec (pkey q) (i, 0)) as [Hk|Hk]; auto.
    assert (Hz : count_occ key_dec (map pkey C') (i, 0) = 0); [|lia].
    apply count_occ_not_In. intros Hi. apply in_map_iff in Hi as (q' & Hq' & Hi). apply Hn.
    apply in_map_iff. exists q'. split; auto. unfold pkey in *. congruence.
  - rewrite occ_zero; auto. intros q Hq Hk. destruct (C1 q Hq) as (_ & H0 & _). unfold pkey in Hk. congruence.
Qed.

Lemma no_root_in_C q : rootclean -> In q C -> production_id q <> 0.
Proof.
  intros Hc Hq H0. destruct HC as (C1 & _ & _). destruct (C1 q Hq) as (_ & _ & l & Hr & Hcl & _).
  rewrite H0 in Hr. apply rsym_0 in Hr; auto. subst l.
  inversion Hcl; subst; eapply no_label0; eauto.
Qed.

Lemma occ_P2 k : occ P k <= 2.
Proof.
  destruct k as [i k]. rewrite occ_app. pose proof (closure_occ i k) as H1. pose proof (ki_cnt2 _ HK (i, k)) as H2.
  destruct (Nat.eqb_spec k 0) as [Hk0|Hp]; [subst k|lia].
  destruct (ki_shape _ HK) as [(s & HK0)|Hs].
  - assert (occ K (i, 0) <= 1); [|lia]. rewrite HK0. unfold occ. simpl. destruct (key_dec _ _); lia.
  - assert (occ K (i, 0) = 0); [|lia]. apply occ_zero. intros q Hq Hk. specialize (Hs q Hq). unfold pkey in Hk.
    injection Hk as _ Hk. lia.
Qed.

Lemma occ_P1 i p : i <> 0 \/ rootclean -> occ P (i, p) <= 1.
Proof.
  intros Hi. rewrite occ_app. pose proof (closure_occ i p) as H1. pose proof (ki_cnt1 _ HK i p Hi) as H2.
  destruct (Nat.eqb_spec p 0) as [->|Hp]; [|lia].
  destruct (ki_shape _ HK) as [(s & HK0)|Hs].
  - destruct (Nat.eq_dec i 0) as [->|Hne].
    + destruct Hi as [|Hc]; [congruence|]. assert (occ C (0, 0) = 0); [|lia]. apply occ_zero.
      intros q Hq Hk. apply (no_root_in_C q Hc Hq). unfold pkey in Hk. congruence.
    + assert (occ K (i, 0) = 0); [|lia]. rewrite HK0. apply occ_zero. intros q [<-|[]] Hk. unfold pkey in Hk.
      simpl in Hk. congruence.
  - assert (occ K (i, 0) = 0); [|lia]. apply occ_zero. intros q Hq Hk. specialize (Hs q Hq). unfold pkey in Hk.
    injection Hk as _ Hk. lia.
Qed.

Lemma pred_P q : In q P -> pos q = 0 \/ nextn (production_id q) (pos q - 1) <> None.
Proof.
  intros Hq. apply in_app_iff in Hq as [Hq|Hq]; [apply (ki_pred _ HK); auto|]. left. apply HC; auto.
Qed.

Lemma nextn_none_mono i p p' : p <= p' -> nextn i p = None -> nextn i p' = None.
Proof.
  intros Hle Hn. unfold ClosureProofs.nextn in *. destruct (find _ (skipn p' _)) as [nd|] eqn:Hf; auto.
  apply find_some in Hf as (Hi & Hx).
  assert (Hi' : In nd (skipn p (rnodes i))).
  { replace p' with ((p' - p) + p) in Hi by lia. rewrite <- skipn_skipn in Hi. apply in_skipn in Hi. auto. }
  apply (find_none _ _ Hn) in Hi'. congruence.
Qed.

Lemma complete_unique q q' : In q P -> In q' P -> production_id q = production_id q' ->
  qnext q = None -> qnext q' = None -> pos q = pos q'.
Proof.
  intros Hq Hq' Hi Hn Hn'. unfold ClosureProofs.qnext in *. rewrite Hi in *.
  destruct (Nat.lt_trichotomy (pos q) (pos q')) as [Hlt|[|Hlt]]; auto; exfalso.
  - destruct (pred_P q' Hq') as [|Hp]; [lia|]. apply Hp. apply (nextn_none_mono _ (pos q)); auto. lia.
  - destruct (pred_P q Hq) as [|Hp]; [lia|]. rewrite Hi in Hp. apply Hp. apply (nextn_none_mono _ (pos q')); auto. lia.
Qed.

(** Members of a partition. *)
Lemma qcat_inj q q' : qcat q = qcat q' -> qnext q = qnext q'.
Proof. intros Hq. rewrite <- (static_from_qcat g Hwf q), <- (static_from_qcat g Hwf q'). congruence. Qed.

Lemma advance_ok q : good_pos q -> qnext q <> None -> @advance bm E T L g q = Ok (adv q).
Proof.
  intros Hg Hn. unfold advance, at_end_of_rule. rewrite next_node_ok by auto. simpl.
  fold (qnext q). destruct (qnext q); [|congruence]. simpl. rewrite debug_assertM_true by reflexivity. reflexivity.
Qed.

Lemma advance_all_ok ps : (forall q, In q ps -> good_pos q /\ qnext q <> None) ->
  @advance_all bm E T L g ps = Ok (map adv ps).
Proof.
  intros Hps. unfold advance_all. induction ps as [|q ps IH]; simpl; auto.
  destruct (Hps q) as (Hg & Hn); [simpl; auto|]. rewrite advance_ok by auto. simpl.
  rewrite IH; auto. intros; apply Hps; simpl; auto.
Qed.

Lemma all_not_end_ok ps : (forall q, In q ps -> good_pos q /\ qnext q <> None) ->
  @allM E _ (fun p => e <- at_end_of_rule g p ;; Ok (negb e)) ps = Ok true.
Proof.
  induction ps as [|q ps IH]; simpl; auto. intros Hps. destruct (Hps q) as (Hg & Hn); [simpl; auto|].
  unfold at_end_of_rule at 1. rewrite next_node_ok by auto. simpl.
  fold (qnext q). destruct (qnext q); [|congruence]. simpl. apply IH. intros; apply Hps; simpl; auto.
Qed.

(** The partition for one category. *)
Definition pfilter (X : inode) : list position := filter (fun q => qcat q =? static_id (Some X) m) P.

Lemma static_id_inj o o' : static_from_id (static_id o m) m = o -> static_from_id (static_id o' m) m = o' ->
  static_id o m = static_id o' m -> o = o'.
Proof. congruence. Qed.

Lemma in_pfilter q0 q : In q0 P -> (In q (filter (fun q => qcat q =? qcat q0) P) <-> In q P /\ qnext q = qnext q0).
Proof.
  intros H0. rewrite filter_In, Nat.eqb_eq. split; intros (H1 & H2); split; auto.
  - apply qcat_inj; auto.
  - unfold ClosureProofs.qcat. congruence.
Qed.

Lemma goto_of_partition q0 X : In q0 P -> qnext q0 = Some X ->
  goto_of g F K X (next_kernel (filter (fun q => qcat q =? qcat q0) P)).
Proof.
  intros H0 HX. split.
  - intros i p. split.
    + intros (q & Hq & <- & <-). unfold next_kernel in Hq. apply kernel_new_in1 in Hq.
      apply in_map_iff in Hq as (q' & <- & Hq'). apply in_pfilter in Hq' as (Hq' & Hn); auto.
      exists (pos q'). split; [reflexivity|]. split.
      * apply (icore_closure g F K C); auto. exists q'. auto.
      * rewrite <- HX, <- Hn. reflexivity.
    + intros (p' & -> & Hc & Hn). apply (icore_closure g F K C) in Hc as (q' & Hq' & <- & <-); auto.
      exists (adv q'). split; [|auto]. unfold next_kernel. apply kernel_new_in2. apply in_map. apply in_pfilter; auto.
      split; auto. rewrite HX. exact Hn.
  - intros i p a. split.
    + intros (q & Hq & <- & <- & Ha). unfold next_kernel in Hq. apply kernel_new_in1 in Hq.
      apply in_map_iff in Hq as (q' & <- & Hq'). apply in_pfilter in Hq' as (Hq' & Hn); auto.
      exists (pos q'). split; [reflexivity|]. split.
      * apply (ilook_closure g F K C); auto. exists q'. auto.
      * rewrite <- HX, <- Hn. reflexivity.
    + intros (p' & -> & Hc & Hn). apply (ilook_closure g F K C) in Hc as (q' & Hq' & <- & <- & Ha); auto.
      exists (adv q'). split; [|auto]. unfold next_kernel. apply kernel_new_in2. apply in_map. apply in_pfilter; auto.
      split; auto. rewrite HX. exact Hn.
Qed.

Lemma kinv_next q0 X : In q0 P -> qnext q0 = Some X ->
  kinv (next_kernel (filter (fun q => qcat q =? qcat q0) P)).
Proof.
  intros H0 HX. set (ps := filter _ P).
  assert (Hin : forall q, In q (next_kernel ps) -> exists q', q = adv q' /\ In q' P /\ qnext q' = Some X).
  { intros q Hq. unfold next_kernel in Hq. apply kernel_new_in1 in Hq. apply in_map_iff in Hq as (q' & <- & Hq').
    apply in_pfilter in Hq' as (Hq' & Hn); auto. exists q'. rewrite Hn. auto. }
  assert (Hocc : forall i p, occ (next_kernel ps) (i, p) <= (if p =? 0 then 0 else occ P (i, p - 1))).
  { intros i p. unfold next_kernel. rewrite (occ_perm _ _ _ (kernel_new_perm _)). destruct (Nat.eqb_spec p 0) as [->|Hp].
    - rewrite occ_zero; auto. intros q Hq Hk. apply in_map_iff in Hq as (q' & <- & _). unfold pkey in Hk. simpl in Hk.
      injection Hk as _ Hk. lia.
    - replace p with (p - 1 + 1) at 1 by lia. rewrite occ_adv. apply occ_filter. }
  constructor.
  - apply Forall_forall. intros q Hq. destruct (Hin q Hq) as (q' & -> & Hq' & Hn). destruct (good_P q' Hq') as (G1 & G2 & G3).
    split; [auto|]. split; [|auto]. simpl. apply skipn_nextn in Hn. lia.
  - apply kernel_new_sorted.
  - apply kernel_new_strong.
  - destruct (ki_rep _ HK) as (γ & Hγ). exists (X :: γ). eapply rep_step; eauto. apply goto_of_partition; auto.
  - right. intros q Hq. destruct (Hin q Hq) as (q' & -> & _). simpl. lia.
  - intros [i p]. specialize (Hocc i p). destruct (p =? 0); [lia|]. pose proof (occ_P2 (i, p - 1)). lia.
  - intros i p Hi. specialize (Hocc i p). destruct (p =? 0); [lia|]. pose proof (occ_P1 i (p - 1) Hi). lia.
  - intros q Hq. destruct (Hin q Hq) as (q' & -> & _ & Hn). right. simpl. rewrite Nat.add_sub.
    unfold ClosureProofs.qnext in Hn. congruence.
  - intros Hnil. assert (Hq : In (adv q0) (next_kernel ps)).
    { unfold next_kernel. apply kernel_new_in2. apply in_map. apply in_pfilter; auto. }
    rewrite Hnil in Hq. destruct Hq.
Qed.

End WithKernel.

(** Entry builders. *)
Definition wfb (b : entry_builder) : Prop := wf_sm m (eactions b) /\ wf_sm n (egotos b).

Definition conflict (r : nat) (ex : action) (la : aug T) : E :=
  match ex with
  | Reduce o => ReduceConflict r o la
  | Shift _ => ShiftReduceConflict r la
  | Accept => ReduceConflict r 0 la
  end.

Lemma add_action_ok b a act : wfb b -> label_id a < m ->
  match lookup (eactions b) a with
  | Some ex => @add_action bm T L b a act = Ok (inr ex)
  | None => exists b', @add_action bm T L b a act = Ok (inl b') /\ wfb b' /\
      entries (eactions b') = entries (eactions b) ++ [(a, act)] /\ egotos b' = egotos b
  end.
Proof.
  intros (Hw1 & Hw2) Ha. unfold add_action.
  pose proof (@sm_try_insert_ok bm E (aug nat) action _ m (eactions b) a act Hw1 Ha) as Hi.
  destruct (lookup (eactions b) a) as [ex|].
  - rewrite Hi. reflexivity.
  - destruct Hi as (m' & -> & Hw' & He). simpl. eexists. split; [reflexivity|]. simpl. split; [split; auto|]. auto.
Qed.

Lemma add_goto_ok b l s : wfb b -> l < n ->
  match lookup (egotos b) l with
  | Some ex => @add_goto_action bm T L b l s = Ok (inr ex)
  | None => exists b', @add_goto_action bm T L b l s = Ok (inl b') /\ wfb b' /\
      entries (egotos b') = entries (egotos b) ++ [(l, s)] /\ eactions b' = eactions b
  end.
Proof.
  intros (Hw1 & Hw2) Ha. unfold add_goto_action.
  pose proof (@sm_try_insert_ok bm E nat nat _ n (egotos b) l s Hw2 Ha) as Hi.
  destruct (lookup (egotos b) l) as [ex|].
  - rewrite Hi. reflexivity.
  - destruct Hi as (m' & -> & Hw' & He). simpl. eexists. split; [reflexivity|]. simpl. split; [split; auto|]. auto.
Qed.

Lemma reduce_fold Pn Dv j toks b : wfb b -> NoDup toks -> (forall a, In a toks -> label_id a < m) ->
  wp Pn Dv (foldM (@add_reduce_action bm T L g j) b toks)
    (fun b' => wfb b' /\ entries (eactions b') = entries (eactions b) ++ map (fun a => (a, Reduce j)) toks /\
       egotos b' = egotos b)
    (fun e => exists a ex la, In a toks /\ In (a, ex) (entries (eactions b)) /\ aug_rel (ivocab g) la a /\
       e = conflict j ex la).
Proof.
  revert b. induction toks as [|a toks IH]; intros b Hb Hn Ha.
  - simpl. rewrite app_nil_r. auto.
  - rewrite foldM_cons. apply wp_bind. inversion Hn as [|? ? Hni Hn']; subst. unfold add_reduce_action.
    assert (Ham : label_id a < m) by (apply Ha; simpl; auto).
    pose proof (add_action_ok b a (Reduce j) Hb Ham) as Hadd. destruct (lookup (eactions b) a) as [ex|] eqn:Hl.
    + rewrite Hadd. simpl. destruct (@id_to_token_spec T E (ivocab g) a Ham) as (la & -> & Hla). simpl.
      apply (lookup_in m) in Hl; [|apply Hb].
      assert (He : exists a0 ex0 la0, In a0 (a :: toks) /\ In (a0, ex0) (entries (eactions b)) /\
         aug_rel (ivocab g) la0 a0 /\ conflict j ex la = conflict j ex0 la0) by (exists a, ex, la; simpl; auto).
      destruct ex; exact He.
    + destruct Hadd as (b' & -> & Hb' & He & Hg). simpl.
      eapply wp_mono; [apply IH; auto| |].
      * intros; apply Ha; simpl; auto.
      * intros b'' (W & E1 & E2). split; [auto|]. split; [|congruence]. rewrite E1, He, <- app_assoc. reflexivity.
      * intros e (a' & ex & la & Ht & Hl' & Hla & ->). rewrite He in Hl'. apply in_app_iff in Hl' as [Hl'|[Heq|[]]].
        -- exists a', ex, la. simpl. auto.
        -- injection Heq as <- _. tauto.
Qed.

Definition toks_of (q : position) : list (aug nat * action) :=
  if production_id q =? 0 then [(EndOfStream, Accept)]
  else map (fun a => (a, Reduce (production_id q))) (vs_iter (follow_set q)).

(** Every completed position of the root rule comes first, into an empty
    builder, and has only the end of stream as lookahead. *)
Definition root_first (b : entry_builder) (ps : list position) : Prop :=
  forall pre q post, ps = pre ++ q :: post -> production_id q = 0 ->
    pre = [] /\ entries (eactions b) = [] /\ forall a, vmem (follow_set q) a = true -> a = EndOfStream.

Lemma complete_fold (Pn Dv : Prop) ps b : wfb b -> (forall q, In q ps -> good_pos q /\ qnext q = None) ->
  Pn \/ root_first b ps ->
  wp Pn Dv (foldM (@add_completed bm T L g) b ps)
    (fun b' => wfb b' /\ entries (eactions b') = entries (eactions b) ++ concat (map toks_of ps) /\
       egotos b' = egotos b)
    (fun e => exists pre q post a ex la, ps = pre ++ q :: post /\ production_id q <> 0 /\
       vmem (follow_set q) a = true /\
       (In (a, ex) (entries (eactions b)) \/ In (a, ex) (concat (map toks_of pre))) /\
       aug_rel (ivocab g) la a /\ e = conflict (production_id q) ex la).
Proof.
  intros Hb Hps Hrf.
  apply (wp_foldM_pre (fun pre b' => wfb b' /\
     entries (eactions b') = entries (eactions b) ++ concat (map toks_of pre) /\ egotos b' = egotos b)).
  { simpl. rewrite app_nil_r. auto. }
  intros pre q post b1 Heq (W1 & E1 & G1). unfold add_completed.
  destruct (Hps q) as (Hg & Hn). { rewrite Heq. apply in_app_iff. simpl; auto. }
  unfold at_end_of_rule. rewrite next_node_ok by auto. fold (qnext q). rewrite Hn. simpl.
  rewrite debug_assertM_true by reflexivity. simpl.
  unfold root_production_rule.
  assert (Hcat : concat (map toks_of (pre ++ [q])) = concat (map toks_of pre) ++ toks_of q).
  { rewrite map_app, concat_app. simpl. rewrite app_nil_r. auto. }
  destruct (Nat.eqb_spec (production_id q) 0) as [H0|H0].
  - destruct Hrf as [HPn|Hrf].
    + apply wp_bind. apply wp_conseq with (Q := fun _ => True).
      { unfold debug_assert. destruct debug_assertions; [destruct (forallb is_eos _)|]; simpl; auto. }
      intros _ _.
      assert (Hee : label_id (@EndOfStream nat) < m) by apply eos_bound.
      pose proof (add_action_ok b1 EndOfStream Accept W1 Hee) as Hadd. destruct (lookup (eactions b1) EndOfStream).
      * rewrite Hadd. simpl. auto.
      * destruct Hadd as (b' & -> & W & E2 & G2). simpl. split; [auto|]. split; [|congruence].
        rewrite E2, E1, Hcat, app_assoc. unfold toks_of at 3. rewrite H0. reflexivity.
    + destruct (Hrf pre q post Heq H0) as (-> & Hempty & Heos).
      assert (Hfe : forallb is_eos (vs_iter (follow_set q)) = true).
      { apply forallb_forall. intros a Ha. apply (in_vs_iter m) in Ha; [|apply Hg]. rewrite (Heos a Ha). reflexivity. }
      rewrite Hfe, debug_assert_true. simpl. simpl in E1. rewrite Hempty in E1. simpl in E1.
      pose proof (add_action_ok b1 EndOfStream Accept W1 (eos_bound g)) as Hadd.
      assert (Hln : lookup (eactions b1) EndOfStream = None).
      { apply (lookup_none m); [apply W1|]. unfold keys. rewrite E1. simpl. tauto. }
      rewrite Hln in Hadd. destruct Hadd as (b' & -> & W & E2 & G2). simpl. split; [auto|]. split; [|congruence].
      rewrite E2, E1, Hempty. simpl. unfold toks_of. rewrite H0. reflexivity.
  - eapply wp_mono; [apply reduce_fold; auto| |].
    + apply vs_iter_nodup.
    + intros a Ha. apply (in_vs_iter m) in Ha; [|apply Hg]. apply (vmem_bound m (follow_set q)); auto. apply Hg.
    + intros b' (W & E2 & G2). split; [auto|]. split; [|congruence].
      rewrite E2, E1, Hcat, app_assoc. unfold toks_of at 3. destruct (Nat.eqb_spec (production_id q) 0); [tauto|reflexivity].
    + intros e (a & ex & la & Ha & Hex & Hla & ->). exists pre, q, post, a, ex, la.
      apply (in_vs_iter m) in Ha; [|apply Hg]. rewrite E1 in Hex. apply in_app_iff in Hex. auto 10.
Qed.

(** What one partition contributes. *)
Definition contrib (kt : kernel_table) (e : nat * list position)
    (c : list (aug nat * action) * list (nat * nat)) : Prop :=
  match static_from_id (fst e) m with
  | None => c = (concat (map toks_of (snd e)), [])
  | Some (Terminal a) => exists s, nth_error (kstates kt) s = Some (next_kernel (snd e)) /\ c = ([(a, Shift s)], [])
  | Some (Production l) => exists s, nth_error (kstates kt) s = Some (next_kernel (snd e)) /\ c = ([], [(l, s)])
  end.

Lemma contrib_ext kt kt' e c : kt_ext kt kt' -> contrib kt e c -> contrib kt' e c.
Proof.
  intros He. unfold contrib. destruct (static_from_id (fst e) m) as [[a|l]|]; auto;
  intros (s & Hs & ->); exists s; split; auto; eapply kt_ext_nth; eauto.
Qed.

Section Parts.
Variable K : kernel.
Hypothesis HK : kinv K.
Variable C : list position.
Hypothesis HC : is_closure g F K C.
Local Notation P := (K ++ C).
Variable parts : sparse_map nat (list position).
Hypothesis Hparts : is_part g P parts.

Lemma part_entry id ps : In (id, ps) (sm_iter parts) ->
  exists q0, In q0 P /\ qcat q0 = id /\ ps = filter (fun q => qcat q =? qcat q0) P /\ In q0 ps /\
    static_from_id id m = qnext q0.
Proof.
  intros Hi. destruct Hparts as (Hw & Hl & _). apply (lookup_in (n + m + 1)) in Hi; auto.
  rewrite Hl in Hi. unfold part_lookup in Hi. destruct (filter _ P) as [|q0 ps'] eqn:Hf; [discriminate|].
  injection Hi as <-. assert (Hq0 : In q0 (filter (fun q => qcat q =? id) P)) by (rewrite Hf; simpl; auto).
  apply filter_In in Hq0 as (Hq0 & Hc). apply Nat.eqb_eq in Hc. exists q0. subst id.
  split; [auto|]. split; [auto|]. split; [auto|]. split; [simpl; auto|]. apply static_from_qcat; auto.
Qed.

Lemma part_total q0 : In q0 P -> exists ps, In (qcat q0, ps) (sm_iter parts) /\ In q0 ps.
Proof.
  intros Hq. destruct Hparts as (Hw & Hl & _). specialize (Hl (qcat q0)). unfold part_lookup in Hl.
  assert (Hi : In q0 (filter (fun q => qcat q =? qcat q0) P)) by (apply filter_In; rewrite Nat.eqb_refl; auto).
  destruct (filter _ P) as [|q1 ps] eqn:Hf; [destruct Hi|]. exists (q1 :: ps). split; auto.
  apply (lookup_in (n + m + 1)) in Hl; auto.
Qed.

Lemma part_unique id ps id' ps' : In (id, ps) (sm_iter parts) -> In (id', ps') (sm_iter parts) ->
  static_from_id id m = static_from_id id' m -> id = id'.
Proof.
  intros Hi Hi' Hs. destruct (part_entry _ _ Hi) as (q & _ & <- & _ & _ & Hq).
  destruct (part_entry _ _ Hi') as (q' & _ & <- & _ & _ & Hq'). unfold ClosureProofs.qcat. congruence.
Qed.

Lemma parts_nodup : NoDup (map fst (sm_iter parts)).
Proof. destruct Hparts as (Hw & _). apply (keys_nodup (n + m + 1)); auto. Qed.

Lemma done_other done e todo : sm_iter parts = done ++ e :: todo ->
  forall e', In e' done -> In e' (sm_iter parts) /\ static_from_id (fst e') m <> static_from_id (fst e) m.
Proof.
  intros Heq e' He'. assert (Hi : In e' (sm_iter parts)) by (rewrite Heq; apply in_app_iff; auto). split; auto.
  intros Hs. destruct e as [id ps], e' as [id' ps']. simpl in Hs.
  assert (id' = id).
  { apply (part_unique id' ps' id ps); auto. rewrite Heq. apply in_app_iff. simpl; auto. }
  subst id'. pose proof parts_nodup as Hn. rewrite Heq, map_app in Hn. simpl in Hn.
  apply NoDup_remove_2 in Hn. apply Hn. apply in_app_iff. left. change id with (fst (id, ps')). apply in_map. auto.
Qed.

(** Completed items and shifts of the state. *)
Definition completes (r : nat) (a : aug nat) : Prop :=
  exists q, In q P /\ production_id q = r /\ qnext q = None /\
    (r = 0 -> a = EndOfStream) /\ (r <> 0 -> vmem (follow_set q) a = true).
Definition shifts (a : aug nat) : Prop := exists q, In q P /\ qnext q = Some (Terminal a).

Definition row_err (e : E) : Prop :=
  match e with
  | ReduceConflict r1 r2 la => exists a, aug_rel (ivocab g) la a /\ r1 <> r2 /\ completes r1 a /\ completes r2 a
  | ShiftReduceConflict r la => exists a, aug_rel (ivocab g) la a /\ shifts a /\ completes r a
  | _ => False
  end.

Lemma in_toks_of q a act : good_pos q -> In (a, act) (toks_of q) ->
  (production_id q = 0 /\ a = EndOfStream /\ act = Accept) \/
  (production_id q <> 0 /\ act = Reduce (production_id q) /\ vmem (follow_set q) a = true).
Proof.
  intros Hg Hi. unfold toks_of in Hi. destruct (Nat.eqb_spec (production_id q) 0) as [H0|H0].
  - destruct Hi as [Heq|[]]. injection Heq as <- <-. auto.
  - apply in_map_iff in Hi as (a' & Heq & Ha). injection Heq as <- <-. right. split; auto. split; auto.
    apply (in_vs_iter m); auto. apply Hg.
Qed.

Lemma in_contrib_act kt e c a act : In e (sm_iter parts) -> contrib kt e c -> In (a, act) (fst c) ->
  match act with
  | Shift s => static_from_id (fst e) m = Some (Terminal a) /\ shifts a /\
      nth_error (kstates kt) s = Some (next_kernel (snd e))
  | Reduce j => static_from_id (fst e) m = None /\ j <> 0 /\ completes j a
  | Accept => static_from_id (fst e) m = None /\ a = EndOfStream /\ completes 0 a
  end.
Proof.
  intros Hi Hc Ha. destruct e as [id ps]. destruct (part_entry _ _ Hi) as (q0 & Hq0 & Hid & Hps & _ & Hst).
  unfold contrib in Hc. simpl in *. rewrite Hst in *. destruct (qnext q0) as [[b|l]|] eqn:Hn.
  - destruct Hc as (s & Hs & ->). destruct Ha as [Heq|[]]. injection Heq as <- <-.
    split; auto. split; auto. exists q0. auto.
  - destruct Hc as (s & Hs & ->). destruct Ha.
  - subst c. simpl in Ha. apply in_concat in Ha as (ts & Hts & Ha). apply in_map_iff in Hts as (q & <- & Hq).
    subst ps. apply in_pfilter in Hq as (Hq & Hqn); auto. rewrite Hn in Hqn.
    apply in_toks_of in Ha as [(H0 & -> & ->)|(H0 & -> & Hv)]; [| |eapply good_P; eauto].
    + split; auto. split; auto. exists q. repeat split; auto; congruence.
    + split; auto. split; auto. exists q. repeat split; auto; congruence.
Qed.

Lemma in_contrib_goto kt e c l s : In e (sm_iter parts) -> contrib kt e c -> In (l, s) (snd c) ->
  static_from_id (fst e) m = Some (Production l) /\ nth_error (kstates kt) s = Some (next_kernel (snd e)).
Proof.
  intros Hi Hc Ha. unfold contrib in Hc. destruct (static_from_id (fst e) m) as [[b|l']|] eqn:Hn.
  - destruct Hc as (s' & Hs & ->). destruct Ha.
  - destruct Hc as (s' & Hs & ->). destruct Ha as [Heq|[]]. injection Heq as <- <-. auto.
  - subst c. destruct Ha.
Qed.

Variable kt0 : kernel_table.

Definition pinv (done : list (nat * list position)) (st : entry_builder * kernel_table) : Prop :=
  wfb (fst st) /\ kt_wf (snd st) /\ kt_ext kt0 (snd st) /\
  (forall k, In k (kstates (snd st)) -> In k (kstates kt0) \/
     (kinv k /\ exists e, In e done /\ static_from_id (fst e) m <> None /\ k = next_kernel (snd e))) /\
  exists cs, Forall2 (contrib (snd st)) done cs /\
    entries (eactions (fst st)) = concat (map fst cs) /\ entries (egotos (fst st)) = concat (map snd cs).

Lemma pinv_act done b kt a act : (forall e, In e done -> In e (sm_iter parts)) -> pinv done (b, kt) ->
  In (a, act) (entries (eactions b)) -> exists e c, In e done /\ contrib kt e c /\ In (a, act) (fst c).
Proof.
  intros Hd (_ & _ & _ & _ & cs & Hcs & He & _) Hi. simpl in He. rewrite He in Hi. apply in_concat in Hi as (x & Hx & Hi).
  apply in_map_iff in Hx as (c & <- & Hc). destruct (Forall2_in_r _ _ _ c Hcs Hc) as (e & Hed & Hec).
  exists e, c. auto.
Qed.

Lemma pinv_goto done b kt l s : (forall e, In e done -> In e (sm_iter parts)) -> pinv done (b, kt) ->
  In (l, s) (entries (egotos b)) -> exists e c, In e done /\ contrib kt e c /\ In (l, s) (snd c).
Proof.
  intros Hd (_ & _ & _ & _ & cs & Hcs & _ & He) Hi. simpl in He. rewrite He in Hi. apply in_concat in Hi as (x & Hx & Hi).
  apply in_map_iff in Hx as (c & <- & Hc). destruct (Forall2_in_r _ _ _ c Hcs Hc) as (e & Hed & Hec).
  exists e, c. auto.
Qed.

(** The root item, when complete, is the first position of the kernel. *)
Lemma root_is_head q : rootclean -> In q P -> production_id q = 0 -> qnext q = None ->
  exists K', K = q :: K' /\ forall q', In q' (K' ++ C) -> production_id q' = 0 -> qnext q' <> None.
Proof.
  intros Hc Hq H0 Hn. assert (HqK : In q K).
  { apply in_app_iff in Hq as [|Hq']; auto. exfalso. eapply (no_root_in_C K C HC q); eauto. }
  destruct K as [|h K'] eqn:HKe; [destruct HqK|]. exists K'.
  assert (Hh0 : production_id h = 0).
  { destruct HqK as [->|Hin]; auto. pose proof (ki_sorted _ HK) as Hs. apply ids_sorted_inv in Hs as (Hs & _).
    specialize (Hs q Hin). lia. }
  assert (Hpos : forall q', In q' (h :: K') -> production_id q' = 0 -> pos q' = pos q).
  { intros q' Hq' Hi'. destruct (ki_rep _ HK) as (γ & R & _).
    assert (Hc1 : core g γ 0 (pos q')) by (apply R; left; eauto).
    assert (Hc2 : core g γ 0 (pos q)) by (apply R; left; eauto).
    apply core_root in Hc1; auto. apply core_root in Hc2; auto. congruence. }
  assert (Huniq : forall q', In q' K' -> production_id q' = 0 -> False).
  { intros q' Hq' Hi'. pose proof (ki_cnt1 _ HK 0 (pos q) (or_intror Hc)) as Ho.
    assert (2 <= occ (h :: K') (0, pos q)); [|lia].
    apply in_split in Hq' as (l1 & l2 & ->). change (h :: l1 ++ q' :: l2) with ((h :: l1) ++ q' :: l2) in *.
    apply (occ_split _ _ _ h); [simpl; auto| |]; unfold pkey.
    - rewrite Hh0, Hpos; auto. simpl; auto.
    - rewrite Hi', Hpos; auto. apply in_app_iff. simpl; auto. }
  split.
  - destruct HqK as [->|Hin]; auto. exfalso. eauto.
  - intros q' Hq' Hi' _. apply in_app_iff in Hq' as [Hq'|Hq']; [eauto|]. eapply (no_root_in_C (h :: K') C HC q'); eauto.
Qed.

Lemma add_partition_ok Dv done e todo b kt : sm_iter parts = done ++ e :: todo -> pinv done (b, kt) ->
  wp (In (Production 0) (rnodes 0)) Dv (@add_partition bm T L g (b, kt) e) (pinv (done ++ [e])) row_err.
Proof.
  intros Heq Hinv. pose proof Hinv as (Hwb & Hkt & Hext & Hnew & cs & Hcs & Hea & Heg). simpl in Hwb, Hkt, Hext, Hnew, Hcs, Hea, Heg.
  assert (Hdone : forall e', In e' done -> In e' (sm_iter parts)) by (intros; rewrite Heq; apply in_app_iff; auto).
  assert (He : In e (sm_iter parts)) by (rewrite Heq; apply in_app_iff; simpl; auto).
  pose proof (done_other _ _ _ Heq) as Hother.
  destruct e as [id ps]. destruct (part_entry _ _ He) as (q0 & Hq0 & Hid & Hps & Hq0ps & Hst).
  unfold add_partition. rewrite Hst.
  assert (Hpin : forall q, In q ps <-> In q P /\ qnext q = qnext q0) by (intros; subst ps; apply in_pfilter; auto).
  destruct (qnext q0) as [X|] eqn:HX.
  - assert (Hall : forall q, In q ps -> good_pos q /\ qnext q <> None).
    { intros q Hq. apply Hpin in Hq as (Hq & Hn). split; [eapply good_P; eauto|congruence]. }
    rewrite debug_assertM_true by (apply all_not_end_ok; auto). simpl.
    rewrite advance_all_ok by auto. simpl. fold (next_kernel ps).
    pose proof (get_or_insert_ok kt (next_kernel ps) Hkt) as Hgi.
    destruct (get_or_insert kt (next_kernel ps)) as [kt' s]. destruct Hgi as (Hkt' & Hext' & Hs & Hnew').
    assert (Hn2 : forall k, In k (kstates kt') -> In k (kstates kt0) \/
       (kinv k /\ exists e, In e (done ++ [(id, ps)]) /\ static_from_id (fst e) m <> None /\ k = next_kernel (snd e))).
    { intros k Hk. destruct (Hnew' k Hk) as [Hk'| ->].
      - destruct (Hnew k Hk') as [|(Hki & e & Hin & He')]; auto. right. split; auto. exists e. rewrite in_app_iff. auto.
      - right. split; [subst ps; eapply kinv_next; eauto|]. exists (id, ps). rewrite in_app_iff. simpl.
        split; auto. split; auto. rewrite Hst. discriminate. }
    assert (Hcs' : Forall2 (contrib kt') done cs).
    { eapply Forall2_impl; [|exact Hcs]. intros; eapply contrib_ext; eauto. }
    destruct X as [a|l].
    + assert (Ham : label_id a < m) by (apply (nextn_range g Hwf _ _ _ HX)).
      pose proof (add_action_ok b a (Shift s) Hwb Ham) as Hadd. destruct (lookup (eactions b) a) as [ex|] eqn:Hl.
      * rewrite Hadd. simpl. destruct (@id_to_token_spec T E (ivocab g) a Ham) as (la & -> & Hla). simpl.
        apply (lookup_in m) in Hl; [|apply Hwb].
        destruct (pinv_act done b kt a ex Hdone Hinv Hl) as (e' & c & Hed & Hec & Hin).
        destruct (Hother e' Hed) as (Hep & Hst'). simpl in Hst'. rewrite Hst in Hst'.
        pose proof (in_contrib_act kt e' c a ex Hep Hec Hin) as Hj.
        destruct ex as [s'|r|]; simpl.
        -- destruct Hj as (Hj & _). destruct (Hst' Hj).
        -- destruct Hj as (_ & _ & Hj). exists a. split; auto. split; auto. exists q0. auto.
        -- destruct Hj as (_ & _ & Hj). exists a. split; auto. split; auto. exists q0. auto.
      * destruct Hadd as (b' & -> & Hwb' & Hea' & Heg'). simpl. split; [auto|]. split; [auto|].
        split; [eapply kt_ext_trans; eauto|]. split; [auto|].
        exists (cs ++ [([(a, Shift s)], [])]). split; [|split].
        -- apply Forall2_app; auto. constructor; [|constructor]. unfold contrib. simpl. rewrite Hst. eauto.
        -- simpl. rewrite Hea', Hea, map_app, concat_app. reflexivity.
        -- simpl. rewrite Heg', Heg, map_app, concat_app. simpl. rewrite app_nil_r. reflexivity.
    + assert (Hlm : l < n) by (apply (nextn_range g Hwf _ _ _ HX)).
      pose proof (add_goto_ok b l s Hwb Hlm) as Hadd. destruct (lookup (egotos b) l) as [ex|] eqn:Hl.
      * exfalso. apply (lookup_in n) in Hl; [|apply Hwb].
        destruct (pinv_goto done b kt l ex Hdone Hinv Hl) as (e' & c & Hed & Hec & Hin).
        destruct (Hother e' Hed) as (Hep & Hst'). simpl in Hst'. rewrite Hst in Hst'.
        destruct (in_contrib_goto kt e' c l ex Hep Hec Hin) as (Hj & _). exact (Hst' Hj).
      * destruct Hadd as (b' & -> & Hwb' & Hea' & Heg'). simpl. split; [auto|]. split; [auto|].
        split; [eapply kt_ext_trans; eauto|]. split; [auto|].
        exists (cs ++ [([], [(l, s)])]). split; [|split].
        -- apply Forall2_app; auto. constructor; [|constructor]. unfold contrib. simpl. rewrite Hst. eauto.
        -- simpl. rewrite Heg', Hea, map_app, concat_app. simpl. rewrite app_nil_r. reflexivity.
        -- simpl. rewrite Hea', Heg, map_app, concat_app. reflexivity.
  - apply wp_bind. eapply wp_mono; [apply complete_fold; auto| |].
    + intros q Hq. apply Hpin in Hq as (Hq & Hn). split; [eapply good_P; eauto|auto].
    + destruct rootclean_dec as [Hc|]; auto. right. intros pre q post Hpq H0.
      assert (Hq : In q ps) by (rewrite Hpq; apply in_app_iff; simpl; auto).
      apply Hpin in Hq as (HqP & Hqn).
      destruct (root_is_head q Hc HqP H0 Hqn) as (K' & HKq & Hrest).
      assert (Hpsq : exists ps', ps = q :: ps' /\ forall q', In q' ps' -> production_id q' <> 0).
      { rewrite Hps, HKq. simpl. replace (qcat q =? qcat q0) with true.
        - eexists. split; [reflexivity|]. intros q' Hq' Hi'. apply filter_In in Hq' as (Hq' & Hcat).
          apply (Hrest q' Hq' Hi'). apply Nat.eqb_eq in Hcat. apply qcat_inj in Hcat. congruence.
        - symmetry. apply Nat.eqb_eq. unfold ClosureProofs.qcat. congruence. }
      destruct Hpsq as (ps' & Hps' & Hno). split; [|split].
      * destruct pre as [|x pre]; auto. exfalso. rewrite Hps' in Hpq. simpl in Hpq. injection Hpq as _ Hpq.
        apply (Hno q); auto. rewrite Hpq. apply in_app_iff. simpl; auto.
      * assert (Hd0 : done = []).
        { destruct Hparts as (_ & _ & Hhd). rewrite HKq in Hhd. simpl in Hhd.
          destruct done as [|e0 done']; auto. exfalso. unfold keys in Hhd. change (entries parts) with (sm_iter parts) in Hhd. rewrite Heq in Hhd. simpl in Hhd. injection Hhd as Hhd.
          destruct (Hother e0) as (_ & Hne); [simpl; auto|]. apply Hne. rewrite Hhd. simpl. rewrite Hst.
          rewrite static_from_qcat by auto. auto. }
        subst done. inversion Hcs; subst. simpl in Hea. auto.
      * intros a Ha. destruct (ki_rep _ HK) as (γ & _ & R). apply (look_root g Hwf F γ (pos q) a Hc). apply R.
        left. exists q. split; [rewrite HKq; simpl; auto|]. auto.
    + intros b' (Hwb' & Hea' & Heg'). simpl. split; [auto|]. split; [auto|]. split; [auto|]. split.
      { intros k Hk. destruct (Hnew k Hk) as [|(Hki & e & Hin & He')]; auto. right. split; auto. exists e.
        rewrite in_app_iff. auto. }
      exists (cs ++ [(concat (map toks_of ps), [])]). split; [|split].
      * apply Forall2_app; auto. constructor; [|constructor]. unfold contrib. simpl. rewrite Hst. auto.
      * simpl. rewrite Hea', Hea, map_app, concat_app. simpl. rewrite app_nil_r. reflexivity.
      * simpl. rewrite Heg', Heg, map_app, concat_app. simpl. rewrite app_nil_r. reflexivity.
    + intros err (pre & q & post & a & ex & la & Hpq & Hq0' & Hv & Hex & Hla & ->).
      assert (Hq : In q ps) by (rewrite Hpq; apply in_app_iff; simpl; auto).
      apply Hpin in Hq as (HqP & Hqn).
      assert (Hcq : completes (production_id q) a).
      { exists q. repeat split; auto; congruence. }
      destruct Hex as [Hex|Hex].
      * destruct (pinv_act done b kt a ex Hdone Hinv Hex) as (e' & c & Hed & Hec & Hin).
        destruct (Hother e' Hed) as (Hep & Hst'). simpl in Hst'. rewrite Hst in Hst'.
        pose proof (in_contrib_act kt e' c a ex Hep Hec Hin) as Hj.
        destruct ex as [s'|r|]; simpl.
        -- destruct Hj as (_ & Hj & _). exists a. auto.
        -- destruct Hj as (Hj & _). destruct (Hst' Hj).
        -- destruct Hj as (Hj & _). destruct (Hst' Hj).
      * apply in_concat in Hex as (ts & Hts & Hin). apply in_map_iff in Hts as (q' & <- & Hq').
        assert (Hq'ps : In q' ps) by (rewrite Hpq; apply in_app_iff; auto).
        apply Hpin in Hq'ps as (Hq'P & Hq'n).
        apply in_toks_of in Hin as [(H0 & -> & ->)|(H0 & -> & Hv')]; [| |eapply good_P; eauto].
        -- simpl. exists EndOfStream. split; auto. split; auto. split; auto. exists q'. repeat split; auto; congruence.
        -- simpl. exists a. split; auto. split; [|split; auto].
           ++ intros Hie. pose proof (complete_unique K HK C HC q q' HqP Hq'P Hie Hqn Hq'n) as Hpe.
              pose proof (occ_P1 K HK C HC (production_id q) (pos q) (or_introl Hq0')) as Ho.
              assert (2 <= occ ps (production_id q, pos q)).
              { rewrite Hpq. apply (occ_split _ _ _ q'); auto. unfold pkey. congruence. }
              rewrite Hps in *. pose proof (occ_filter (fun q => qcat q =? qcat q0) P (production_id q, pos q)). lia.
           ++ exists q'. repeat split; auto; congruence.
Qed.

Lemma try_build_ok Dv : kt_wf kt0 ->
  wp (In (Production 0) (rnodes 0)) Dv (@try_build_from_partitions bm T L g parts kt0) (pinv (sm_iter parts)) row_err.
Proof.
  intros Hkt. unfold try_build_from_partitions. apply (wp_foldM_pre pinv).
  - split; [split; apply wf_sm_new|]. split; [auto|]. split; [apply kt_ext_refl|]. split; [auto|].
    exists []. split; [constructor|]. split; reflexivity.
  - intros pre e post [b kt] Heq Hinv. eapply add_partition_ok; eauto.
Qed.

End Parts.

(** A finished row. *)
Record row_spec (K : kernel) (kt0 kt : kernel_table) (acts : aug nat -> option action) (gts : nat -> option nat) : Prop :=
  mk_row_spec {
  rs_shift : forall a s, acts a = Some (Shift s) ->
    (exists K', nth_error (kstates kt) s = Some K' /\ goto_of g F K (Terminal a) K') /\
    exists i p, icore g K i p /\ nextn i p = Some (Terminal a);
  rs_reduce : forall a j, acts a = Some (Reduce j) -> j <> 0 /\ exists p, ilook g F K j p a /\ nextn j p = None;
  rs_accept : forall a, acts a = Some Accept -> a = EndOfStream /\ exists p, icore g K 0 p /\ nextn 0 p = None;
  rs_goto : forall l s, gts l = Some s ->
    (exists K', nth_error (kstates kt) s = Some K' /\ goto_of g F K (Production l) K') /\
    exists i p, icore g K i p /\ nextn i p = Some (Production l);
  rs_shift_c : forall i p a, icore g K i p -> nextn i p = Some (Terminal a) -> exists s, acts a = Some (Shift s);
  rs_reduce_c : forall j p a, ilook g F K j p a -> nextn j p = None -> j <> 0 -> acts a = Some (Reduce j);
  rs_accept_c : forall p, icore g K 0 p -> nextn 0 p = None -> acts EndOfStream = Some Accept;
  rs_goto_c : forall i p l, icore g K i p -> nextn i p = Some (Production l) -> exists s, gts l = Some s;
  rs_new : forall k, In k (kstates kt) -> In k (kstates kt0) \/
    exists s, nth_error (kstates kt) s = Some k /\
      ((exists a, acts a = Some (Shift s)) \/ (exists l, gts l = Some s));
}.

Lemma row_of_pinv K C parts kt0 b kt : kinv K -> is_closure g F K C -> is_part g (K ++ C) parts ->
  pinv kt0 (sm_iter parts) (b, kt) -> row_spec K kt0 kt (lookup (eactions b)) (lookup (egotos b)).
Proof.
  intros HK HC Hparts Hinv.
  pose proof Hinv as ((Hwa & Hwg) & Hkt & Hext & Hnew & cs & Hcs & Hea & Heg). simpl in Hwa, Hwg, Hkt, Hext, Hnew, Hcs, Hea, Heg.
  assert (Hact : forall e c a act, In e (sm_iter parts) -> contrib kt e c -> In c cs -> In (a, act) (fst c) ->
            lookup (eactions b) a = Some act).
  { intros e c a act He Hc Hcc Ha. apply (lookup_in m); auto. rewrite Hea. apply in_concat. exists (fst c). split; auto.
    apply in_map; auto. }
  assert (Hgt : forall e c l s, In e (sm_iter parts) -> contrib kt e c -> In c cs -> In (l, s) (snd c) ->
            lookup (egotos b) l = Some s).
  { intros e c a act He Hc Hcc Ha. apply (lookup_in n); auto. rewrite Heg. apply in_concat. exists (snd c). split; auto.
    apply in_map; auto. }
  constructor.
  - intros a s Hl. apply (lookup_in m) in Hl; auto.
    destruct (pinv_act parts kt0 _ b kt a _ (fun e He => He) Hinv Hl) as (e & c & He & Hec & Hin).
    destruct (in_contrib_act K HK C HC parts Hparts kt e c a _ He Hec Hin) as (Hst & (q & Hq & Hqn) & Hs).
    destruct e as [id ps]. destruct (part_entry K C parts Hparts _ _ He) as (q0 & Hq0 & Hid & Hps & _ & Hst0).
    simpl in *. split.
    + eexists. split; [exact Hs|]. rewrite Hps. eapply goto_of_partition; eauto. rewrite <- Hst0. exact Hst.
    + exists (production_id q), (pos q). split; auto. apply (icore_closure g F K C); eauto.
  - intros a j Hl. apply (lookup_in m) in Hl; auto.
    destruct (pinv_act parts kt0 _ b kt a _ (fun e He => He) Hinv Hl) as (e & c & He & Hec & Hin).
    destruct (in_contrib_act K HK C HC parts Hparts kt e c a _ He Hec Hin) as (Hst & Hj & (q & Hq & <- & Hqn & _ & Hv)).
    split; auto. exists (pos q). split; auto. apply (ilook_closure g F K C); auto. exists q. auto.
  - intros a Hl. apply (lookup_in m) in Hl; auto.
    destruct (pinv_act parts kt0 _ b kt a _ (fun e He => He) Hinv Hl) as (e & c & He & Hec & Hin).
    destruct (in_contrib_act K HK C HC parts Hparts kt e c a _ He Hec Hin) as (Hst & -> & (q & Hq & Hq0 & Hqn & _)).
    split; auto. exists (pos q). split; [|rewrite <- Hq0; auto]. apply (icore_closure g F K C); auto. exists q. auto.
  - intros l s Hl. apply (lookup_in n) in Hl; auto.
    destruct (pinv_goto parts kt0 _ b kt l _ (fun e He => He) Hinv Hl) as (e & c & He & Hec & Hin).
    destruct (in_contrib_goto parts kt e c l s He Hec Hin) as (Hst & Hs).
    destruct e as [id ps]. destruct (part_entry K C parts Hparts _ _ He) as (q0 & Hq0 & Hid & Hps & _ & Hst0).
    simpl in *. rewrite Hst in Hst0. split.
    + eexists. split; [exact Hs|]. rewrite Hps. eapply goto_of_partition; eauto.
    + exists (production_id q0), (pos q0). split; auto. apply (icore_closure g F K C); eauto.
  - intros i p a Hi Hn. apply (icore_closure g F K C) in Hi as (q & Hq & <- & <-); auto.
    destruct (part_total K C parts Hparts q Hq) as (ps & Hps & _).
    destruct (Forall2_in_l _ _ _ _ Hcs Hps) as (c & Hcc & Hc). pose proof Hc as Hc'. unfold contrib in Hc'.
    simpl in Hc'. rewrite static_from_qcat in Hc' by auto. unfold ClosureProofs.qnext in Hc'. rewrite Hn in Hc'.
    destruct Hc' as (s & Hs & Hce). exists s. eapply Hact; eauto. rewrite Hce. simpl; auto.
  - intros j p a Hi Hn Hj. apply (ilook_closure g F K C) in Hi as (q & Hq & <- & <- & Hv); auto.
    destruct (part_total K C parts Hparts q Hq) as (ps & Hps & Hqps).
    destruct (Forall2_in_l _ _ _ _ Hcs Hps) as (c & Hcc & Hc). pose proof Hc as Hc'. unfold contrib in Hc'.
    simpl in Hc'. rewrite static_from_qcat in Hc' by auto. unfold ClosureProofs.qnext in Hc'. rewrite Hn in Hc'.
    eapply Hact; eauto. rewrite Hc'. simpl. apply in_concat. exists (toks_of q). split; [apply in_map; auto|].
    unfold toks_of. destruct (Nat.eqb_spec (production_id q) 0); [tauto|]. apply in_map_iff. exists a. split; auto.
    apply (in_vs_iter m); auto. eapply good_P; eauto.
  - intros p Hi Hn. apply (icore_closure g F K C) in Hi as (q & Hq & Hq0 & <-); auto.
    destruct (part_total K C parts Hparts q Hq) as (ps & Hps & Hqps).
    destruct (Forall2_in_l _ _ _ _ Hcs Hps) as (c & Hcc & Hc). pose proof Hc as Hc'. unfold contrib in Hc'.
    simpl in Hc'. rewrite static_from_qcat in Hc' by auto. unfold ClosureProofs.qnext in Hc'. rewrite Hq0, Hn in Hc'.
    eapply Hact; eauto. rewrite Hc'. simpl. apply in_concat. exists (toks_of q). split; [apply in_map; auto|].
    unfold toks_of. rewrite Hq0. simpl. auto.
  - intros i p l Hi Hn. apply (icore_closure g F K C) in Hi as (q & Hq & <- & <-); auto.
    destruct (part_total K C parts Hparts q Hq) as (ps & Hps & _).
    destruct (Forall2_in_l _ _ _ _ Hcs Hps) as (c & Hcc & Hc). pose proof Hc as Hc'. unfold contrib in Hc'.
    simpl in Hc'. rewrite static_from_qcat in Hc' by auto. unfold ClosureProofs.qnext in Hc'. rewrite Hn in Hc'.
    destruct Hc' as (s & Hs & Hce). exists s. eapply Hgt; eauto. rewrite Hce. simpl; auto.
  - intros k Hk. destruct (Hnew k Hk) as [|(_ & e & He & Hst & ->)]; auto. right.
    destruct (Forall2_in_l _ _ _ _ Hcs He) as (c & Hcc & Hc). pose proof Hc as Hc'. unfold contrib in Hc'.
    destruct (static_from_id (fst e) m) as [[a|l]|]; [| |congruence]; destruct Hc' as (s & Hs & Hce); exists s; split; auto.
    + left. exists a. eapply Hact; eauto. rewrite Hce. simpl; auto.
    + right. exists l. eapply Hgt; eauto. rewrite Hce. simpl; auto.
Qed.

End Row.
