(** The whole table: termination of the state loop and the meaning of the
    finished table. *)
From Coq Require Import Arith Bool String NArith List Lia Permutation.
From Verif Require Import Base.Prelude Spec.Grammar Model.Error.
From Verif Require Import Model.BitSet Model.FixedMap Model.Vocabulary Model.IndexedGrammar Model.FirstMap.
From Verif Require Import Model.Position Model.Closure Model.LRTable.
From Verif Require Import Proofs.WP Proofs.BitSetProofs Proofs.FixedMapProofs Proofs.VocabProofs.
From Verif Require Import Proofs.IndexedProofs Proofs.IndexedBuild Proofs.IndexedMain Proofs.FirstProofs.
From Verif Require Import Proofs.ClosureProofs Proofs.ItemSets Proofs.TableProofs.
Import ListNotations.

(** Finite predicates. *)
Definition fin {A} (P : A -> Prop) : Prop := exists l, forall x, P x -> In x l.

Lemma fin_sub {A} (P Q : A -> Prop) : (forall x, P x -> Q x) -> fin Q -> fin P.
Proof. intros Hs (l & Hl). exists l. auto. Qed.

Lemma fin_nat k : fin (fun x => x <= k).
Proof. exists (seq 0 (S k)). intros x Hx. apply in_seq. lia. Qed.

Lemma fin_N k : fin (fun x => (x < k)%N).
Proof.
  induction k as [|k IH] using N.peano_ind.
  - exists []. intros x Hx. lia.
  - destruct IH as (l & Hl). exists (k :: l). intros x Hx. simpl. destruct (N.eq_dec k x); auto. right. apply Hl. lia.
Qed.

Lemma fin_map {A B} (f : A -> B) (P : A -> Prop) (Q : B -> Prop) :
  (forall y, Q y -> exists x, P x /\ y = f x) -> fin P -> fin Q.
Proof.
  intros Hf (l & Hl). exists (map f l). intros y Hy. destruct (Hf y Hy) as (x & Hx & ->). apply in_map. auto.
Qed.

Lemma fin_prod {A B} (P : A -> Prop) (Q : B -> Prop) : fin P -> fin Q -> fin (fun x => P (fst x) /\ Q (snd x)).
Proof.
  intros (l & Hl) (l' & Hl'). exists (list_prod l l'). intros [a b] (Ha & Hb). apply in_prod; auto.
Qed.

Lemma fin_lists {A} (P : A -> Prop) d : fin P -> fin (fun l => length l <= d /\ Forall P l).
Proof.
  intros HP. induction d as [|d IH].
  - exists [[]]. intros [|a l] (Hl & _); simpl in *; auto. lia.
  - destruct (fin_prod _ _ HP IH) as (l & Hl). exists ([] :: map (fun x => fst x :: snd x) l).
    intros [|a x] (Hx & Hf); [simpl; auto|]. right. apply in_map_iff. exists (a, x). split; auto. apply Hl.
    inversion Hf; subst. simpl in *. split; auto. split; auto. lia.
Qed.

Lemma occ_length_bound {A} (dec : forall x y : A, {x = y} + {x <> y}) (U l : list A) c :
  incl l U -> (forall x, count_occ dec l x <= c) -> length l <= c * length U.
Proof.
  revert l. induction U as [|u U IH]; intros l Hi Hc; simpl.
  - destruct l as [|a l]; simpl; [lia|]. destruct (Hi a); simpl; auto.
  - assert (Hlen : length l = count_occ dec l u + length (remove dec u l)).
    { clear. induction l as [|a l IH]; simpl; auto. destruct (dec a u) as [->|Hne].
      - destruct (dec u u); [|congruence]. lia.
      - destruct (dec u a); [congruence|]. simpl. lia. }
    assert (Hr : length (remove dec u l) <= c * length U).
    { apply IH.
      - intros x Hx. apply in_remove in Hx as (Hx & Hne). destruct (Hi x Hx); [congruence|auto].
      - intros x. eapply Nat.le_trans; [|apply (Hc x)]. clear. induction l as [|a l IH]; simpl; auto.
        destruct (dec u a); simpl; destruct (dec a x); lia. }
    specialize (Hc u). nia.
Qed.

Lemma fin_bitset m : fin (wf_bs m).
Proof.
  apply (fin_map (fun l => mk_bitset l m) (fun l => length l <= div_ceil m word_bits /\ Forall (fun w => (w < 2 ^ 64)%N) l)).
  - intros [bs len] (Hl & Hb & Hf & _). simpl in *. subst len. exists bs. split; auto. split; auto. lia.
  - apply fin_lists. apply fin_N.
Qed.

Section Build.
Context {bm : BuildMode} {T L : Type} `{EqDec T}.
Local Notation E := (lr_error T L).
Variable g : indexed_grammar T L.
Hypothesis Hwf : wf_ig g.
Local Notation n := (labels_count g).
Local Notation m := (vocab_size (ivocab g)).
Local Notation rnodes := (rnodes g).
Local Notation nextn := (nextn g).
Local Notation rootclean := (rootclean g).

Lemma rnodes_bound : exists B, forall i, length (rnodes i) <= B.
Proof.
  exists (list_max (map (fun r => length (irhs r)) (rules g))). intros i. unfold ClosureProofs.rnodes.
  destruct (nth_error (rules g) i) as [r|] eqn:Hr; [|simpl; lia].
  pose proof (list_max_le (map (fun r => length (irhs r)) (rules g)) (list_max (map (fun r => length (irhs r)) (rules g)))) as (Hm & _).
  specialize (Hm (le_n _)). rewrite Forall_forall in Hm. apply Hm. apply in_map_iff. exists r. split; auto.
  eapply nth_error_In; eauto.
Qed.

Lemma fin_good_pos : fin (good_pos g).
Proof.
  destruct rnodes_bound as (B & HB).
  apply (fin_map (fun x : (nat * nat) * bitset => mk_position (fst (fst x)) (snd (fst x)) (snd x))
          (fun x => (fst (fst x) <= length (rules g) /\ snd (fst x) <= B) /\ wf_bs m (snd x))).
  - intros [i p fs] (H1 & H2 & H3 & H4). exists (i, p, fs). simpl in *. split; auto. split; auto. split; [lia|].
    specialize (HB i). lia.
  - apply (fin_prod (fun x : nat * nat => fst x <= length (rules g) /\ snd x <= B) (wf_bs m)); [|apply fin_bitset].
    apply (fin_prod (fun x => x <= length (rules g)) (fun x => x <= B)); apply fin_nat.
Qed.

(** Kernels of any table for [g] are drawn from a finite set. *)
Lemma fin_kernels : fin (fun K => good_kernel g K /\ forall k, occ K k <= 2).
Proof.
  destruct fin_good_pos as (U & HU).
  apply fin_sub with (Q := fun K => length K <= 2 * length (map pkey U) /\ Forall (good_pos g) K).
  - intros K (HK & Ho). split; auto. rewrite <- (map_length pkey K). apply (occ_length_bound key_dec); auto.
    intros x Hx. apply in_map_iff in Hx as (q & <- & Hq). apply in_map. apply HU.
    unfold good_kernel in HK. rewrite Forall_forall in HK. auto.
  - apply fin_lists. exists U. auto.
Qed.

Lemma kernels_bounded : exists N, forall F ks, NoDup ks -> (forall k, In k ks -> kinv g F k) -> length ks <= N.
Proof.
  destruct fin_kernels as (U & HU). exists (length U). intros F ks Hn Hk. apply NoDup_incl_length; auto.
  intros k Hi. apply HU. split; [apply (ki_good _ _ _ (Hk k Hi))|apply (ki_cnt2 _ _ _ (Hk k Hi))].
Qed.

Section WithF.
Variable F : first_table.
Hypothesis HF : FInv g F.
Local Notation row_spec := (row_spec g F).
Local Notation kinv := (kinv g F).

(** Conflicts of the item sets, by viable prefix. *)
Definition gcomplete (γ : list inode) (r : nat) (a : aug nat) : Prop :=
  exists p, core g γ r p /\ nextn r p = None /\ (r = 0 -> a = EndOfStream) /\ (r <> 0 -> look g F γ r p a).
Definition gshift (γ : list inode) (a : aug nat) : Prop :=
  exists i p, core g γ i p /\ nextn i p = Some (Terminal a).

Definition table_err (e : E) : Prop :=
  match e with
  | ReduceConflict r1 r2 la => exists γ a, aug_rel (ivocab g) la a /\ r1 <> r2 /\ gcomplete γ r1 a /\ gcomplete γ r2 a
  | ShiftReduceConflict r la => exists γ a, aug_rel (ivocab g) la a /\ gshift γ a /\ gcomplete γ r a
  | _ => False
  end.

Lemma row_err_table K C e : kinv K -> is_closure g F K C -> row_err g K C e -> table_err e.
Proof.
  intros HK HC He. destruct (ki_rep _ _ _ HK) as (γ & R1 & R2).
  assert (Hcomp : forall r a, completes g K C r a -> gcomplete γ r a).
  { intros r a (q & Hq & Hr & Hn & H0 & Hv). exists (pos q). subst r. split; [|split; [auto|split; [auto|]]].
    - apply R1. apply (icore_closure g F K C); eauto.
    - intros Hne. apply R2. apply (ilook_closure g F K C); auto. exists q. auto. }
  assert (Hsh : forall a, shifts g K C a -> gshift γ a).
  { intros a (q & Hq & Hn). exists (production_id q), (pos q). split; auto. apply R1. apply (icore_closure g F K C); eauto. }
  destruct e; simpl in *; auto.
  - destruct He as (a & H1 & H2 & H3). exists γ, a. auto.
  - destruct He as (a & H1 & H2 & H3 & H4). exists γ, a. auto.
Qed.

(** Loop invariant. *)
Definition tinv (K0 : kernel) (st : nat * kernel_table * lr_table) : Prop :=
  let '(sid, kt, t) := st in
  kt_wf kt /\ (forall k, In k (kstates kt) -> kinv k) /\ hd_error (kstates kt) = Some K0 /\
  sid <= length (kstates kt) /\ num_states t = sid /\
  length (action_table t) = m * sid /\ length (goto_table t) = n * sid /\
  exists rows : list (kernel_table * kernel_table * (aug nat -> option action) * (nat -> option nat)),
    length rows = sid /\
    (forall s kt0 kt1 acts gts, nth_error rows s = Some (kt0, kt1, acts, gts) ->
       kt_ext kt1 kt /\
       (exists K, nth_error (kstates kt) s = Some K /\ row_spec K kt0 kt1 acts gts) /\
       (forall a, label_id a < m -> nth_error (action_table t) (m * s + label_id a) = Some (acts a)) /\
       (forall l, l < n -> nth_error (goto_table t) (n * s + l) = Some (gts l))) /\
    (forall s k, nth_error (kstates kt) s = Some k -> s = 0 \/
       exists s' kt0 kt1 acts gts, s' < s /\ nth_error rows s' = Some (kt0, kt1, acts, gts) /\
         ((exists a, label_id a < m /\ acts a = Some (Shift s)) \/ (exists l, l < n /\ gts l = Some s))).

(** The meaning of the finished table. *)
Record table_ok (t : lr_table) (ks : list kernel) (acts : nat -> aug nat -> option action)
    (gts : nat -> nat -> option nat) : Prop := mk_table_ok {
  to_states : num_states t = length ks;
  to_nodup : NoDup ks;
  to_kinv : forall s K, nth_error ks s = Some K -> kinv K;
  to_root : exists K, nth_error ks 0 = Some K /\ rep g F K [];
  to_len_a : length (action_table t) = m * num_states t;
  to_len_g : length (goto_table t) = n * num_states t;
  to_acts : forall s a, s < num_states t -> label_id a < m ->
    nth_error (action_table t) (m * s + label_id a) = Some (acts s a);
  to_gts : forall s l, s < num_states t -> l < n -> nth_error (goto_table t) (n * s + l) = Some (gts s l);
  to_shift : forall s K a s', nth_error ks s = Some K -> acts s a = Some (Shift s') ->
    (exists K', nth_error ks s' = Some K' /\ goto_of g F K (Terminal a) K') /\
    exists i p, icore g K i p /\ nextn i p = Some (Terminal a);
  to_reduce : forall s K a j, nth_error ks s = Some K -> acts s a = Some (Reduce j) ->
    j <> 0 /\ exists p, ilook g F K j p a /\ nextn j p = None;
  to_accept : forall s K a, nth_error ks s = Some K -> acts s a = Some Accept ->
    a = EndOfStream /\ exists p, icore g K 0 p /\ nextn 0 p = None;
  to_goto : forall s K l s', nth_error ks s = Some K -> gts s l = Some s' ->
    (exists K', nth_error ks s' = Some K' /\ goto_of g F K (Production l) K') /\
    exists i p, icore g K i p /\ nextn i p = Some (Production l);
  to_shift_c : forall s K i p a, nth_error ks s = Some K -> icore g K i p -> nextn i p = Some (Terminal a) ->
    exists s', acts s a = Some (Shift s');
  to_reduce_c : forall s K j p a, nth_error ks s = Some K -> ilook g F K j p a -> nextn j p = None -> j <> 0 ->
    acts s a = Some (Reduce j);
  to_accept_c : forall s K p, nth_error ks s = Some K -> icore g K 0 p -> nextn 0 p = None ->
    acts s EndOfStream = Some Accept;
  to_goto_c : forall s K i p l, nth_error ks s = Some K -> icore g K i p -> nextn i p = Some (Production l) ->
    exists s', gts s l = Some s';
  to_reach : forall s, s < num_states t -> s = 0 \/ exists s', s' < s /\
    ((exists a, label_id a < m /\ acts s' a = Some (Shift s)) \/ (exists l, l < n /\ gts s' l = Some s));
}.

Lemma tinv_final K0 sid kt t : rep g F K0 [] -> tinv K0 (sid, kt, t) -> get_state kt sid = None ->
  exists acts gts, table_ok t (kstates kt) acts gts.
Proof.
  intros HK0 (Hkt & Hki & Hhd & Hsid & Hns & Hla & Hlg & rows & Hrl & Hrows & Hreach) Hnone.
  unfold get_state in Hnone. apply nth_error_None in Hnone.
  assert (Hlen : sid = length (kstates kt)) by lia.
  exists (fun s => match nth_error rows s with Some (_, _, acts, _) => acts | None => fun _ => None end),
         (fun s => match nth_error rows s with Some (_, _, _, gts) => gts | None => fun _ => None end).
  assert (Hr : forall s, s < length (kstates kt) -> exists r, nth_error rows s = Some r).
  { intros s Hs. destruct (nth_error rows s) as [r|] eqn:Hr; eauto. apply nth_error_None in Hr. lia. }
  assert (Hk : forall s K, nth_error (kstates kt) s = Some K -> exists kt0 kt1 acts gts,
      nth_error rows s = Some (kt0, kt1, acts, gts) /\ kt_ext kt1 kt /\ row_spec K kt0 kt1 acts gts).
  { intros s K HK. destruct (Hr s) as ([[[kt0 kt1] acts] gts] & Hrs); [apply nth_error_Some; congruence|].
    destruct (Hrows _ _ _ _ _ Hrs) as (He & (K' & HK' & Hsp) & _). exists kt0, kt1, acts, gts.
    split; auto. split; auto. rewrite HK in HK'. injection HK' as <-. auto. }
  constructor.
  - lia.
  - apply Hkt.
  - intros s K HK. apply Hki. eapply nth_error_In; eauto.
  - exists K0. split; auto.
  - congruence.
  - congruence.
  - intros s a Hs Ha. destruct (Hr s) as ([[[kt0 kt1] acts] gts] & Hrs); [lia|]. rewrite Hrs.
    apply (Hrows _ _ _ _ _ Hrs); auto.
  - intros s a Hs Ha. destruct (Hr s) as ([[[kt0 kt1] acts] gts] & Hrs); [lia|]. rewrite Hrs.
    apply (Hrows _ _ _ _ _ Hrs); auto.
  - intros s K a s' HK Ha. destruct (Hk _ _ HK) as (kt0 & kt1 & acts & gts & Hrs & He & Hsp). rewrite Hrs in Ha.
    destruct (rs_shift _ _ _ _ _ _ _ Hsp _ _ Ha) as ((K' & HK' & Hg) & Hx). split; auto. exists K'. split; auto.
    eapply kt_ext_nth; eauto.
  - intros s K a j HK Ha. destruct (Hk _ _ HK) as (kt0 & kt1 & acts & gts & Hrs & He & Hsp). rewrite Hrs in Ha.
    apply (rs_reduce _ _ _ _ _ _ _ Hsp _ _ Ha).
  - intros s K a HK Ha. destruct (Hk _ _ HK) as (kt0 & kt1 & acts & gts & Hrs & He & Hsp). rewrite Hrs in Ha.
    apply (rs_accept _ _ _ _ _ _ _ Hsp _ Ha).
  - intros s K a s' HK Ha. destruct (Hk _ _ HK) as (kt0 & kt1 & acts & gts & Hrs & He & Hsp). rewrite Hrs in Ha.
    destruct (rs_goto _ _ _ _ _ _ _ Hsp _ _ Ha) as ((K' & HK' & Hg) & Hx). split; auto. exists K'. split; auto.
    eapply kt_ext_nth; eauto.
  - intros s K i p a HK Ha Hn. destruct (Hk _ _ HK) as (kt0 & kt1 & acts & gts & Hrs & He & Hsp). rewrite Hrs.
    eapply (rs_shift_c _ _ _ _ _ _ _ Hsp); eauto.
  - intros s K i p a HK Ha Hn Hne. destruct (Hk _ _ HK) as (kt0 & kt1 & acts & gts & Hrs & He & Hsp). rewrite Hrs.
    eapply (rs_reduce_c _ _ _ _ _ _ _ Hsp); eauto.
  - intros s K p HK Ha Hn. destruct (Hk _ _ HK) as (kt0 & kt1 & acts & gts & Hrs & He & Hsp). rewrite Hrs.
    eapply (rs_accept_c _ _ _ _ _ _ _ Hsp); eauto.
  - intros s K i p a HK Ha Hn. destruct (Hk _ _ HK) as (kt0 & kt1 & acts & gts & Hrs & He & Hsp). rewrite Hrs.
    eapply (rs_goto_c _ _ _ _ _ _ _ Hsp); eauto.
  - intros s Hs. rewrite Hns, Hlen in Hs. apply nth_error_Some in Hs. destruct (nth_error (kstates kt) s) as [k|] eqn:Hk'; [|congruence].
    destruct (Hreach _ _ Hk') as [|(s' & kt0 & kt1 & acts & gts & Hlt & Hrs & Hx)]; auto. right. exists s'. split; auto.
    rewrite Hrs. auto.
Qed.

Lemma mapM_get {K V} `{LI : LabelInj K} cap (mp : sparse_map K V) ks : wf_sm cap mp ->
  (forall k, In k ks -> label_id k < cap) -> @mapM E _ _ (sm_get mp) ks = Ok (map (lookup mp) ks).
Proof.
  intros Hw. induction ks as [|k ks IH]; intros Hk; simpl; auto.
  rewrite (sm_get_ok cap) by (simpl in Hk; auto). simpl. rewrite IH; simpl in *; auto.
Qed.

Lemma into_vecs_ok b : wfb g b ->
  @into_vecs T L g b = Ok (map (lookup (eactions b)) (for_each_id (ivocab g)), map (lookup (egotos b)) (seq 0 n)).
Proof.
  intros (Ha & Hg). unfold into_vecs.
  rewrite (mapM_get m) by (auto; intros a Hx; apply in_for_each_id; auto). simpl.
  change (all_production_labels g) with (seq 0 n).
  rewrite (mapM_get n) by (auto; intros a Hx; apply in_seq in Hx; change (a < n); lia). reflexivity.
Qed.

Lemma nth_for_each_id (v : vocab T) a : label_id a < vocab_size v -> nth_error (for_each_id v) (label_id a) = Some a.
Proof.
  intros Ha. unfold for_each_id. rewrite nth_error_map.
  assert (Hn : nth_error (seq 0 (vocab_size v)) (label_id a) = Some (label_id a)).
  { rewrite (nth_error_nth' _ 0) by (rewrite seq_length; auto). rewrite seq_nth by auto. reflexivity. }
  rewrite Hn. simpl. rewrite aug_from_id_label. reflexivity.
Qed.

Lemma build_row_ok (Dv : Prop) fuel K0 st : (Dv \/ n * m < fuel) -> tinv K0 st ->
  wp (In (Production 0) (rnodes 0)) Dv (@build_row bm T L g fuel F st)
    (fun r => match r with
      | inl st' => tinv K0 st' /\ fst (fst st) < length (kstates (snd (fst st))) /\ fst (fst st') = S (fst (fst st))
      | inr t => t = snd st /\ get_state (snd (fst st)) (fst (fst st)) = None
      end) table_err.
Proof.
  destruct st as [[sid kt] t]. intros Hfuel (Hkt & Hki & Hhd & Hsid & Hns & Hla & Hlg & rows & Hrl & Hrows & Hreach).
  unfold build_row. destruct (get_state kt sid) as [K|] eqn:HKs; [|simpl; auto]. simpl.
  unfold get_state in HKs. assert (HKi : kinv K) by (apply Hki; eapply nth_error_In; eauto).
  apply wp_bind. eapply wp_conseq; [apply (partition_ok g Hwf F HF K (ki_good _ _ _ HKi)); auto|].
  intros parts (C & HC & Hparts). apply wp_bind.
  eapply wp_mono; [apply (try_build_ok g Hwf F K HKi C HC parts Hparts kt Dv Hkt)| |].
  2:{ intros e He. eapply row_err_table; eauto. }
  intros [b kt'] Hinv. pose proof Hinv as (Hwb & Hkt' & Hext & Hnew & _). simpl in Hwb, Hkt', Hext, Hnew.
  rewrite into_vecs_ok by auto. simpl.
  pose proof (row_of_pinv g Hwf F K C parts kt b kt' HKi HC Hparts Hinv) as Hrow.
  assert (Hsl : sid < length (kstates kt)) by (apply nth_error_Some; congruence).
  assert (Hl1 : length (map (lookup (eactions b)) (for_each_id (ivocab g))) = m).
  { rewrite map_length. unfold for_each_id. rewrite map_length, seq_length. auto. }
  assert (Hl2 : length (map (lookup (egotos b)) (seq 0 n)) = n) by (rewrite map_length, seq_length; auto).
  split; [|auto]. split; [auto|]. split.
  { intros k Hk. destruct (Hnew k Hk) as [|(? & _)]; auto. }
  split. { destruct Hext as (ext & ->). destruct (kstates kt); simpl in *; auto. discriminate. }
  split. { destruct Hext as (ext & ->). rewrite app_length. lia. }
  split; [lia|]. split. { rewrite app_length, Hla, Hl1. lia. }
  split. { rewrite app_length, Hlg, Hl2. lia. }
  exists (rows ++ [(kt, kt', lookup (eactions b), lookup (egotos b))]).
  split. { rewrite app_length. simpl. lia. }
  split.
  - intros s kt0 kt1 acts gts Hs. destruct (Nat.lt_ge_cases s sid) as [Hlt|Hge].
    + rewrite nth_error_app1 in Hs by lia. destruct (Hrows _ _ _ _ _ Hs) as (R1 & (K' & R2 & R3) & R4 & R5).
      split; [eapply kt_ext_trans; eauto|]. split; [exists K'; split; auto; eapply kt_ext_nth; eauto|]. split.
      * intros a Ha. rewrite nth_error_app1; auto. rewrite Hla. nia.
      * intros l Hl. rewrite nth_error_app1; auto. rewrite Hlg. nia.
    + rewrite nth_error_app2 in Hs by lia. rewrite Hrl in Hs. destruct (s - sid) as [|d] eqn:Hd; [|destruct d; discriminate].
      simpl in Hs. injection Hs as <- <- <- <-. assert (s = sid) by lia. subst s.
      split; [apply kt_ext_refl|]. split; [exists K; split; auto; eapply kt_ext_nth; eauto|]. split.
      * intros a Ha. rewrite nth_error_app2 by lia. rewrite Hla. replace (m * sid + label_id a - m * sid) with (label_id a) by lia.
        rewrite nth_error_map, nth_for_each_id by auto. reflexivity.
      * intros l Hl. rewrite nth_error_app2 by lia. rewrite Hlg. replace (n * sid + l - n * sid) with l by lia.
        rewrite nth_error_map. rewrite (nth_error_nth' _ 0) by (rewrite seq_length; auto). rewrite seq_nth by auto. reflexivity.
  - intros s k Hs. destruct (Nat.lt_ge_cases s (length (kstates kt))) as [Hlt|Hge].
    + destruct (nth_error (kstates kt) s) as [k0|] eqn:Hk0; [|apply nth_error_None in Hk0; lia].
      destruct (Hreach s k0 Hk0) as [|(s' & kt0 & kt1 & acts & gts & Hlt' & Hrs & Hx)]; auto.
      right. exists s', kt0, kt1, acts, gts. split; auto. split; auto. rewrite nth_error_app1; auto.
      apply nth_error_Some. congruence.
    + right. exists sid, kt, kt', (lookup (eactions b)), (lookup (egotos b)). split; [lia|].
      rewrite nth_error_app2, Hrl, Nat.sub_diag by lia. split; [reflexivity|].
      assert (Hnin : ~ In k (kstates kt)).
      { intros Hi. apply In_nth_error in Hi as (j & Hj). assert (Hj' : nth_error (kstates kt') j = Some k) by (eapply kt_ext_nth; eauto).
        assert (j < length (kstates kt)) by (apply nth_error_Some; congruence).
        destruct Hkt' as (Hnd & _). rewrite NoDup_nth_error in Hnd. assert (j = s); [|lia]. apply Hnd; [|congruence].
        apply nth_error_Some. congruence. }
      destruct (rs_new _ _ _ _ _ _ _ Hrow k (nth_error_In _ _ Hs)) as [|(s0 & Hs0 & Hx)]; [tauto|].
      assert (s0 = s).
      { destruct Hkt' as (Hnd & _). rewrite NoDup_nth_error in Hnd. apply Hnd; [|congruence]. apply nth_error_Some. congruence. }
      subst s0. destruct Hx as [(a & Ha)|(l & Hl)].
      * left. exists a. split; auto. destruct (rs_shift _ _ _ _ _ _ _ Hrow _ _ Ha) as (_ & i & p & _ & Hn).
        apply (nextn_range g Hwf _ _ _ Hn).
      * right. exists l. split; auto. destruct (rs_goto _ _ _ _ _ _ _ Hrow _ _ Hl) as (_ & i & p & _ & Hn).
        apply (nextn_range g Hwf _ _ _ Hn).
Qed.

End WithF.

Lemma initial_kernel_ok : exists s, @initial_kernel bm T L g = Ok [mk_position 0 0 s] /\ good_set g s /\
  forall a, vmem s a = true <-> a = EndOfStream.
Proof.
  destruct (wf_root _ Hwf) as (r & mt & Hr & Hs & Hm & Hst & He).
  unfold initial_kernel, production_rule_ids_for_label, root_production_label. rewrite (index_ok _ _ _ Hm). simpl.
  rewrite Hst, He. simpl. unfold new_top_level.
  destruct (@vs_set_ok bm E m (vs_new (ivocab g)) EndOfStream (wf_new m) (eos_bound g)) as (s & -> & Hw & Hv). simpl.
  exists s. split; [reflexivity|]. assert (Hiff : forall a, vmem s a = true <-> a = EndOfStream).
  { intros a. rewrite Hv, vmem_new. split; [intros [|]; [auto|discriminate]|auto]. }
  split; [|auto]. split; auto. destruct (vmem s Epsilon) eqn:Hx; auto. apply Hiff in Hx. discriminate.
Qed.

Lemma kinv_initial F s : FInv g F -> good_set g s -> (forall a, vmem s a = true <-> a = EndOfStream) ->
  kinv g F [mk_position 0 0 s].
Proof.
  intros HF Hg Hs. destruct (wf_root _ Hwf) as (r & mt & Hr & _).
  constructor.
  - constructor; [|constructor]. split; [simpl; apply nth_error_Some; congruence|]. split; [simpl; lia|auto].
  - apply ids_sorted_cons; [simpl; tauto|]. intros [|] q post q'; discriminate.
  - repeat constructor.
  - exists []. apply rep_init; auto.
  - left. eauto.
  - intros k. unfold occ. simpl. destruct (key_dec _ _); lia.
  - intros i p _. unfold occ. simpl. destruct (key_dec _ _); lia.
  - intros q [<-|[]]. simpl. auto.
  - discriminate.
Qed.

(** Building the table: with a budget above [N] (which depends only on the
    grammar) it does not diverge; it panics only if rule 0 mentions its own
    label. *)
Theorem table_build_ok : exists N, forall (Dv : Prop) fuel, (Dv \/ N < fuel) ->
  wp (In (Production 0) (rnodes 0)) Dv (@table_build bm T L g fuel)
    (fun t => exists F ks acts gts, FInv g F /\ first_build (E := E) fuel g = Ok F /\ table_ok F t ks acts gts)
    (fun e => exists F, FInv g F /\ first_build (E := E) fuel g = Ok F /\ table_err F e).
Proof.
  destruct kernels_bounded as (N & HN). exists (N + n * m). intros Dv fuel Hfuel.
  assert (Hf1 : Dv \/ n * m < fuel) by (destruct Hfuel; [auto|right; lia]).
  unfold table_build. apply wp_bind.
  pose proof (first_build_ok (E:=E) g Hwf (In (Production 0) (rnodes 0)) Dv fuel (fun _ => False) Hf1) as Hfb. 
  destruct (@first_build bm E T L fuel g) as [F|e|why|] eqn:HFb; simpl in Hfb; [|tauto|exact Hfb|exact Hfb].
  destruct Hfb as (HF & _).
  change (wp (In (Production 0) (rnodes 0)) Dv (k0 <- @initial_kernel bm T L g ;;
    let '(kt, id) := get_or_insert kernel_table_new k0 in
    _ <- debug_assert (id =? 0) "id.0 == 0" ;;
    while_loop fuel (build_row g fuel F) (0, kt, mk_table [] [] 0))
    (fun t => exists F0 ks acts gts, FInv g F0 /\ @Ok E _ F = Ok F0 /\ table_ok F0 t ks acts gts)
    (fun e => exists F0, FInv g F0 /\ @Ok E _ F = Ok F0 /\ table_err F0 e)).
  destruct initial_kernel_ok as (s & -> & Hgs & Hs). simpl.
  set (K0 := [mk_position 0 0 s]). rewrite debug_assert_true. simpl.
  eapply wp_mono with (R := table_err F); [| |intros e He; exists F; auto].
  - apply (wp_while (tinv F K0) (fun st => N - fst (fst st)) _
      (fun t => exists ks acts gts, table_ok F t ks acts gts)).
    + simpl. destruct Hfuel; [auto|right; lia].
    + split; [split; [constructor; simpl; auto; constructor|reflexivity]|].
      split. { intros k [<-|[]]. apply kinv_initial; auto. }
      split; [reflexivity|]. split; [simpl; lia|]. split; [reflexivity|]. split; [simpl; lia|]. split; [simpl; lia|].
      exists []. split; [reflexivity|]. split; [intros [|]; discriminate|]. intros [|s'] k Hk; auto. destruct s'; discriminate.
    + intros st Hst. eapply wp_conseq; [apply (build_row_ok F HF Dv fuel K0 st Hf1 Hst)|].
      intros [st'|t]; simpl.
      * intros (Hst' & Hlt & Hsid). split; auto. right. rewrite Hsid.
        destruct st as [[sid kt] t]. simpl in *. destruct Hst as (Hkt & Hki & _).
        assert (length (kstates kt) <= N) by (apply (HN F); auto; apply Hkt). lia.
      * intros (-> & Hn). destruct st as [[sid kt] t]. simpl in *.
        destruct (tinv_final F K0 sid kt t) as (acts & gts & Ht); eauto. apply rep_init; auto.
  - intros t (ks & acts & gts & Ht). exists F, ks, acts, gts. auto.
Qed.

End Build.
