(** Closure of a kernel: the follow sets computed by the fixpoint loop are
    exactly the inductively defined ones, and the partition of the closure. *)
From Coq Require Import Arith Bool String NArith List Lia.
From Verif Require Import Base.Prelude Spec.Grammar Model.Error.
From Verif Require Import Model.BitSet Model.FixedMap Model.Vocabulary Model.IndexedGrammar Model.FirstMap.
From Verif Require Import Model.Position Model.Closure.
From Verif Require Import Proofs.WP Proofs.BitSetProofs Proofs.FixedMapProofs Proofs.VocabProofs.
From Verif Require Import Proofs.IndexedProofs Proofs.IndexedBuild Proofs.IndexedMain Proofs.FirstProofs.
Import ListNotations.

(** Nodes of rule [i] and what follows a position. *)
Definition rnodes {T L} (g : indexed_grammar T L) (i : nat) : list inode :=
  match nth_error (rules g) i with Some r => irhs r | None => [] end.
Definition nextn {T L} (g : indexed_grammar T L) (i p : nat) : option inode :=
  find (fun nd => negb (is_epsilon nd)) (skipn p (rnodes g i)).
Definition nextl {T L} (g : indexed_grammar T L) (i p : nat) : option nat :=
  maybe_first_production_label (skipn p (rnodes g i)).
Definition rsym {T L} (g : indexed_grammar T L) (i l : nat) : Prop :=
  exists r, nth_error (rules g) i = Some r /\ isymbol r = l.

Lemma skipn_S_nth {A} (l : list A) p : skipn p l = match nth_error l p with Some a => a :: skipn (S p) l | None => [] end.
Proof.
  revert p. induction l as [|a l IH]; intros [|p]; simpl; auto. rewrite IH. destruct (nth_error l p); auto.
Qed.

Lemma in_skipn {A} (l : list A) p a : In a (skipn p l) -> In a l.
Proof. revert p. induction l; intros [|p]; simpl; auto. intros Hi. right. eauto. Qed.

Section Closure.
Context {bm : BuildMode} {E T L : Type} `{EqDec T}.
Variable g : indexed_grammar T L.
Hypothesis Hwf : wf_ig g.
Variable F : first_table.
Hypothesis HF : FInv g F.
Local Notation n := (labels_count g).
Local Notation m := (vocab_size (ivocab g)).
Local Notation rnodes := (rnodes g).
Local Notation nextn := (nextn g).
Local Notation nextl := (nextl g).
Local Notation rsym := (rsym g).

Definition nodes_ok (ns : list inode) : Prop :=
  (forall a, In (Terminal a) ns -> label_id a < m) /\ (forall l, In (Production l) ns -> l < n).

Lemma nodes_ok_rnodes i : nodes_ok (rnodes i).
Proof.
  unfold ClosureProofs.rnodes. destruct (nth_error (rules g) i) as [r|] eqn:Hr; [|split; simpl; tauto].
  apply nth_error_In in Hr. split; intros; [eapply wf_term|eapply wf_prod]; eauto.
Qed.

Lemma nodes_ok_skipn ns p : nodes_ok ns -> nodes_ok (skipn p ns).
Proof. intros (H1 & H2). split; intros a Ha; apply in_skipn in Ha; auto. Qed.

Lemma nodes_ok_cons nd ns : nodes_ok (nd :: ns) -> nodes_ok ns.
Proof. intros (H1 & H2). split; intros; [apply H1|apply H2]; simpl; auto. Qed.

Definition good_set (s : bitset) : Prop := wf_bs m s /\ vmem s Epsilon = false.

Lemma eps_bound : label_id (@Epsilon nat) < m.
Proof. unfold label_id; simpl. unfold vocab_size. lia. Qed.
Lemma eos_bound : label_id (@EndOfStream nat) < m.
Proof. unfold label_id; simpl. unfold vocab_size. lia. Qed.

Lemma follow_loop_ok ns ts : nodes_ok ns -> good_set ts ->
  exists ts', @follow_loop bm E ns F ts = Ok (ts', fnull F ns) /\ good_set ts' /\
    forall a, vmem ts' a = true <-> vmem ts a = true \/ (a <> Epsilon /\ ffirst F ns a = true).
Proof.
  pose proof HF as ((HFl & HFw) & _).
  revert ts. induction ns as [|nd ns IH]; intros ts Hns (Hts & Hte); simpl.
  - exists ts. split; [reflexivity|]. split; [split; auto|]. intros a. intuition discriminate.
  - assert (Htok : forall t, nd = Terminal t -> t <> Epsilon ->
       exists ts', (token_set' <- vs_set ts t ;; Ok (token_set', false)) = @Ok E _ (ts', false) /\ good_set ts' /\
         forall a, vmem ts' a = true <-> vmem ts a = true \/ (a <> Epsilon /\ eqb a t = true)).
    { intros t -> Ht. destruct (@vs_set_ok bm E m ts t Hts) as (ts' & -> & Hts' & Hm); [apply Hns; simpl; auto|].
      simpl. exists ts'. split; [reflexivity|]. split.
      - split; [auto|]. destruct (vmem ts' Epsilon) eqn:Hx; auto. apply Hm in Hx as [Hx|Hx]; congruence.
      - intros a. rewrite Hm. split.
        + intros [<-|Ha]; auto. right. split; [auto|apply eqb_refl].
        + intros [Ha|[_ Ha]]; auto. apply eqb_eq in Ha. auto. }
    pose proof (nodes_ok_cons _ _ Hns) as Hns'.
    destruct nd as [[t| |]|l].
    + apply Htok; auto. discriminate.
    + apply IH; auto. split; auto.
    + apply Htok; auto. discriminate.
    + assert (Hl : l < n) by (apply Hns; simpl; auto).
      destruct (wfF_get g F l (conj HFl HFw) Hl) as (fs & Hfs & Hfsw).
      unfold first_set. rewrite (index_ok _ _ _ Hfs). simpl.
      assert (Hfm : forall a, vmem fs a = fmem F l a) by (intros; unfold fmem; rewrite Hfs; auto).
      destruct (vs_merge_spec m ts fs Hts Hfsw) as (M1 & M2 & _).
      set (ts1 := fst (vs_merge ts fs)) in *.
      rewrite (vs_has_ok m) by auto using eps_bound. simpl. rewrite Hfm.
      destruct (fmem F l Epsilon) eqn:He; simpl.
      * destruct (@vs_clear_ok bm E m ts1 Epsilon M1 eps_bound) as (ts2 & -> & Hts2 & Hm2). simpl.
        destruct (IH ts2 Hns') as (ts' & -> & Hg' & Hm').
        { split; auto. destruct (vmem ts2 Epsilon) eqn:Hx; auto. apply Hm2 in Hx as [Hx _]. congruence. }
        exists ts'. split; [reflexivity|]. split; [auto|]. intros a. rewrite Hm', Hm2, M2, Hfm, orb_true_iff.
        destruct (eq_dec a Epsilon) as [->|Hne]; [|intuition congruence].
        rewrite Hte. intuition congruence.
      * exists ts1. split; [reflexivity|]. split.
        -- split; auto. destruct (vmem ts1 Epsilon) eqn:Hx; auto. apply M2 in Hx as [Hx|Hx]; [congruence|].
           rewrite Hfm in Hx. congruence.
        -- intros a. rewrite M2, Hfm, orb_false_r. destruct (eq_dec a Epsilon) as [->|Hne]; [|intuition].
           rewrite He. intuition discriminate.
Qed.

Lemma follow_set_for_rule_ok ns fs : nodes_ok ns -> good_set fs ->
  exists s, @follow_set_for_rule bm E T ns fs F (ivocab g) = Ok s /\ good_set s /\
    forall a, vmem s a = true <->
      (a <> Epsilon /\ ffirst F ns a = true) \/ (fnull F ns = true /\ vmem fs a = true).
Proof.
  intros Hns (Hfs & Hfe). unfold follow_set_for_rule.
  destruct (follow_loop_ok ns (vs_new (ivocab g)) Hns) as (ts & -> & (Hts & Hte) & Hm).
  { split; [apply wf_new|apply vmem_new]. }
  simpl. destruct (fnull F ns) eqn:Hn.
  - destruct (vs_merge_spec m ts fs Hts Hfs) as (M1 & M2 & _).
    eexists. split; [reflexivity|]. split.
    + split; [auto|]. destruct (vmem (fst (vs_merge ts fs)) Epsilon) eqn:Hx; auto. apply M2 in Hx as [Hx|Hx]; congruence.
    + intros a. rewrite M2, Hm, vmem_new. intuition discriminate.
  - eexists. split; [reflexivity|]. split; [split; auto|]. intros a. rewrite Hm, vmem_new. intuition discriminate.
Qed.

(** Valid positions and kernels. *)
Definition good_pos (p : position) : Prop :=
  production_id p < length (rules g) /\ pos p <= length (rnodes (production_id p)) /\ good_set (follow_set p).
Definition good_kernel (K : kernel) : Prop := Forall good_pos K.

Lemma good_pos_rule p : good_pos p -> exists r, nth_error (rules g) (production_id p) = Some r /\ irhs r = rnodes (production_id p).
Proof.
  intros (Hi & _). apply nth_error_Some in Hi. unfold ClosureProofs.rnodes.
  destruct (nth_error (rules g) (production_id p)) as [r|] eqn:Hr; [|congruence]. eauto.
Qed.

Lemma next_node_ok p : good_pos p -> @next_node E T L g p = Ok (nextn (production_id p) (pos p)).
Proof.
  intros Hp. destruct (good_pos_rule p Hp) as (r & Hr & Hn). unfold next_node, production_rule.
  rewrite (index_ok _ _ _ Hr). simpl. rewrite Hn. rewrite slice_from_ok by apply Hp. reflexivity.
Qed.

Lemma nextl_bound i p l : nextl i p = Some l -> l < n /\ p < length (rnodes i) /\ nextn i p = Some (Production l).
Proof.
  unfold ClosureProofs.nextl, ClosureProofs.nextn. intros Hl. destruct (skipn p (rnodes i)) as [|nd ns] eqn:Hs; [discriminate|].
  destruct nd as [a|l']; [discriminate|]. simpl in Hl. injection Hl as ->. split; [|split].
  - apply (nodes_ok_skipn _ p (nodes_ok_rnodes i)). rewrite Hs. simpl; auto.
  - assert (Hlen : length (skipn p (rnodes i)) <> 0) by (rewrite Hs; simpl; lia). rewrite skipn_length in Hlen. lia.
  - reflexivity.
Qed.

Lemma next_production_label_ok p : good_pos p ->
  exists o, @next_production_label bm E T L g F p = Ok o /\
    match nextl (production_id p) (pos p) with
    | None => o = None
    | Some l => exists s, o = Some (l, s) /\ good_set s /\
        forall a, vmem s a = true <->
          (a <> Epsilon /\ ffirst F (skipn (pos p + 1) (rnodes (production_id p))) a = true) \/
          (fnull F (skipn (pos p + 1) (rnodes (production_id p))) = true /\ vmem (follow_set p) a = true)
    end.
Proof.
  intros Hp. destruct (good_pos_rule p Hp) as (r & Hr & Hn). unfold next_production_label, production_rule.
  rewrite (index_ok _ _ _ Hr). simpl. rewrite Hn. rewrite slice_from_ok by apply Hp. simpl.
  fold (nextl (production_id p) (pos p)). destruct (nextl (production_id p) (pos p)) as [l|] eqn:Hl.
  - destruct (nextl_bound _ _ _ Hl) as (_ & Hlt & _). rewrite slice_from_ok by lia. simpl.
    destruct (follow_set_for_rule_ok (skipn (pos p + 1) (rnodes (production_id p))) (follow_set p)) as (s & -> & Hs & Hm).
    { apply nodes_ok_skipn, nodes_ok_rnodes. } { apply Hp. }
    simpl. eexists. split; [reflexivity|]. exists s. auto.
  - eexists. split; reflexivity.
Qed.

(** The closure of a kernel, inductively. *)
Inductive clabel (K : kernel) : nat -> Prop :=
| cl_seed p l : In p K -> nextl (production_id p) (pos p) = Some l -> clabel K l
| cl_step l j l' : clabel K l -> rsym j l -> nextl j 0 = Some l' -> clabel K l'.

Inductive cfollow (K : kernel) : nat -> aug nat -> Prop :=
| cf_seed_first p l a : In p K -> nextl (production_id p) (pos p) = Some l -> a <> Epsilon ->
    ffirst F (skipn (pos p + 1) (rnodes (production_id p))) a = true -> cfollow K l a
| cf_seed_follow p l a : In p K -> nextl (production_id p) (pos p) = Some l ->
    fnull F (skipn (pos p + 1) (rnodes (production_id p))) = true -> vmem (follow_set p) a = true -> cfollow K l a
| cf_step_first l j l' a : clabel K l -> rsym j l -> nextl j 0 = Some l' -> a <> Epsilon ->
    ffirst F (skipn 1 (rnodes j)) a = true -> cfollow K l' a
| cf_step_follow l j l' a : cfollow K l a -> rsym j l -> nextl j 0 = Some l' ->
    fnull F (skipn 1 (rnodes j)) = true -> cfollow K l' a.

Lemma cfollow_clabel K l a : cfollow K l a -> clabel K l.
Proof. induction 1; [eapply cl_seed|eapply cl_seed|eapply cl_step|eapply cl_step]; eauto. Qed.

Variable K : kernel.
Hypothesis HK : good_kernel K.

Definition smem (sets : follow_map) (l : nat) (a : aug nat) : bool :=
  match lookup sets l with Some s => vmem s a | None => false end.

(** Everything in the map is justified. *)
Definition SInv (sets : follow_map) : Prop :=
  wf_sm n sets /\
  (forall l s, lookup sets l = Some s -> good_set s /\ clabel K l /\ forall a, vmem s a = true -> cfollow K l a).

Definition le_sets (s s' : follow_map) : Prop :=
  (forall l, In l (keys s) -> In l (keys s')) /\ (forall l a, smem s l a = true -> smem s' l a = true).

Lemma le_sets_refl s : le_sets s s. Proof. split; auto. Qed.
Lemma le_sets_trans a b c : le_sets a b -> le_sets b c -> le_sets a c.
Proof. intros (A1 & A2) (B1 & B2). split; auto. Qed.

Lemma in_keys_iff (sets : follow_map) l : wf_sm n sets -> (In l (keys sets) <-> exists s, lookup sets l = Some s).
Proof.
  intros Hw. destruct (lookup sets l) as [s|] eqn:Hl.
  - split; [eauto|]. intros _. destruct (in_dec Nat.eq_dec l (keys sets)) as [|Hn]; auto.
    apply (lookup_none n) in Hn; auto. congruence.
  - apply (lookup_none n) in Hl; auto. split; [tauto|]. intros (s & Hs). discriminate.
Qed.

Lemma in_keys_eq (s s' : follow_map) l : keys s = keys s' -> In l (keys s) -> In l (keys s').
Proof. intros ->. auto. Qed.

(** Seeding. *)
Definition seeded (sets : follow_map) (p : position) : Prop :=
  forall l, nextl (production_id p) (pos p) = Some l ->
    In l (keys sets) /\
    (forall a, a <> Epsilon -> ffirst F (skipn (pos p + 1) (rnodes (production_id p))) a = true -> smem sets l a = true) /\
    (forall a, fnull F (skipn (pos p + 1) (rnodes (production_id p))) = true -> vmem (follow_set p) a = true ->
       smem sets l a = true).

Lemma seeded_mono s s' p : le_sets s s' -> seeded s p -> seeded s' p.
Proof. intros (L1 & L2) Hs l Hl. destruct (Hs l Hl) as (H1 & H2 & H3). repeat split; auto. Qed.

Lemma seed_position_ok st p : In p K -> SInv (fst st) -> (forall l, In l (snd st) <-> In l (keys (fst st))) ->
  length (snd st) = length (keys (fst st)) ->
  exists st', @seed_position bm E T L g F st p = Ok st' /\ SInv (fst st') /\
    (forall l, In l (snd st') <-> In l (keys (fst st'))) /\ length (snd st') = length (keys (fst st')) /\
    le_sets (fst st) (fst st') /\ seeded (fst st') p.
Proof.
  destruct st as [sets w]. simpl. intros Hp HS Hw Hlen.
  unfold good_kernel in HK. rewrite Forall_forall in HK. pose proof (HK p Hp) as Hgp.
  destruct (next_production_label_ok p Hgp) as (o & -> & Ho). simpl.
  destruct (nextl (production_id p) (pos p)) as [l|] eqn:Hl.
  2:{ subst o. eexists. split; [reflexivity|]. simpl. split; [auto|]. split; [auto|]. split; [auto|].
      split; [apply le_sets_refl|]. intros l0. congruence. }
  destruct Ho as (fs & -> & (Hfs & Hfe) & Hmfs).
  destruct (nextl_bound _ _ _ Hl) as (Hln & _ & _). destruct HS as (HSw & HSj).
  destruct (@sm_get_mut_or_insert_ok bm E nat bitset _ _ n sets l (vs_new (ivocab g)) HSw Hln)
    as (sets1 & i & -> & Hw1 & Hi & Hk1 & Hlk1). simpl.
  set (cur := match lookup sets l with Some v => v | None => vs_new (ivocab g) end) in *.
  unfold sm_deref. rewrite (index_ok _ _ _ Hi). simpl.
  assert (Hcur : good_set cur /\ forall a, vmem cur a = smem sets l a).
  { unfold cur, smem. destruct (lookup sets l) as [s|] eqn:Hls.
    - split; [apply (HSj _ _ Hls)|auto].
    - split; [split; [apply wf_new|apply vmem_new]|]. intros. apply vmem_new. }
  destruct Hcur as ((Hcw & Hce) & Hcm).
  destruct (vs_merge_spec m cur fs Hcw Hfs) as (M1 & M2 & _).
  set (s' := fst (vs_merge cur fs)) in *.
  destruct (@sm_assign_ok E nat bitset _ n sets1 i l cur s' Hw1 Hi) as (sets2 & -> & Hw2 & Hk2 & Hlk2). simpl.
  eexists. split; [reflexivity|]. simpl.
  assert (Hlk : forall k, lookup sets2 k = if l =? k then Some s' else lookup sets k).
  { intros k. rewrite (Hlk2 k : _ = if l =? k then _ else _). rewrite (Hlk1 k : _ = if l =? k then _ else _).
    destruct (l =? k); auto. }
  assert (Hsm : forall k a, smem sets2 k a = true <-> smem sets k a = true \/ (k = l /\ vmem fs a = true)).
  { intros k a. unfold smem at 1. rewrite Hlk. destruct (Nat.eqb_spec l k) as [<-|Hne].
    - rewrite M2, Hcm. intuition.
    - fold (smem sets k a). intuition congruence. }
  assert (Hkeys : forall k, In k (keys sets2) <-> In k (keys sets) \/ k = l).
  { intros k. rewrite Hk2, Hk1, in_app_iff. destruct (lookup sets l) as [s|] eqn:Hls; simpl.
    - split; [tauto|]. intros [| ->]; auto. left. apply in_keys_iff; eauto.
    - intuition. }
  split; [|split; [|split; [|split]]].
  - split; auto. intros k s Hk. rewrite Hlk in Hk. destruct (Nat.eqb_spec l k) as [<-|Hne]; [|apply HSj; auto].
    injection Hk as <-. split; [split; auto|].
    { destruct (vmem s' Epsilon) eqn:Hx; auto. apply M2 in Hx as [Hx|Hx]; congruence. }
    split; [eapply cl_seed; eauto|]. intros a Ha. apply M2 in Ha as [Ha|Ha].
    + rewrite Hcm in Ha. unfold smem in Ha. destruct (lookup sets l) as [s|] eqn:Hls; [|discriminate].
      eapply HSj; eauto.
    + apply Hmfs in Ha as [[Ha1 Ha2]|[Ha1 Ha2]]; [eapply cf_seed_first|eapply cf_seed_follow]; eauto.
  - intros k. rewrite Hkeys. destruct (lookup sets l) as [s|] eqn:Hls; simpl; rewrite Hw.
    + split; [tauto|]. intros [| ->]; auto. apply in_keys_iff; eauto.
    + intuition.
  - rewrite Hk2, Hk1, app_length. destruct (lookup sets l) as [s|]; simpl; lia.
  - split; [intros; apply Hkeys; auto|]. intros k a Ha. apply Hsm. auto.
  - intros l' Hl'. rewrite Hl in Hl'. injection Hl' as <-. split; [apply Hkeys; auto|]. split.
    + intros a Ha Hx. apply Hsm. right. split; auto. apply Hmfs. auto.
    + intros a Ha Hx. apply Hsm. right. split; auto. apply Hmfs. auto.
Qed.

Lemma seed_ok ks st : incl ks K -> SInv (fst st) -> (forall l, In l (snd st) <-> In l (keys (fst st))) ->
  length (snd st) = length (keys (fst st)) ->
  exists st', foldM (@seed_position bm E T L g F) st ks = Ok st' /\ SInv (fst st') /\
    (forall l, In l (snd st') <-> In l (keys (fst st'))) /\ length (snd st') = length (keys (fst st')) /\
    le_sets (fst st) (fst st') /\ forall p, In p ks -> seeded (fst st') p.
Proof.
  revert st. induction ks as [|p ks IH]; intros st Hinc HS Hw Hlen.
  - exists st. split; [reflexivity|]. split; [auto|]. split; [auto|]. split; [auto|]. split; [apply le_sets_refl|]. intros p [].
  - rewrite foldM_cons. destruct (seed_position_ok st p) as (st1 & -> & A1 & A2 & A3 & A4 & A5); auto.
    { apply Hinc; simpl; auto. }
    simpl. destruct (IH st1) as (st2 & -> & B1 & B2 & B3 & B4 & B5); auto.
    { intros x Hx; apply Hinc; simpl; auto. }
    exists st2. split; [reflexivity|]. split; [auto|]. split; [auto|]. split; [auto|].
    split; [eapply le_sets_trans; eauto|]. intros q [<-|Hq]; auto. eapply seeded_mono; eauto.
Qed.

(** Exploration. *)
Definition explored (sets : follow_map) (l : nat) : Prop :=
  forall j l', rsym j l -> nextl j 0 = Some l' -> In l' (keys sets).

Definition xstep (st st' : follow_map * list nat) : Prop :=
  SInv (fst st') /\ le_sets (fst st) (fst st') /\
  (forall l, In l (snd st) -> In l (snd st')) /\
  (forall l, In l (keys (fst st')) -> In l (keys (fst st)) \/ In l (snd st')) /\
  (forall l, In l (snd st') -> In l (snd st) \/ In l (keys (fst st'))) /\
  length (snd st') + length (keys (fst st)) = length (snd st) + length (keys (fst st')).

Lemma xstep_refl st : SInv (fst st) -> xstep st st.
Proof. intros Hs. split; [auto|]. split; [apply le_sets_refl|]. repeat split; auto. Qed.

Lemma xstep_trans a b c : xstep a b -> xstep b c -> xstep a c.
Proof.
  intros (A1 & A2 & A3 & A4 & A5 & A6) (B1 & B2 & B3 & B4 & B5 & B6).
  split; [auto|]. split; [eapply le_sets_trans; eauto|]. split; [auto|]. split; [|split; [|lia]].
  - intros l Hl. destruct (B4 l Hl) as [Hb|]; auto. destruct (A4 l Hb); auto.
  - intros l Hl. destruct (B5 l Hl) as [Hb|]; auto. destruct (A5 l Hb); auto. right. apply B2. auto.
Qed.

Lemma explore_rule_ok l j r st : clabel K l -> nth_error (rules g) j = Some r -> isymbol r = l -> SInv (fst st) ->
  exists st', @explore_rule bm E T L g st r = Ok st' /\ xstep st st' /\
    forall l', nextl j 0 = Some l' -> In l' (keys (fst st')).
Proof.
  destruct st as [sets w]. simpl. intros Hcl Hr Hs HS. unfold explore_rule.
  assert (Hnl : nextl j 0 = maybe_first_production_label (irhs r)).
  { unfold ClosureProofs.nextl, ClosureProofs.rnodes. rewrite Hr. reflexivity. }
  destruct (maybe_first_production_label (irhs r)) as [l'|] eqn:Hm.
  2:{ exists (sets, w). split; [reflexivity|]. split; [apply xstep_refl; auto|]. rewrite Hnl. discriminate. }
  destruct (nextl_bound _ _ _ Hnl) as (Hln & _ & _). destruct HS as (HSw & HSj).
  destruct (@sm_get_mut_or_insert_ok bm E nat bitset _ _ n sets l' (vs_new (ivocab g)) HSw Hln)
    as (sets1 & i & -> & Hw1 & Hi & Hk1 & Hlk1). simpl.
  eexists. split; [reflexivity|].
  assert (Hlk : forall k, lookup sets1 k = match lookup sets k with Some s => Some s | None => if l' =? k then Some (vs_new (ivocab g)) else None end).
  { intros k. rewrite (Hlk1 k : _ = if l' =? k then _ else _). destruct (Nat.eqb_spec l' k) as [<-|Hne].
    - destruct (lookup sets l'); auto.
    - destruct (lookup sets k); auto. }
  assert (Hkeys : forall k, In k (keys sets1) <-> In k (keys sets) \/ k = l').
  { intros k. rewrite Hk1, in_app_iff. destruct (lookup sets l') as [s|] eqn:Hls; simpl.
    - split; [tauto|]. intros [| ->]; auto. left. apply in_keys_iff; eauto.
    - intuition. }
  split.
  - split; [|split; [|split; [|split; [|split]]]]; simpl.
    + split; auto. intros k s Hk. rewrite Hlk in Hk. destruct (lookup sets k) as [s0|] eqn:Hk0.
      * injection Hk as <-. apply HSj; auto.
      * destruct (Nat.eqb_spec l' k) as [<-|]; [|discriminate]. injection Hk as <-.
        split; [split; [apply wf_new|apply vmem_new]|]. split; [eapply cl_step; [exact Hcl| |exact Hnl]; exists r; auto|].
        intros a. rewrite vmem_new. discriminate.
    + split; [intros; apply Hkeys; auto|]. intros k a. unfold smem. rewrite Hlk. destruct (lookup sets k); auto. discriminate.
    + intros k Hk. destruct (lookup sets l'); simpl; auto.
    + intros k Hk. apply Hkeys in Hk as [Hk| ->]; auto. destruct (lookup sets l') as [s|] eqn:Hls; simpl; auto.
      left. apply in_keys_iff; eauto.
    + intros k Hk. destruct (lookup sets l') as [s|] eqn:Hls; simpl in Hk; auto. destruct Hk as [<-|Hk]; auto.
      right. apply Hkeys. auto.
    + rewrite Hk1, app_length. destruct (lookup sets l'); simpl; lia.
  - intros l'' Hl''. rewrite Hnl in Hl''. injection Hl'' as <-. simpl. apply Hkeys. auto.
Qed.

Lemma explore_rules_ok l ids rs st : clabel K l ->
  Forall2 (fun i r => nth_error (rules g) i = Some r) ids rs ->
  (forall r, In r rs -> isymbol r = l) -> SInv (fst st) ->
  exists st', foldM (@explore_rule bm E T L g) st rs = Ok st' /\ xstep st st' /\
    forall j l', In j ids -> nextl j 0 = Some l' -> In l' (keys (fst st')).
Proof.
  intros Hcl Hf. revert st. induction Hf as [|j r ids rs Hj Hf IH]; intros st Hs HS.
  - exists st. split; [reflexivity|]. split; [apply xstep_refl; auto|]. simpl. tauto.
  - rewrite foldM_cons. destruct (explore_rule_ok l j r st Hcl Hj) as (st1 & -> & X1 & N1); auto.
    { apply Hs; simpl; auto. }
    simpl. destruct (IH st1) as (st2 & -> & X2 & N2); [intros; apply Hs; simpl; auto|apply X1|].
    exists st2. split; [reflexivity|]. split; [eapply xstep_trans; eauto|].
    intros j' l' [<-|Hj'] Hl'; [|eauto]. apply X2. auto.
Qed.

Definition xinv (sets0 : follow_map) (st : follow_map * list nat) : Prop :=
  SInv (fst st) /\ le_sets sets0 (fst st) /\
  (forall l, In l (snd st) -> In l (keys (fst st))) /\
  (forall l, In l (keys (fst st)) -> In l (snd st) \/ explored (fst st) l).

Lemma explored_mono s s' l : le_sets s s' -> explored s l -> explored s' l.
Proof. intros (L1 & _) He j l' Hj Hl. apply L1. eauto. Qed.

Lemma keys_length (sets : follow_map) : wf_sm n sets -> length (keys sets) <= n.
Proof.
  intros Hw. pose proof (keys_nodup n sets Hw) as Hn.
  assert (Hinc : incl (keys sets) (seq 0 n)).
  { intros k Hk. apply (keys_bound n sets k Hw) in Hk. apply in_seq. change (k < n) in Hk. lia. }
  apply NoDup_incl_length in Hinc; auto. rewrite seq_length in Hinc. auto.
Qed.

Lemma explore_step_ok Pn Dv sets0 st R : xinv sets0 st ->
  wp Pn Dv (@explore_step bm E T L g st) (fun r => match r with
      | inl st' => xinv sets0 st' /\
          (n - length (keys (fst st'))) + length (snd st') < (n - length (keys (fst st))) + length (snd st)
      | inr sets => SInv sets /\ le_sets sets0 sets /\ forall l, In l (keys sets) -> explored sets l
      end) R.
Proof.
  destruct st as [sets w]. intros (I1 & I2 & I3 & I4). unfold explore_step. simpl in *.
  destruct w as [|l w].
  - simpl. split; [auto|]. split; [auto|]. intros l Hl. destruct (I4 l Hl) as [[]|]; auto.
  - assert (Hlk : In l (keys sets)) by (apply I3; simpl; auto).
    pose proof I1 as (Hw & Hj). apply in_keys_iff in Hlk as Hlk'; auto. destruct Hlk' as (s & Hs).
    destruct (Hj _ _ Hs) as (_ & Hcl & _).
    assert (Hln : l < n) by (apply (keys_bound n sets l Hw Hlk)).
    destruct (@production_rules_ok E T L _ g Hwf l Hln) as (ids & rs & _ & -> & Hf & _ & Hids & Hin & _). simpl.
    destruct (explore_rules_ok l ids rs (sets, w) Hcl Hf) as (st' & -> & X & N); auto.
    { intros r Hr. apply Hin; auto. }
    simpl. destruct X as (X1 & X2 & X3 & X4 & X5 & X6). simpl in *.
    split; [split; [auto|split; [eapply le_sets_trans; eauto|split]]|].
    + intros k Hk. destruct (X5 k Hk) as [Hk'|]; auto. apply X2. apply I3. auto.
    + intros k Hk. destruct (X4 k Hk) as [Hk'|]; auto. destruct (I4 k Hk') as [[<-|Hkw]|He]; auto.
      * right. intros j l' Hj' Hl'. eapply N; eauto. apply Hids. auto.
      * right. eapply explored_mono; eauto.
    + pose proof (keys_length sets Hw). destruct X1 as (Hw' & _). pose proof (keys_length (fst st') Hw'). lia.
Qed.

(** Propagation. *)
Definition pclosed (sets : follow_map) (j l : nat) : Prop :=
  forall l', nextl j 0 = Some l' ->
    (forall a, a <> Epsilon -> ffirst F (skipn 1 (rnodes j)) a = true -> smem sets l' a = true) /\
    (forall a, fnull F (skipn 1 (rnodes j)) = true -> smem sets l a = true -> smem sets l' a = true).

Definition smiss (sets : follow_map) : nat :=
  list_sum (map (fun k => match lookup sets k with Some s => missing m s | None => 0 end) (keys sets)).

Definition pstep (st st' : follow_map * bool) : Prop :=
  SInv (fst st') /\ keys (fst st') = keys (fst st) /\ le_sets (fst st) (fst st') /\
  smiss (fst st') <= smiss (fst st) /\
  (snd st' = false -> snd st = false /\ forall l a, smem (fst st') l a = smem (fst st) l a) /\
  (snd st' = true -> snd st = true \/ smiss (fst st') < smiss (fst st)).

Lemma pstep_refl st : SInv (fst st) -> pstep st st.
Proof. intros Hs. split; [auto|]. split; [auto|]. split; [apply le_sets_refl|]. repeat split; auto. Qed.

Lemma pstep_trans a b c : pstep a b -> pstep b c -> pstep a c.
Proof.
  intros (A1 & A2 & A3 & A4 & A5 & A6) (B1 & B2 & B3 & B4 & B5 & B6).
  split; [auto|]. split; [congruence|]. split; [eapply le_sets_trans; eauto|]. split; [lia|]. split.
  - intros Hc. destruct (B5 Hc) as (Hb & He). destruct (A5 Hb). split; [auto|]. intros. rewrite He. auto.
  - intros Hc. destruct (B6 Hc) as [Hb|]; [|right; lia]. destruct (A6 Hb); auto. right. lia.
Qed.

Lemma list_sum_le (f h : nat -> nat) l : (forall k, In k l -> f k <= h k) -> list_sum (map f l) <= list_sum (map h l).
Proof.
  induction l as [|k l IH]; simpl; intros Hi; auto. assert (f k <= h k) by auto.
  assert (list_sum (map f l) <= list_sum (map h l)) by auto. lia.
Qed.

Lemma list_sum_lt (f h : nat -> nat) l k0 : (forall k, In k l -> f k <= h k) -> In k0 l -> f k0 < h k0 ->
  list_sum (map f l) < list_sum (map h l).
Proof.
  induction l as [|k l IH]; simpl; intros Hi H0 Hlt; [tauto|]. assert (f k <= h k) by auto.
  assert (list_sum (map f l) <= list_sum (map h l)) by (apply list_sum_le; auto).
  destruct H0 as [->|H0]; [lia|]. assert (list_sum (map f l) < list_sum (map h l)) by auto. lia.
Qed.

Lemma propagate_follow_rule_ok l j r st : In l (keys (fst st)) -> nth_error (rules g) j = Some r -> isymbol r = l ->
  explored (fst st) l -> SInv (fst st) ->
  exists st', @propagate_follow_rule bm E T L g F l st r = Ok st' /\ pstep st st' /\
    (snd st' = false -> pclosed (fst st') j l).
Proof.
  destruct st as [sets ch]. simpl. intros Hlk Hr Hs Hex HS. unfold propagate_follow_rule.
  assert (Hrn : rnodes j = irhs r) by (unfold ClosureProofs.rnodes; rewrite Hr; reflexivity).
  assert (Hnl : nextl j 0 = maybe_first_production_label (irhs r)).
  { unfold ClosureProofs.nextl. rewrite Hrn. reflexivity. }
  destruct (maybe_first_production_label (irhs r)) as [l'|] eqn:Hm.
  2:{ exists (sets, ch). split; [reflexivity|]. split; [apply pstep_refl; auto|]. intros _ l'. rewrite Hnl. discriminate. }
  destruct (nextl_bound _ _ _ Hnl) as (Hln & Hlen & _). rewrite Hrn in Hlen.
  assert (Hl'k : In l' (keys sets)). { eapply Hex; eauto. exists r. auto. }
  pose proof HS as (HSw & HSj).
  assert (Hll : l < n) by (apply (keys_bound n sets l HSw Hlk)).
  apply in_keys_iff in Hlk as (fs & Hfs); auto. apply in_keys_iff in Hl'k as (cur & Hcur); auto.
  rewrite (sm_get_ok n) by auto. rewrite Hfs. simpl. rewrite slice_from_ok by lia. simpl.
  destruct (follow_set_for_rule_ok (skipn 1 (irhs r)) fs) as (sub & Hsub & (Hsubw & Hsube) & Hsubm).
  { rewrite <- Hrn. apply nodes_ok_skipn, nodes_ok_rnodes. } { apply (HSj _ _ Hfs). }
  change (skipn 1 (irhs r)) with (match irhs r with [] => [] | _ :: l0 => l0 end) in Hsub. rewrite Hsub. simpl.
  pose proof (@sm_get_mut_ok E nat bitset _ _ n sets l' HSw Hln) as Hgm. rewrite Hcur in Hgm. destruct Hgm as (i & -> & Hi). simpl.
  unfold sm_deref. rewrite (index_ok _ _ _ Hi). simpl.
  destruct (HSj _ _ Hcur) as ((Hcw & Hce) & Hcl & Hcj).
  destruct (vs_merge_spec m cur sub Hcw Hsubw) as (M1 & M2 & M3).
  destruct (vs_merge cur sub) as [cur' md] eqn:Hmg. simpl in M1, M2, M3.
  destruct (@sm_assign_ok E nat bitset _ n sets i l' cur cur' HSw Hi) as (sets2 & -> & Hw2 & Hk2 & Hlk2). simpl.
  eexists. split; [reflexivity|].
  assert (Hlk : forall k, lookup sets2 k = if l' =? k then Some cur' else lookup sets k) by (intros; apply Hlk2).
  assert (Hsm : forall k a, smem sets2 k a = true <-> smem sets k a = true \/ (k = l' /\ vmem sub a = true)).
  { intros k a. unfold smem at 1. rewrite Hlk. destruct (Nat.eqb_spec l' k) as [<-|Hne].
    - rewrite M2. unfold smem. rewrite Hcur. intuition.
    - fold (smem sets k a). intuition congruence. }
  assert (Hlemiss : missing m cur' <= missing m cur).
  { apply missing_mono, mem_of_vmem. intros a Ha. apply M2. auto. }
  assert (Hmf : forall k, In k (keys sets) ->
     (match lookup sets2 k with Some s => missing m s | None => 0 end) <=
     (match lookup sets k with Some s => missing m s | None => 0 end)).
  { intros k _. rewrite Hlk. destruct (Nat.eqb_spec l' k) as [<-|]; auto. rewrite Hcur. auto. }
  assert (Heqf : md = false -> forall k a, smem sets2 k a = smem sets k a).
  { intros Hmd k a. apply Bool.eq_true_iff_eq. rewrite Hsm. split; auto. intros [|[-> Ha]]; auto.
    unfold smem. rewrite Hcur. destruct (vmem cur a) eqn:Hca; auto. assert (md = true) by (apply M3; eauto). congruence. }
  split.
  - split; [|split; [|split; [|split; [|split]]]]; simpl.
    + split; auto. intros k s Hk. rewrite Hlk in Hk. destruct (Nat.eqb_spec l' k) as [<-|Hne]; [|apply HSj; auto].
      injection Hk as <-. split; [split; auto|].
      { destruct (vmem cur' Epsilon) eqn:Hx; auto. apply M2 in Hx as [Hx|Hx]; congruence. }
      split; [auto|]. intros a Ha. apply M2 in Ha as [Ha|Ha]; auto.
      destruct (HSj _ _ Hfs) as (_ & Hcll & Hjl).
      apply Hsubm in Ha as [[Ha1 Ha2]|[Ha1 Ha2]].
      * eapply (cf_step_first K l j); eauto; [exists r; auto|]. rewrite Hrn. auto.
      * eapply (cf_step_follow K l j); eauto; [exists r; auto|]. rewrite Hrn. auto.
    + auto.
    + split; [intros k; rewrite Hk2; auto|]. intros k a Ha. apply Hsm. auto.
    + unfold smiss. rewrite Hk2. apply list_sum_le. auto.
    + intros Hc. apply orb_false_iff in Hc as (Hmd & ->). auto.
    + intros Hc. apply orb_true_iff in Hc as [Hmd|Hc]; auto. right. unfold smiss. rewrite Hk2.
      apply (list_sum_lt _ _ _ l'); auto; [apply in_keys_iff; eauto|].
      rewrite Hlk, Nat.eqb_refl, Hcur. apply M3 in Hmd as (c & Hc1 & Hc2). apply missing_strict.
      * apply mem_of_vmem. intros a Ha. apply M2. auto.
      * exists (label_id c). split; [apply (vmem_bound m sub c Hsubw Hc1)|]. split; [exact Hc2|]. apply M2. auto.
  - simpl. intros Hc l0 Hl0. rewrite Hnl in Hl0. injection Hl0 as <-. rewrite Hrn. split.
    + intros a Ha Hx. apply Hsm. right. split; auto. apply Hsubm. auto.
    + intros a Ha Hx. apply Hsm. right. split; auto. apply Hsubm. right. split; auto.
      apply orb_false_iff in Hc as (Hmd & _). rewrite (Heqf Hmd) in Hx. unfold smem in Hx. rewrite Hfs in Hx. auto.
Qed.

Lemma pclosed_eq s s' j l : (forall l a, smem s' l a = smem s l a) -> pclosed s j l -> pclosed s' j l.
Proof.
  intros He Hp l' Hl. destruct (Hp l' Hl) as (H1 & H2). split; intros a Ha Hx; rewrite He in *; auto.
Qed.

Lemma propagate_rules_ok l ids rs st : Forall2 (fun i r => nth_error (rules g) i = Some r) ids rs ->
  (forall r, In r rs -> isymbol r = l) -> In l (keys (fst st)) -> explored (fst st) l -> SInv (fst st) ->
  exists st', foldM (@propagate_follow_rule bm E T L g F l) st rs = Ok st' /\ pstep st st' /\
    (snd st' = false -> forall j, In j ids -> pclosed (fst st') j l).
Proof.
  intros Hf. revert st. induction Hf as [|j r ids rs Hj Hf IH]; intros st Hs Hk He HS.
  - exists st. split; [reflexivity|]. split; [apply pstep_refl; auto|]. intros _ j [].
  - rewrite foldM_cons. destruct (propagate_follow_rule_ok l j r st Hk Hj) as (st1 & -> & X1 & N1); auto.
    { apply Hs; simpl; auto. }
    simpl. destruct (IH st1) as (st2 & -> & X2 & N2).
    { intros; apply Hs; simpl; auto. }
    { apply X1. auto. }
    { eapply explored_mono; [apply X1|auto]. }
    { apply X1. }
    exists st2. split; [reflexivity|]. split; [eapply pstep_trans; eauto|].
    intros Hc j' [<-|Hj']; [|auto]. destruct X2 as (_ & _ & _ & _ & X2 & _). destruct (X2 Hc) as (Hc1 & Heq).
    eapply pclosed_eq; eauto.
Qed.

Lemma propagate_labels_ok ls st : incl ls (keys (fst st)) -> SInv (fst st) ->
  (forall l, In l (keys (fst st)) -> explored (fst st) l) ->
  exists st', foldM (fun st label => rs <- production_rules_for_label g label ;;
      foldM (@propagate_follow_rule bm E T L g F label) st rs) st ls = Ok st' /\ pstep st st' /\
    (snd st' = false -> forall l j, In l ls -> rsym j l -> pclosed (fst st') j l).
Proof.
  revert st. induction ls as [|l ls IH]; intros st Hinc HS He.
  - exists st. split; [reflexivity|]. split; [apply pstep_refl; auto|]. intros _ l j [].
  - rewrite foldM_cons. assert (Hlk : In l (keys (fst st))) by (apply Hinc; simpl; auto).
    pose proof HS as (Hw & _). pose proof (keys_bound n (fst st) l Hw Hlk) as Hln. change (l < n) in Hln.
    destruct (@production_rules_ok E T L _ g Hwf l Hln) as (ids & rs & _ & -> & Hf & _ & Hids & Hin & _). simpl.
    destruct (propagate_rules_ok l ids rs st Hf) as (st1 & -> & X1 & N1); auto.
    { intros r Hr; apply Hin; auto. }
    simpl. pose proof X1 as (Y1 & Y2 & Y3 & _).
    destruct (IH st1) as (st2 & -> & X2 & N2); auto.
    { intros x Hx. apply Y3. apply Hinc. simpl; auto. }
    { intros x Hx. eapply explored_mono; [exact Y3|]. apply He. exact (in_keys_eq _ _ _ Y2 Hx). }
    exists st2. split; [reflexivity|]. split; [eapply pstep_trans; eauto|].
    intros Hc l' j [<-|Hl'] Hj; [|eauto]. destruct X2 as (_ & _ & _ & _ & X2 & _). destruct (X2 Hc) as (Hc1 & Heq).
    eapply pclosed_eq; eauto. apply N1; auto. apply Hids. destruct Hj as (r & Hr). eauto.
Qed.

Lemma smiss_bound sets : SInv sets -> smiss sets <= n * m.
Proof.
  intros (Hw & _). unfold smiss. pose proof (keys_length sets Hw) as Hk.
  apply Nat.le_trans with (length (keys sets) * m); [|apply Nat.mul_le_mono_r; auto].
  clear Hk. induction (keys sets) as [|k ks IH]; simpl; auto.
  destruct (lookup sets k) as [s|]; [pose proof (missing_bound m s)|]; lia.
Qed.

(** The computed follow sets are exactly the closure. *)
Definition closure_is (sets : follow_map) : Prop :=
  wf_sm n sets /\
  (forall l, In l (keys sets) <-> clabel K l) /\
  (forall l s, lookup sets l = Some s -> good_set s /\ forall a, vmem s a = true <-> cfollow K l a).

Lemma closed_is sets : SInv sets -> (forall p, In p K -> seeded sets p) ->
  (forall l, In l (keys sets) -> explored sets l) ->
  (forall l j, In l (keys sets) -> rsym j l -> pclosed sets j l) -> closure_is sets.
Proof.
  intros (Hw & Hj) Hseed Hex Hcl. split; [auto|].
  assert (Hlab : forall l, clabel K l -> In l (keys sets)).
  { induction 1; [eapply Hseed; eauto|]. eapply Hex; eauto. }
  assert (Hfol : forall l a, cfollow K l a -> smem sets l a = true).
  { induction 1 as [p l a Hp Hl Ha Hx|p l a Hp Hl Ha Hx|l j l' a Hc Hr Hl Ha Hx|l j l' a Hc IH Hr Hl Hx].
    - destruct (Hseed p Hp l Hl) as (_ & C & _). auto.
    - destruct (Hseed p Hp l Hl) as (_ & _ & C). auto.
    - destruct (Hcl l j (Hlab l Hc) Hr l' Hl) as (C1 & _). auto.
    - destruct (Hcl l j (Hlab l (cfollow_clabel K l a Hc)) Hr l' Hl) as (_ & C2). auto. }
  split.
  - intros l. split; auto. intros Hl. apply in_keys_iff in Hl as (s & Hs); auto. eapply Hj; eauto.
  - intros l s Hs. destruct (Hj _ _ Hs) as (A1 & A2 & A3). split; auto. intros a. split; auto.
    intros Ha. apply Hfol in Ha. unfold smem in Ha. rewrite Hs in Ha. auto.
Qed.

Lemma closure_follow_sets_ok Pn Dv R fuel : (Dv \/ n * m < fuel) ->
  wp Pn Dv (@closure_follow_sets bm E T L g F fuel K) closure_is R.
Proof.
  intros Hfuel. unfold closure_follow_sets.
  assert (Hnm : n <= n * m). { unfold vocab_size. nia. }
  destruct (seed_ok K (sm_new n, [])) as (st0 & -> & S1 & S2 & S3 & _ & S5).
  { apply incl_refl. }
  { split; [apply wf_sm_new|]. simpl. intros l s Hs. change (sm_new (labels_count g)) with (@sm_new nat bitset n) in Hs.
    rewrite lookup_new in Hs. discriminate. }
  { simpl. intros. tauto. }
  { reflexivity. }
  simpl. apply wp_bind.
  apply (wp_while (xinv (fst st0)) (fun st => (n - length (keys (fst st))) + length (snd st))).
  { destruct Hfuel as [|Hfuel]; auto. right. rewrite S3. destruct S1 as (Hw & _).
    pose proof (keys_length (fst st0) Hw). lia. }
  { split; [auto|]. split; [apply le_sets_refl|]. split; [intros; apply S2; auto|]. intros l Hl. left. apply S2. auto. }
  { intros st Hst. eapply wp_conseq; [apply (explore_step_ok Pn Dv (fst st0) st R Hst)|].
    intros [st'|sets]; [intros (A & B); split; auto|].
    intros (I1 & I2 & I3).
    apply (wp_while (fun s => SInv s /\ keys s = keys sets /\ le_sets sets s) smiss).
    { destruct Hfuel as [|Hfuel]; auto. right. pose proof (smiss_bound sets I1). lia. }
    { split; [auto|]. split; auto using le_sets_refl. }
    intros s (J1 & J2 & J3). unfold propagate_follow.
    assert (Hsi : map fst (sm_iter sets) = keys s) by (rewrite J2; reflexivity). rewrite Hsi.
    assert (Hex : forall l, In l (keys s) -> explored s l).
    { intros l Hl. eapply explored_mono; [exact J3|]. apply I3. exact (in_keys_eq _ _ _ J2 Hl). }
    destruct (propagate_labels_ok (keys s) (s, false)) as ([s' ch] & Heq & X & N); auto.
    { apply incl_refl. }
    setoid_rewrite Heq. simpl. destruct X as (X1 & X2 & X3 & X4 & X5 & X6). simpl in *.
    destruct ch; simpl.
    - split; [split; [auto|]|].
      + split; [congruence|]. eapply le_sets_trans; eauto.
      + right. destruct (X6 eq_refl); [discriminate|auto].
    - apply closed_is; auto.
      + intros p Hp. eapply seeded_mono; [|apply S5; auto]. eapply le_sets_trans; [|apply X3].
        eapply le_sets_trans; eauto.
      + intros l Hl. eapply explored_mono; [exact X3|]. apply Hex. exact (in_keys_eq _ _ _ X2 Hl).
      + intros l j Hl Hj. apply N; auto. exact (in_keys_eq _ _ _ X2 Hl). }
Qed.

(** The positions added to the kernel by the closure. *)
Definition is_closure (C : list position) : Prop :=
  (forall q, In q C -> good_pos q /\ pos q = 0 /\ exists l, rsym (production_id q) l /\ clabel K l /\
     forall a, vmem (follow_set q) a = true <-> cfollow K l a) /\
  (forall l i, clabel K l -> rsym i l -> exists q, In q C /\ production_id q = i) /\
  NoDup (map production_id C).

Lemma NoDup_app_intro {A} (l l' : list A) : NoDup l -> NoDup l' -> (forall x, In x l -> ~ In x l') -> NoDup (l ++ l').
Proof.
  induction 1 as [|a l Ha Hn IH]; simpl; auto. intros Hn' Hd. constructor.
  - rewrite in_app_iff. intros [|Hx]; auto. apply (Hd a); auto.
  - apply IH; auto.
Qed.

Lemma positions_ok ents : (forall l s, In (l, s) ents -> l < n) -> NoDup (map fst ents) ->
  exists pss, @mapM E _ _ (positions_of_label g) ents = Ok pss /\
    (forall q, In q (concat pss) <-> exists l s i, In (l, s) ents /\ rsym i l /\ q = mk_position i 0 s) /\
    NoDup (map production_id (concat pss)).
Proof.
  induction ents as [|[l s] ents IH]; intros Hb Hn; simpl.
  - exists []. split; [reflexivity|]. simpl. split; [|constructor]. intros q. split; [tauto|].
    intros (l & s & i & [] & _).
  - inversion Hn as [|? ? Hni Hn']; subst. destruct IH as (pss & Hpss & Hin & Hnd); auto.
    { intros; eapply Hb; simpl; eauto. }
    assert (Hl : l < n) by (eapply Hb; simpl; eauto).
    destruct (@production_rule_ids_ok E T L _ g Hwf l Hl) as (ids & Hids & Hnids & _ & Hids').
    unfold positions_of_label at 1. simpl. rewrite Hids. simpl. rewrite Hpss. simpl.
    eexists. split; [reflexivity|]. simpl.
    assert (Hin1 : forall q, In q (map (fun id => new_from_start_with_follow_set id s) ids) <->
              exists i, rsym i l /\ q = mk_position i 0 s).
    { intros q. rewrite in_map_iff. split.
      - intros (i & <- & Hi). exists i. split; [apply Hids'; auto|reflexivity].
      - intros (i & Hi & ->). exists i. split; [reflexivity|apply Hids'; auto]. }
    split.
    + intros q. rewrite in_app_iff, Hin1, Hin. split.
      * intros [(i & Hi & ->)|(l' & s' & i & H1 & H2 & H3)]; eauto 10.
      * intros (l' & s' & i & [Heq|H1] & H2 & H3); [injection Heq as <- <-; eauto|eauto 10].
    + rewrite map_app. apply NoDup_app_intro; auto.
      * rewrite map_map. simpl. rewrite map_id. auto.
      * rewrite map_map. simpl. rewrite map_id. intros i Hi Hi'. apply Hids' in Hi as (r & Hr & Hs).
        apply in_map_iff in Hi' as (q & Hq & Hqi). apply Hin in Hqi as (l' & s' & i' & H1 & (r' & Hr' & Hs') & ->).
        simpl in Hq. subst i'. rewrite Hr in Hr'. injection Hr' as <-. apply Hni.
        apply in_map_iff. exists (l', s'). split; [simpl; congruence|auto].
Qed.

Lemma is_closure_of sets : closure_is sets ->
  exists pss, @mapM E _ _ (positions_of_label g) (sm_iter sets) = Ok pss /\ is_closure (concat pss).
Proof.
  intros (Hw & Hk & Hs). destruct (positions_ok (sm_iter sets)) as (pss & Hp & Hin & Hn).
  { intros l s Hi. apply (keys_bound n sets l Hw). change l with (fst (l, s)). apply in_map. auto. }
  { apply (keys_nodup n sets Hw). }
  exists pss. split; auto. split; [|split; auto].
  - intros q Hq. apply Hin in Hq as (l & s & i & Hi & Hr & ->). apply (lookup_in n) in Hi as Hl; auto.
    destruct (Hs _ _ Hl) as (Hg & Hc). split; [|split; [reflexivity|]].
    + destruct Hr as (r & Hr & _). split; [simpl; apply nth_error_Some; congruence|]. split; [simpl; lia|auto].
    + exists l. split; auto. split; auto. apply Hk. apply in_keys_iff; eauto.
  - intros l i Hl Hi. apply Hk in Hl. apply in_keys_iff in Hl as (s & Hl); auto.
    exists (mk_position i 0 s). split; [|reflexivity]. apply Hin. exists l, s, i. split; auto.
    apply (lookup_in n); auto.
Qed.

(** Partitions. *)
Definition qnext (q : position) : option inode := nextn (production_id q) (pos q).
Definition qcat (q : position) : nat := static_id (qnext q) m.

Lemma nextn_in i p nd : nextn i p = Some nd -> In nd (rnodes i) /\ is_epsilon nd = false.
Proof.
  unfold ClosureProofs.nextn. intros Hf. apply find_some in Hf as (H1 & H2). apply in_skipn in H1.
  apply negb_true_iff in H2. auto.
Qed.

Lemma nextn_range i p nd : nextn i p = Some nd ->
  match nd with Terminal a => label_id a < m | Production l => l < n end.
Proof. intros Hn. apply nextn_in in Hn as (Hn & _). destruct nd; apply (nodes_ok_rnodes i); auto. Qed.

Lemma qcat_bound q : qcat q < n + m + 1.
Proof.
  unfold qcat, qnext. destruct (nextn _ _) as [nd|] eqn:Hn; [|simpl; lia]. apply nextn_range in Hn.
  destruct nd; simpl static_id; unfold static_id; lia.
Qed.

Lemma static_from_qcat q : static_from_id (qcat q) m = qnext q.
Proof.
  unfold qcat, qnext. destruct (nextn _ _) as [nd|] eqn:Hn; [|reflexivity]. apply nextn_range in Hn.
  unfold static_from_id, static_id. destruct nd as [a|l].
  - destruct (Nat.eqb_spec (label_id a + 1) 0); [lia|]. destruct (Nat.leb_spec (label_id a + 1) m); [|lia].
    rewrite Nat.add_sub, aug_from_id_label. reflexivity.
  - destruct (Nat.eqb_spec (m + 1 + l) 0); [lia|]. destruct (Nat.leb_spec (m + 1 + l) m); [lia|].
    do 2 f_equal. lia.
Qed.

Definition part_lookup (ps : list position) (id : nat) : option (list position) :=
  match filter (fun q => qcat q =? id) ps with [] => None | l => Some l end.

Definition is_part (ps : list position) (parts : sparse_map nat (list position)) : Prop :=
  wf_sm (n + m + 1) parts /\ (forall id, lookup parts id = part_lookup ps id) /\
  hd_error (keys parts) = option_map qcat (hd_error ps).

Lemma add_to_partition_ok ps parts q : good_pos q -> is_part ps parts ->
  exists parts', @add_to_partition bm E T L g parts q = Ok parts' /\ is_part (ps ++ [q]) parts'.
Proof.
  intros Hq (Hw & Hl & Hh). unfold add_to_partition. rewrite next_node_ok by auto. simpl.
  fold (qnext q). fold (qcat q).
  destruct (@sm_get_mut_or_insert_ok bm E nat (list position) _ _ (n + m + 1) parts (qcat q) [] Hw (qcat_bound q))
    as (m1 & i & -> & Hw1 & Hi & Hk1 & Hlk1). simpl.
  set (cur := match lookup parts (qcat q) with Some v => v | None => [] end) in *.
  unfold sm_deref. rewrite (index_ok _ _ _ Hi). simpl.
  destruct (@sm_assign_ok E nat (list position) _ (n + m + 1) m1 i (qcat q) cur (cur ++ [q]) Hw1 Hi)
    as (m2 & -> & Hw2 & Hk2 & Hlk2).
  exists m2. split; [reflexivity|]. split; [auto|]. split.
  - intros id. rewrite (Hlk2 id : _ = if qcat q =? id then _ else _). rewrite (Hlk1 id : _ = if qcat q =? id then _ else _).
    unfold part_lookup. rewrite filter_app. simpl. destruct (Nat.eqb_spec (qcat q) id) as [<-|Hne].
    + assert (Hcur : cur = filter (fun q0 => qcat q0 =? qcat q) ps).
      { unfold cur. rewrite Hl. unfold part_lookup. destruct (filter _ ps); reflexivity. }
      rewrite Hcur. destruct (filter _ ps); reflexivity.
    + rewrite app_nil_r. apply Hl.
  - rewrite Hk2, Hk1. destruct ps as [|q0 ps]; simpl in *.
    + destruct (keys parts) as [|k ks] eqn:Hks; [|discriminate]. simpl.
      rewrite Hl. reflexivity.
    + destruct (keys parts); [discriminate|]. simpl in *. auto.
Qed.

Lemma add_positions_ok qs ps parts : Forall good_pos qs -> is_part ps parts ->
  exists parts', foldM (@add_to_partition bm E T L g) parts qs = Ok parts' /\ is_part (ps ++ qs) parts'.
Proof.
  intros Hq. revert ps parts. induction Hq as [|q qs Hq Hqs IH]; intros ps parts Hp.
  - exists parts. rewrite app_nil_r. auto.
  - rewrite foldM_cons. destruct (add_to_partition_ok ps parts q Hq Hp) as (p1 & -> & Hp1). simpl.
    destruct (IH _ _ Hp1) as (p2 & -> & Hp2). exists p2. rewrite <- app_assoc in Hp2. auto.
Qed.

Lemma partition_ok Pn Dv R fuel : (Dv \/ n * m < fuel) ->
  wp Pn Dv (@partition_closure_by_next_node bm E T L g F fuel K)
    (fun parts => exists C, is_closure C /\ is_part (K ++ C) parts) R.
Proof.
  intros Hfuel. unfold partition_closure_by_next_node. apply wp_bind.
  eapply wp_conseq; [apply closure_follow_sets_ok; auto|].
  intros sets Hs. destruct (is_closure_of sets Hs) as (pss & -> & HC). simpl.
  destruct (add_positions_ok (K ++ concat pss) [] (sm_new (n + m + 1))) as (parts & -> & Hp).
  - apply Forall_app. split; [exact HK|]. apply Forall_forall. intros q Hq. apply HC. auto.
  - split; [apply wf_sm_new|]. split; [|reflexivity]. intros id. apply lookup_new.
  - simpl. eauto.
Qed.

(** Set view of the items of a state. *)
Definition icore (i p : nat) : Prop :=
  (exists q, In q K /\ production_id q = i /\ pos q = p) \/
  (p = 0 /\ exists l, rsym i l /\ clabel K l).
Definition ilook (i p : nat) (a : aug nat) : Prop :=
  (exists q, In q K /\ production_id q = i /\ pos q = p /\ vmem (follow_set q) a = true) \/
  (p = 0 /\ exists l, rsym i l /\ cfollow K l a).

Lemma icore_closure C i p : is_closure C ->
  (icore i p <-> exists q, In q (K ++ C) /\ production_id q = i /\ pos q = p).
Proof.
  intros (C1 & C2 & _). split.
  - intros [(q & Hq & H1 & H2)|(-> & l & Hr & Hc)].
    + exists q. rewrite in_app_iff. auto.
    + destruct (C2 l i Hc Hr) as (q & Hq & Hi). exists q. rewrite in_app_iff. split; auto. split; auto.
      apply C1; auto.
  - intros (q & Hq & <- & <-). apply in_app_iff in Hq as [Hq|Hq]; [left; eauto|].
    destruct (C1 q Hq) as (_ & Hp & l & Hr & Hc & _). right. split; eauto.
Qed.

Lemma ilook_closure C i p a : is_closure C ->
  (ilook i p a <-> exists q, In q (K ++ C) /\ production_id q = i /\ pos q = p /\ vmem (follow_set q) a = true).
Proof.
  intros (C1 & C2 & _). split.
  - intros [(q & Hq & H1 & H2 & H3)|(-> & l & Hr & Hc)].
    + exists q. rewrite in_app_iff. auto.
    + destruct (C2 l i (cfollow_clabel _ _ _ Hc) Hr) as (q & Hq & Hi). exists q. rewrite in_app_iff. split; auto. split; auto.
      destruct (C1 q Hq) as (_ & Hp & l' & (r' & Hr' & Hs') & _ & Hf). split; auto. apply Hf.
      destruct Hr as (r & Hr & Hs). rewrite Hi, Hr in Hr'. injection Hr' as <-. congruence.
  - intros (q & Hq & <- & <- & Ha). apply in_app_iff in Hq as [Hq|Hq]; [left; eauto 10|].
    destruct (C1 q Hq) as (_ & Hp & l & Hr & Hc & Hf). right. split; auto. exists l. split; auto. apply Hf; auto.
Qed.

End Closure.
