(** [IndexedGrammar::build]: the grammar it returns and the errors it reports. *)
From Coq Require Import Arith Bool String NArith List Lia Permutation.
From Verif Require Import Base.Prelude Spec.Grammar Spec.Validity Model.Error.
From Verif Require Import Model.BitSet Model.FixedMap Model.Vocabulary Model.IndexedGrammar.
From Verif Require Import Proofs.WP Proofs.BitSetProofs Proofs.FixedMapProofs Proofs.VocabProofs.
From Verif Require Import Proofs.IndexedProofs.
Import ListNotations.

(** Labels reachable in an indexed grammar. *)
Inductive ireach {T L} (g : indexed_grammar T L) : nat -> Prop :=
| ireach_root : ireach g 0
| ireach_use r l : ireach g (isymbol r) -> In r (rules g) -> In (Production l) (irhs r) -> ireach g l.

Section Connected.
Context {bm : BuildMode} {T L : Type} `{EqDec T} `{EqDec L}.
Variable g : indexed_grammar T L.
Hypothesis Hwf : wf_ig g.
Local Notation n := (labels_count g).
Local Notation E := (lr_error T L).

Definition visit_step (st st' : bitset * list nat) : Prop :=
  wf_bs n (fst st') /\
  (forall l, mem (fst st) l = true -> mem (fst st') l = true) /\
  (forall l, In l (snd st) -> In l (snd st')) /\
  (forall l, In l (snd st') -> In l (snd st) \/ mem (fst st') l = true) /\
  (forall l, mem (fst st') l = true -> mem (fst st) l = true \/ (In l (snd st') /\ ireach g l)) /\
  missing n (fst st') + length (snd st') <= missing n (fst st) + length (snd st).

Lemma visit_step_refl st : wf_bs n (fst st) -> visit_step st st.
Proof. intros Hs. unfold visit_step. repeat split; auto; apply Hs. Qed.

Lemma visit_step_trans a b c : visit_step a b -> visit_step b c -> visit_step a c.
Proof.
  intros (A1 & A2 & A3 & A4 & A5 & A6) (B1 & B2 & B3 & B4 & B5 & B6).
  split; [auto|]. split; [auto|]. split; [auto|]. split; [|split; [|lia]].
  - intros l Hl. destruct (B4 l Hl) as [Hb|Hb]; [|auto]. destruct (A4 l Hb); auto.
  - intros l Hl. destruct (B5 l Hl) as [Hb|Hb]; [|auto]. destruct (A5 l Hb) as [Ha|[Ha1 Ha2]]; auto.
Qed.

Lemma visit_nodes_ok ns st : wf_bs n (fst st) ->
  (forall l, In (Production l) ns -> l < n /\ ireach g l) ->
  exists st', foldM (@visit_node bm T L) st ns = Ok st' /\ visit_step st st' /\
    forall l, In (Production l) ns -> mem (fst st') l = true.
Proof.
  revert st. induction ns as [|nd ns IH]; intros [s w] Hs Hn; [|rewrite foldM_cons].
  - eexists. split; [reflexivity|]. split; [apply visit_step_refl; auto|]. simpl; tauto.
  - assert (H1 : exists st1, @visit_node bm T L (s, w) nd = Ok st1 /\ visit_step (s, w) st1 /\
              (forall l, nd = Production l -> mem (fst st1) l = true)).
    { destruct nd as [a|l]; simpl.
      - eexists. split; [reflexivity|]. split; [apply visit_step_refl; auto|]. discriminate.
      - destruct (Hn l) as (Hl & Hr); [simpl; auto|]. simpl in Hs.
        rewrite (bs_has_ok n) by auto. simpl. destruct (mem s l) eqn:Hm; simpl.
        + eexists. split; [reflexivity|]. split; [apply visit_step_refl; auto|].
          simpl. intros l' Hl'. injection Hl' as <-. auto.
        + destruct (@bs_set_ok bm E n s l Hs Hl) as (s' & -> & Hs' & Hmem). simpl.
          eexists. split; [reflexivity|]. split.
          * unfold visit_step. simpl. split; [auto|]. split.
            { intros c Hc. rewrite Hmem, Hc. apply orb_true_r. }
            split; [auto|]. split.
            { intros c [->|Hc]; auto. right. rewrite Hmem, Nat.eqb_refl. auto. }
            split.
            { intros c Hc. rewrite Hmem in Hc. destruct (Nat.eqb_spec l c) as [->|_]; auto. }
            { assert (missing n s' < missing n s); [|lia]. apply missing_strict.
              - intros c Hc. rewrite Hmem, Hc. apply orb_true_r.
              - exists l. rewrite Hmem, Nat.eqb_refl. auto. }
          * simpl. intros l' Hl'. injection Hl' as <-. rewrite Hmem, Nat.eqb_refl. auto. }
    destruct H1 as (st1 & -> & Hst1 & Hm1). simpl.
    destruct (IH st1) as (st2 & -> & Hst2 & Hm2).
    { apply Hst1. } { intros; apply Hn; simpl; auto. }
    eexists. split; [reflexivity|]. split; [eapply visit_step_trans; eauto|].
    intros l [->|Hl]; auto. apply Hst2. auto.
Qed.

Lemma visit_rules_ok rs st : wf_bs n (fst st) ->
  (forall r l, In r rs -> In (Production l) (irhs r) -> l < n /\ ireach g l) ->
  exists st', foldM (fun st r => foldM (@visit_node bm T L) st (irhs r)) st rs = Ok st' /\ visit_step st st' /\
    forall r l, In r rs -> In (Production l) (irhs r) -> mem (fst st') l = true.
Proof.
  revert st. induction rs as [|r rs IH]; intros st Hs Hn; simpl.
  - eexists. split; [reflexivity|]. split; [apply visit_step_refl; auto|]. tauto.
  - destruct (visit_nodes_ok (irhs r) st Hs) as (st1 & -> & Hst1 & Hm1).
    { intros l Hl. eapply Hn; simpl; eauto. }
    simpl. destruct (IH st1) as (st2 & -> & Hst2 & Hm2).
    { apply Hst1. } { intros; eapply Hn; simpl; eauto. }
    eexists. split; [reflexivity|]. split; [eapply visit_step_trans; eauto|].
    intros r' l [->|Hr] Hl; eauto. apply Hst2. auto.
Qed.

Definition visit_inv (st : bitset * list nat) : Prop :=
  wf_bs n (fst st) /\ mem (fst st) 0 = true /\
  (forall l, In l (snd st) -> mem (fst st) l = true) /\
  (forall l, mem (fst st) l = true -> ireach g l) /\
  (forall r l, In r (rules g) -> mem (fst st) (isymbol r) = true -> ~ In (isymbol r) (snd st) ->
     In (Production l) (irhs r) -> mem (fst st) l = true).

Lemma visit_label_ok Pn Dv st R : visit_inv st ->
  wp Pn Dv (@visit_label bm T L g st) (fun r =>
     match r with
     | inl st' => visit_inv st' /\ missing n (fst st') + length (snd st') < missing n (fst st) + length (snd st)
     | inr s => wf_bs n s /\ forall l, mem s l = true <-> ireach g l
     end) R.
Proof.
  destruct st as [s w]. intros (I1 & I2 & I3 & I4 & I5). unfold visit_label.
  destruct w as [|l w]; simpl in *.
  - split; [auto|]. intros l. split; [auto|]. intros Hr. induction Hr; auto. eapply I5; eauto.
  - assert (Hl : mem s l = true) by auto.
    assert (Hln : l < n).
    { destruct (Nat.lt_ge_cases l n); auto. destruct I1 as (_ & _ & _ & Ho). rewrite Ho in Hl; auto. discriminate. }
    rewrite debug_assertM_true by (rewrite (bs_has_ok n) by auto; congruence). simpl.
    destruct (@production_rules_ok (lr_error T L) T L _ g Hwf l Hln) as (ids & rs & _ & -> & _ & _ & _ & Hin & Hall). simpl.
    destruct (visit_rules_ok rs (s, w)) as (st' & -> & Hst & Hm); [auto| |].
    { intros r l' Hr Hl'. destruct (Hin r Hr) as (Hr1 & Hr2). split.
      - eapply wf_prod; eauto.
      - eapply ireach_use with (r := r); auto; rewrite Hr2; auto. }
    simpl. destruct Hst as (S1 & S2 & S3 & S4 & S5 & S6). simpl in *. split; [|lia].
    split; [auto|]. split; [auto|]. split; [|split].
    + intros c Hc. destruct (S4 c Hc); auto.
    + intros c Hc. destruct (S5 c Hc) as [Hx|[_ Hx]]; auto.
    + intros r c Hr Hs Hw Hc. destruct (S5 _ Hs) as [Hx|[Hx _]]; [|tauto].
      destruct (Nat.eq_dec (isymbol r) l) as [He|Hne].
      * apply In_nth_error in Hr as (i & Hr). eapply Hm; eauto.
      * apply S2. eapply I5; eauto. intros [Hc'|Hc']; auto.
Qed.

Lemma verify_connected_ok Dv fuel lm :
  (Dv \/ n < fuel) ->
  (forall p, In p lm -> snd p < n) ->
  (forall l, l < n -> exists u, In (u, l) lm) ->
  wp False Dv (@verify_connected bm T L fuel g lm)
    (fun _ => forall l, l < n -> ireach g l)
    (fun e => exists ls, e = BuildGrammar (NotConnected ls) /\ ls <> [] /\
       forall u, In u ls <-> exists l, In (u, l) lm /\ ~ ireach g l).
Proof.
  intros Hfuel Hlm Hlm2. unfold verify_connected.
  assert (Hn : 0 < n).
  { destruct (wf_root _ Hwf) as (r & m & _ & _ & Hm & _). apply nth_error_Some. unfold labels_count. congruence. }
  destruct (@bs_set_ok bm E n (bs_new n) 0 (wf_new n) Hn) as (s0 & Hs0 & Hw0 & Hm0).
  unfold root_production_label. rewrite Hs0. simpl.
  assert (Hinit : forall c, mem s0 c = true -> c = 0).
  { intros c Hc. rewrite Hm0, mem_new in Hc. destruct (Nat.eqb_spec 0 c); auto. discriminate. }
  apply wp_bind. eapply wp_conseq.
  - apply (wp_while visit_inv (fun st => missing n (fst st) + length (snd st)))
      with (Q := fun s => wf_bs n s /\ forall l, mem s l = true <-> ireach g l).
    + destruct Hfuel; auto. right. simpl.
      assert (missing n s0 < missing n (bs_new n)).
      { apply missing_strict; [intros c; rewrite mem_new; discriminate|].
        exists 0. rewrite mem_new, Hm0. auto. }
      pose proof (missing_bound n (bs_new n)). lia.
    + split; [auto|]. simpl. rewrite Hm0. split; [auto|]. split.
      { intros l [<-|[]]. rewrite Hm0. auto. }
      split.
      { intros l Hl. apply Hinit in Hl. subst. constructor. }
      { intros r l Hr Hs Hw. apply Hinit in Hs. rewrite Hs in Hw. tauto. }
    + intros st Hst. eapply wp_conseq; [apply visit_label_ok; auto|].
      intros [st'|s]; auto. intros [Hi Hlt]. auto.
  - intros s (Hs & Hreach).
    destruct (@bs_full_ok E n s Hs) as (b & -> & Hb). simpl.
    destruct b; simpl.
    + intros l Hl. apply Hreach. apply Hb; auto.
    + assert (Hfold : @foldM E _ _ (fun acc p => has <- bs_has s (snd p) ;;
                 Ok (if has then acc else acc ++ [fst p])) [] lm =
               Ok (fold_left (fun (acc : list L) p => if mem s (snd p) then acc else acc ++ [fst p]) lm [])).
      { apply foldM_ok. intros acc p Hp. rewrite (bs_has_ok n) by auto. reflexivity. }
      rewrite Hfold. simpl. clear Hfold.
      assert (Hin : forall u acc, In u (fold_left (fun (acc : list L) p => if mem s (snd p) then acc else acc ++ [fst p]) lm acc)
                <-> In u acc \/ exists l, In (u, l) lm /\ ~ ireach g l).
      { clear Hlm Hlm2. induction lm as [|[v k] lm IH]; intros u acc; simpl.
        - split; auto. intros [?|(l & [] & _)]; auto.
        - rewrite IH. destruct (mem s k) eqn:Hk.
          + apply Hreach in Hk. split.
            * intros [?|(l & ? & ?)]; eauto.
            * intros [?|(l & [He|?] & ?)]; eauto. injection He as -> ->. tauto.
          + assert (Hk' : ~ ireach g k) by (rewrite <- Hreach; congruence).
            rewrite in_app_iff. simpl. split.
            * intros [[?|[<-|[]]]|(l & ? & ?)]; eauto.
            * intros [?|(l & [He|?] & ?)]; eauto. injection He as -> ->. auto. }
      eexists. split; [reflexivity|]. split; [|intros u; rewrite Hin; simpl; intuition].
      assert (exists c, c < n /\ mem s c = false) as (c & Hc & Hcm).
      { assert (Hf : ~ (forall c, c < n -> mem s c = true)) by (intros Hx; apply Hb in Hx; discriminate).
        clear -Hf. assert (Hd : (forall c, c < n -> mem s c = true) \/ exists c, c < n /\ mem s c = false).
        { clear Hf. induction n as [|m IH]; [left; intros; lia|]. destruct IH as [IH|(c & ? & ?)].
          - destruct (mem s m) eqn:Hm; [|right; eauto]. left. intros c Hc.
            destruct (Nat.eq_dec c m); [congruence|]. apply IH; lia.
          - right. exists c. auto. }
        tauto. }
      destruct (Hlm2 c Hc) as (u & Hu). intros Hnil.
      assert (Hx : In u []); [|destruct Hx]. rewrite <- Hnil. apply Hin. right. exists c. split; auto.
      rewrite <- Hreach. congruence.
Qed.

End Connected.

(** Correspondence between a grammar and its indexed form. *)
Definition ilabel {T L} (ig : indexed_grammar T L) (k : nat) (l : L) : Prop :=
  exists m, nth_error (rule_metadata ig) k = Some m /\ original_label m = l.

Definition inode_rel {T L} `{EqDec T} (ig : indexed_grammar T L) (nd : node T L) (nd' : inode) : Prop :=
  match nd, nd' with
  | Terminal a, Terminal i => aug_rel (ivocab ig) a i
  | Production l, Production k => ilabel ig k l
  | _, _ => False
  end.

Definition irule_rel {T L} `{EqDec T} (ig : indexed_grammar T L) (p : rule T L * nat) (r : indexed_rule) : Prop :=
  ilabel ig (isymbol r) (symbol (fst p)) /\ original_index r = snd p /\
  Forall2 (inode_rel ig) (rhs (fst p)) (irhs r).

Record indexes {T L} `{EqDec T} (g : grammar T L) (ig : indexed_grammar T L) : Prop := mk_indexes {
  ix_wf : wf_ig ig;
  ix_ps : exists ps, Permutation ps (combine g (seq 0 (length g))) /\ Forall2 (irule_rel ig) ps (rules ig);
  ix_root : forall r, nth_error (rules ig) 0 = Some r -> original_index r = 0;
  ix_order : forall i j ri rj, nth_error (rules ig) i = Some ri -> nth_error (rules ig) j = Some rj ->
    i < j -> isymbol ri = isymbol rj -> original_index ri < original_index rj;
}.

Lemma in_combine_seq {A} (l : list A) n a i :
  In (a, i) (combine l (seq n (length l))) <-> n <= i /\ nth_error l (i - n) = Some a.
Proof.
  revert n. induction l as [|x l IH]; intros n; simpl.
  - split; [tauto|]. intros [_ Hx]. destruct (i - n); discriminate.
  - rewrite IH. split.
    + intros [He|[H1 H2]].
      * injection He as -> ->. rewrite Nat.sub_diag. auto.
      * replace (i - n) with (S (i - S n)) by lia. split; [lia|auto].
    + intros [H1 H2]. destruct (i - n) as [|k] eqn:Hk; simpl in H2.
      * left. f_equal; [congruence|lia].
      * right. replace (i - S n) with k by lia. split; [lia|auto].
Qed.

Section Main.
Context {bm : BuildMode} {T L : Type} `{EqDec T} `{EqDec L}.

Lemma filter_partition_perm {A} (f : A -> bool) l :
  Permutation l (filter f l ++ filter (fun x => negb (f x)) l).
Proof.
  induction l as [|x l IH]; simpl; [constructor|]. destruct (f x); simpl.
  - constructor. auto.
  - apply Permutation_cons_app. auto.
Qed.

Lemma filter_comm_ne (l l' : L) (ps : list (rule T L * nat)) : l <> l' ->
  filter (sym_is l') (filter (fun p => negb (sym_is l p)) ps) = filter (sym_is l') ps.
Proof.
  intros Hne. induction ps as [|p ps IH]; simpl; auto.
  destruct (sym_is l p) eqn:H1; simpl.
  - destruct (sym_is l' p) eqn:H2; auto. unfold sym_is in *. apply eqb_eq in H1, H2. congruence.
  - destruct (sym_is l' p); simpl; congruence.
Qed.

Lemma groups_perm labels (ps : list (rule T L * nat)) :
  NoDup labels -> (forall p, In p ps -> In (symbol (fst p)) labels) ->
  Permutation (concat (map (fun l => filter (sym_is l) ps) labels)) ps.
Proof.
  revert ps. induction labels as [|l labels IH]; intros ps Hn Hin; simpl.
  - destruct ps as [|p ps]; [constructor|]. destruct (Hin p); simpl; auto.
  - inversion Hn as [|? ? Hx Hl]; subst.
    rewrite (filter_partition_perm (sym_is l) ps) at 2. apply Permutation_app_head.
    rewrite <- (IH (filter (fun p => negb (sym_is l p)) ps)).
    + assert (Heq : map (fun l0 => filter (sym_is l0) ps) labels =
                    map (fun l0 => filter (sym_is l0) (filter (fun p => negb (sym_is l p)) ps)) labels); [|rewrite Heq; reflexivity].
      apply map_ext_in. intros l' Hl'. symmetry. apply filter_comm_ne. intros ->. tauto.
    + auto.
    + intros p Hp. apply filter_In in Hp as [Hp Hs]. destruct (Hin p Hp) as [He|]; auto.
      unfold sym_is in Hs. rewrite He, eqb_refl in Hs. discriminate.
Qed.

Lemma groups_concat (gs : list (label_group T L)) done :
  (forall k l rs, nth_error gs k = Some (l, rs) -> rs = filter (sym_is l) done) ->
  map snd gs = map (fun l => filter (sym_is l) done) (map fst gs).
Proof.
  intros Hg. rewrite map_map. apply map_ext_in. intros [l rs] Hin. simpl.
  apply In_nth_error in Hin as (k & Hk). eauto.
Qed.

(** Flattening the groups. *)
Lemma nth_error_enumerate {A} (l : list A) k x :
  nth_error (enumerate l) k = Some x <-> fst x = k /\ nth_error l k = Some (snd x).
Proof.
  unfold enumerate.
  assert (G : forall n, nth_error (combine (seq n (length l)) l) k = Some x <-> fst x = n + k /\ nth_error l k = Some (snd x)).
  { revert k. induction l as [|a l IH]; intros k n; simpl.
    - destruct k; simpl; split; try discriminate; intros [_ Hx]; discriminate.
    - destruct k as [|k]; simpl.
      + rewrite Nat.add_0_r. destruct x as [i b]. simpl. split; [intros He; injection He as <- <-; auto|].
        intros [-> Hey]. injection Hey as ->. reflexivity.
      + rewrite IH. rewrite Nat.add_succ_r. reflexivity. }
  apply (G 0).
Qed.

Lemma Forall2_nth {A B} (P : A -> B -> Prop) l l' : Forall2 P l l' ->
  forall k, match nth_error l k, nth_error l' k with
            | Some a, Some b => P a b
            | None, None => True
            | _, _ => False
            end.
Proof. induction 1; intros [|k]; simpl; auto. apply IHForall2. Qed.

Lemma Forall2_concat {A B} (P : A -> B -> Prop) ls ls' :
  Forall2 (Forall2 P) ls ls' -> Forall2 P (concat ls) (concat ls').
Proof. induction 1; simpl; [constructor|]. apply Forall2_app; auto. Qed.

Lemma Forall2_of_nth {A B} (P : A -> B -> Prop) l l' :
  length l = length l' ->
  (forall k a b, nth_error l k = Some a -> nth_error l' k = Some b -> P a b) -> Forall2 P l l'.
Proof.
  revert l'. induction l as [|a l IH]; intros [|b l'] Hlen Hp; try discriminate; constructor.
  - apply (Hp 0); reflexivity.
  - apply IH; [simpl in Hlen; lia|]. intros k x y Hx Hy. apply (Hp (S k)); auto.
Qed.

Lemma Forall2_in_r {A B} (P : A -> B -> Prop) l l' b : Forall2 P l l' -> In b l' -> exists a, In a l /\ P a b.
Proof. induction 1; simpl; [tauto|]. intros [->|Hb]; [eauto|]. destruct (IHForall2 Hb) as (a & ? & ?). eauto. Qed.

Lemma Forall2_in_l {A B} (P : A -> B -> Prop) l l' a : Forall2 P l l' -> In a l -> exists b, In b l' /\ P a b.
Proof. induction 1; simpl; [tauto|]. intros [->|Hb]; [eauto|]. destruct (IHForall2 Hb) as (b & ? & ?). eauto. Qed.

Lemma scan_metadata_length tot (gs : list (label_group T L)) : length (scan_metadata tot gs) = length gs.
Proof. revert tot. induction gs as [|[l rs] gs IH]; simpl; intros; auto. Qed.

Lemma sorted_filter_combine (f : rule T L * nat -> bool) (g : list (rule T L)) n a b x y ps :
  filter f (combine g (seq n (length g))) = ps ->
  nth_error ps a = Some x -> nth_error ps b = Some y -> a < b -> snd x < snd y.
Proof.
  intros <-. revert n a b. induction g as [|r g IH]; intros n a b; simpl.
  - destruct a; discriminate.
  - destruct (f (r, n)); [|apply IH].
    destruct a as [|a], b as [|b]; simpl; intros Hx Hy Hlt; try lia.
    + injection Hx as <-. apply nth_error_In in Hy. apply filter_In in Hy as [Hy _].
      destruct y as [r' i]. apply in_combine_seq in Hy. simpl. lia.
    + eapply IH; eauto. lia.
Qed.

Lemma build_groups_ok (root : rule T L) rest lm gs (v : vocab T) rss :
  let done := (root, 0) :: combine rest (seq 1 (length rest)) in
  group_inv done (lm, gs) ->
  nth_error gs 0 = Some (symbol root, [(root, 0)]) ->
  Forall (root_clean (symbol root)) rest ->
  wf_vocab v ->
  Forall2 (group_rel lm v) (enumerate gs) rss ->
  indexes (root :: rest) (mk_indexed (concat rss) (scan_metadata 0 gs) v) /\
  (forall p, In p lm -> snd p < length gs) /\
  (forall u k, In (u, k) lm <-> ilabel (mk_indexed (concat rss) (scan_metadata 0 gs) v) k u).
Proof.
  intros done (Hn & Hlm & Hg & Hd & Hl) Hroot Hclean Hv Hf.
  set (ig := mk_indexed (concat rss) (scan_metadata 0 gs) v).
  assert (Hget : forall u k, hm_get u lm = Some k <-> nth_error (map fst gs) k = Some u).
  { intros u k. rewrite Hlm. apply hm_get_numbered0; auto. }
  assert (Hilab : forall u k, ilabel ig k u <-> nth_error (map fst gs) k = Some u).
  { intros u k. unfold ilabel, ig. simpl. rewrite <- (scan_metadata_labels 0 gs), nth_error_map.
    destruct (nth_error (scan_metadata 0 gs) k) as [m|]; simpl; split.
    - intros (m' & Hm & <-). congruence.
    - intros He. exists m. split; congruence.
    - intros (m' & Hm & _). discriminate.
    - discriminate. }
  assert (Hlen : length rss = length gs).
  { apply Forall2_len in Hf. unfold enumerate in Hf. rewrite combine_length, seq_length in Hf. lia. }
  assert (Hgrp : forall k l ps rs, nth_error gs k = Some (l, ps) -> nth_error rss k = Some rs ->
            Forall2 (rule_rel lm k v) ps rs).
  { intros k l ps rs Hk Hr. pose proof (Forall2_nth _ _ _ Hf k) as Hx. rewrite Hr in Hx.
    destruct (nth_error (enumerate gs) k) as [x|] eqn:Hex; [|tauto].
    apply nth_error_enumerate in Hex as [H1 H2]. rewrite Hk in H2. injection H2 as H2.
    unfold group_rel in Hx. rewrite H1, <- H2 in Hx. auto. }
  assert (Hflen : Forall2 (fun g rs => length (snd g) = length rs) gs rss).
  { apply Forall2_of_nth; auto. intros k [l ps] rs Hk Hr. eapply Forall2_len. eapply Hgrp; eauto. }
  assert (Hsymk : forall k rs r, nth_error rss k = Some rs -> In r rs -> isymbol r = k /\ k < length gs).
  { intros k rs r Hr Hin. assert (Hk : k < length gs) by (rewrite <- Hlen; apply nth_error_Some; congruence).
    split; auto. apply nth_error_Some in Hk. destruct (nth_error gs k) as [[l ps]|] eqn:Hgk; [|congruence].
    destruct (Forall2_in_r _ _ _ r (Hgrp _ _ _ _ Hgk Hr) Hin) as (p & _ & Hp). apply Hp. }
  assert (Hmeta := scan_metadata_spec gs rss 0 0 Hflen).
  assert (Hps : Forall2 (irule_rel ig) (concat (map snd gs)) (concat rss)).
  { apply Forall2_concat. apply Forall2_of_nth; [rewrite map_length; auto|].
    intros k ps rs Hk Hr. rewrite nth_error_map in Hk. destruct (nth_error gs k) as [[l ps']|] eqn:Hgk; [|discriminate].
    simpl in Hk. injection Hk as ->. eapply Forall2_impl_in; [|eapply Hgrp; eauto].
    intros p r Hp Hr' (R1 & R2 & R3). split; [|split].
    - rewrite R1. apply Hilab. rewrite nth_error_map, Hgk. simpl.
      rewrite (Hg _ _ _ Hgk) in Hp. apply filter_In in Hp as [_ Hp]. unfold sym_is in Hp. apply eqb_eq in Hp. congruence.
    - auto.
    - eapply Forall2_impl; [|exact R3]. intros [a|u] [i|k']; simpl; auto.
      intros Hx. apply Hilab. apply Hget. auto. }
  assert (Hperm : Permutation (concat (map snd gs)) done).
  { rewrite (groups_concat gs done) by auto. apply groups_perm; auto. }
  assert (Hdone : done = combine (root :: rest) (seq 0 (length (root :: rest)))) by reflexivity.
  assert (Hgs0 : exists gs', gs = (symbol root, [(root, 0)]) :: gs').
  { destruct gs as [|x gs']; [discriminate|]. simpl in Hroot. injection Hroot as ->. eauto. }
  assert (Hwf : wf_ig ig).
  { constructor.
    - simpl. exact Hv.
    - intros l m Hm. simpl in Hm. destruct (Hmeta (fun j rs Hj => proj2 (Forall_forall _ _) (fun r Hr => proj1 (Hsymk j rs r Hj Hr))) l m Hm) as (M1 & M2 & M3 & M4).
      simpl. split; [|split; [lia|]].
      + assert (Hll : l < length gs) by (rewrite <- (scan_metadata_length 0 gs); apply nth_error_Some; congruence).
        apply nth_error_Some in Hll as Hll'. destruct (nth_error gs l) as [[u ps]|] eqn:Hgl; [|congruence].
        rewrite <- Hlen in Hll. apply nth_error_Some in Hll. destruct (nth_error rss l) as [rs|] eqn:Hrl; [|congruence].
        rewrite (nth_error_nth _ _ [] Hrl) in M2.
        pose proof (Forall2_len _ _ _ (Hgrp _ _ _ _ Hgl Hrl)) as Hlr.
        destruct (Hl u) as (p & Hp & Hpu). { apply nth_error_In in Hgl. apply (in_map fst) in Hgl. auto. }
        assert (Hpin : In p ps).
        { rewrite (Hg _ _ _ Hgl). apply filter_In. split; auto. unfold sym_is. rewrite Hpu. apply eqb_refl. }
        destruct ps as [|p' ps]; [destruct Hpin|]. simpl in Hlr. lia.
      + intros i r Hr. apply (M4 i r Hr).
    - intros r Hr. simpl in Hr. apply in_concat in Hr as (rs & Hrs & Hr). apply In_nth_error in Hrs as (k & Hk).
      destruct (Hsymk _ _ _ Hk Hr) as (-> & Hlt). unfold labels_count. simpl. rewrite scan_metadata_length. auto.
    - intros r a Hr Ha. destruct (Forall2_in_r _ _ _ r Hps Hr) as (p & _ & _ & _ & Hns).
      destruct (Forall2_in_r _ _ _ _ Hns Ha) as ([b|u] & _ & Hx); [|destruct Hx].
      eapply aug_rel_bound; eauto.
    - intros r l Hr Ha. destruct (Forall2_in_r _ _ _ r Hps Hr) as (p & _ & _ & _ & Hns).
      destruct (Forall2_in_r _ _ _ _ Hns Ha) as ([b|u] & _ & Hx); [destruct Hx|].
      destruct Hx as (m & Hm & _). apply nth_error_Some. simpl in *. congruence.
    - destruct Hgs0 as (gs' & ->). destruct rss as [|rs0 rss]; [discriminate|].
      pose proof (Hgrp 0 _ _ _ eq_refl eq_refl) as Hg0. inversion Hg0 as [|? r0 ? ? Hr0 Hnil]; subst.
      inversion Hnil; subst. exists r0. eexists. simpl. split; [reflexivity|]. split; [apply Hr0|].
      split; [reflexivity|]. auto.
    - intros i r Hr Hi Hin.
      destruct Hgs0 as (gs' & ->). destruct rss as [|rs0 rss]; [discriminate|].
      pose proof (Hgrp 0 _ _ _ eq_refl eq_refl) as Hg0. inversion Hg0 as [|? r0 ? ? Hr0 Hnil]; subst.
      inversion Hnil; subst. simpl in Hps, Hperm, Hr. destruct i as [|i]; [lia|]. simpl in Hr.
      inversion Hps as [|? ? ? ? _ Hps']; subst. apply Permutation_cons_inv in Hperm.
      apply nth_error_In in Hr. destruct (Forall2_in_r _ _ _ r Hps' Hr) as ([pr pi] & Hp & _ & _ & Hns).
      destruct (Forall2_in_r _ _ _ _ Hns Hin) as ([b|u] & Hu & Hx); [destruct Hx|].
      apply Hilab in Hx. simpl in Hx. injection Hx as <-.
      apply (Permutation_in _ Hperm) in Hp. apply in_combine_l in Hp.
      rewrite Forall_forall in Hclean. destruct (Hclean _ Hp) as (_ & Hc). apply Hc. exact Hu.
    - simpl. rewrite scan_metadata_labels. auto. }
  split; [|split].
  - constructor; auto.
    + exists (concat (map snd gs)). rewrite <- Hdone. auto.
    + intros r Hr. destruct Hgs0 as (gs' & ->). destruct rss as [|rs0 rss]; [discriminate|].
      pose proof (Hgrp 0 _ _ _ eq_refl eq_refl) as Hg0. inversion Hg0 as [|? r0 ? ? Hr0 Hnil]; subst.
      inversion Hnil; subst. simpl in Hr. injection Hr as <-. apply Hr0.
    + intros i j ri rj Hi Hj Hij Hs. simpl in Hi, Hj.
      assert (Hsl : isymbol ri < labels_count ig). { apply (wf_sym _ Hwf). simpl. eapply nth_error_In; eauto. }
      set (k := isymbol ri) in *. unfold labels_count in Hsl. simpl in Hsl.
      apply nth_error_Some in Hsl. destruct (nth_error (scan_metadata 0 gs) k) as [m|] eqn:Hm; [|congruence].
      (* the rules of group k are consecutive *)
      assert (Hcons : exists ps rs, (exists u, nth_error gs k = Some (u, ps)) /\ nth_error rss k = Some rs /\
          start_index m <= i /\ start_index m <= j /\
          nth_error rs (i - start_index m) = Some ri /\ nth_error rs (j - start_index m) = Some rj).
      { assert (Hgen : forall (gs : list (label_group T L)) rss k0 tot k m,
          Forall2 (fun g rs => length (snd g) = length rs) gs rss ->
          (forall j rs, nth_error rss j = Some rs -> Forall (fun r => isymbol r = k0 + j) rs) ->
          nth_error (scan_metadata tot gs) k = Some m ->
          exists ps rs, (exists u, nth_error gs k = Some (u, ps)) /\ nth_error rss k = Some rs /\ tot <= start_index m /\
            forall i r, nth_error (concat rss) i = Some r -> isymbol r = k0 + k ->
              start_index m <= tot + i /\ nth_error rs (tot + i - start_index m) = Some r).
        { clear. intros gs rss k0 tot k m Hf. revert k0 tot k. induction Hf as [|[u ps] rs gs rss Hlen Hf IH]; intros k0 tot k Hsym Hk.
          - destruct k; discriminate.
          - assert (Hhd : Forall (fun r => isymbol r = k0) rs).
            { specialize (Hsym 0 rs eq_refl). rewrite Nat.add_0_r in Hsym. auto. }
            assert (Htl : forall j rs', nth_error rss j = Some rs' -> Forall (fun r => isymbol r = S k0 + j) rs').
            { intros j' rs' Hj'. specialize (Hsym (S j') rs' Hj'). replace (S k0 + j') with (k0 + S j') by lia. auto. }
            destruct k as [|k]; simpl in Hk.
            + injection Hk as <-. exists ps, rs. simpl. split; [eauto|]. split; [auto|]. split; [lia|].
              intros i r Hi Hs. split; [lia|]. replace (tot + i - tot) with i by lia.
              destruct (Nat.lt_ge_cases i (length rs)) as [Hlt|Hge].
              * rewrite nth_error_app1 in Hi; auto.
              * rewrite nth_error_app2 in Hi by auto. apply nth_error_In in Hi. apply in_concat in Hi as (x & Hx & Hr).
                apply In_nth_error in Hx as (j & Hx). specialize (Htl _ _ Hx). rewrite Forall_forall in Htl. apply Htl in Hr. lia.
            + destruct (IH (S k0) (tot + length ps) k Htl Hk) as (ps' & rs' & I1 & I2 & I3 & I4).
              exists ps', rs'. simpl. split; [auto|]. split; [auto|]. simpl in Hlen. split; [lia|].
              intros i r Hi Hs. destruct (Nat.lt_ge_cases i (length rs)) as [Hlt|Hge].
              * rewrite nth_error_app1 in Hi by auto. apply nth_error_In in Hi. rewrite Forall_forall in Hhd. apply Hhd in Hi. lia.
              * rewrite nth_error_app2 in Hi by auto. destruct (I4 _ _ Hi) as (J1 & J2); [lia|].
                split; [lia|]. rewrite <- J2. f_equal. lia. }
        destruct (Hgen gs rss 0 0 k m Hflen (fun j rs Hj => proj2 (Forall_forall _ _) (fun r Hr => proj1 (Hsymk j rs r Hj Hr))) Hm)
          as (ps & rs & G1 & G2 & _ & G4).
        exists ps, rs. destruct (G4 i ri Hi eq_refl). destruct (G4 j rj Hj (eq_sym Hs)). auto 10. }
      destruct Hcons as (ps & rs & (u & Hgk) & Hrk & C1 & C2 & C3 & C4).
      pose proof (Hgrp _ _ _ _ Hgk Hrk) as Hrel.
      pose proof (Forall2_nth _ _ _ Hrel (i - start_index m)) as Ri. rewrite C3 in Ri.
      pose proof (Forall2_nth _ _ _ Hrel (j - start_index m)) as Rj. rewrite C4 in Rj.
      destruct (nth_error ps (i - start_index m)) as [pi|] eqn:Hpi; [|tauto].
      destruct (nth_error ps (j - start_index m)) as [pj|] eqn:Hpj; [|tauto].
      destruct Ri as (_ & -> & _), Rj as (_ & -> & _).
      apply (sorted_filter_combine (sym_is u) (root :: rest) 0 (i - start_index m) (j - start_index m) pi pj ps); auto; [|lia].
      rewrite <- Hdone. symmetry. eauto.
  - intros [u k] Hin. simpl. rewrite Hlm in Hin. apply in_combine_r, in_seq in Hin. rewrite map_length in Hin. lia.
  - intros u k. rewrite Hilab, Hlm, in_combine_seq, Nat.sub_0_r. intuition lia.
Qed.

End Main.
