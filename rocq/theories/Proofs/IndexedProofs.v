(** Indexing a grammar: well-formedness of the result, correspondence with the
    original grammar, and the exact error conditions. *)
From Coq Require Import Arith Bool String NArith List Lia Permutation.
From Verif Require Import Base.Prelude Spec.Grammar Spec.Validity Model.Error.
From Verif Require Import Model.BitSet Model.FixedMap Model.Vocabulary Model.IndexedGrammar.
From Verif Require Import Proofs.WP Proofs.BitSetProofs Proofs.FixedMapProofs Proofs.VocabProofs.
Import ListNotations.

(** Counting missing elements of a bit set. *)
Definition missing (n : nat) (s : bitset) : nat :=
  length (filter (fun b => negb (mem s b)) (seq 0 n)).

Lemma filter_length_mono {A} (f h : A -> bool) l :
  (forall x, In x l -> f x = true -> h x = true) -> length (filter f l) <= length (filter h l).
Proof.
  induction l as [|x l IH]; simpl; intros Hi; auto.
  assert (length (filter f l) <= length (filter h l)) by (apply IH; auto).
  destruct (f x) eqn:Hf; [rewrite Hi by auto; simpl; lia|]. destruct (h x); simpl; lia.
Qed.

Lemma filter_length_strict {A} (f h : A -> bool) l :
  (forall x, In x l -> f x = true -> h x = true) ->
  (exists x, In x l /\ f x = false /\ h x = true) ->
  length (filter f l) < length (filter h l).
Proof.
  induction l as [|x l IH]; simpl; intros Hi (y & Hy & Hfy & Hhy); [tauto|].
  destruct Hy as [->|Hy].
  - rewrite Hfy, Hhy. simpl. apply le_n_S. apply filter_length_mono. auto.
  - assert (length (filter f l) < length (filter h l)) by (apply IH; eauto).
    destruct (f x) eqn:Hf; [rewrite Hi by auto; simpl; lia|]. destruct (h x); simpl; lia.
Qed.

Lemma missing_mono n s s' : (forall c, mem s c = true -> mem s' c = true) -> missing n s' <= missing n s.
Proof.
  intros H. apply filter_length_mono. intros x _ Hx. apply negb_true_iff in Hx. apply negb_true_iff.
  destruct (mem s x) eqn:Hm; auto. rewrite H in Hx; auto.
Qed.

Lemma missing_strict n s s' : (forall c, mem s c = true -> mem s' c = true) ->
  (exists c, c < n /\ mem s c = false /\ mem s' c = true) -> missing n s' < missing n s.
Proof.
  intros H (c & Hc & H1 & H2). apply filter_length_strict.
  - intros x _ Hx. apply negb_true_iff in Hx. apply negb_true_iff.
    destruct (mem s x) eqn:Hm; auto. rewrite H in Hx; auto.
  - exists c. rewrite H1, H2. split; [apply in_seq; lia|auto].
Qed.

Lemma missing_bound n s : missing n s <= n.
Proof.
  unfold missing. rewrite <- (seq_length n 0) at 2. generalize (seq 0 n). intros l.
  induction l; simpl; auto. destruct (negb _); simpl; lia.
Qed.

Lemma wp_map_accumM {Pn Dv E S A B} (I : S -> Prop) (ext : S -> S -> Prop) (P : S -> A -> B -> Prop)
    (f : S -> A -> outcome E (S * B)) l s (R : E -> Prop) :
  (forall s, ext s s) -> (forall a b c, ext a b -> ext b c -> ext a c) ->
  (forall s s' a b, ext s s' -> P s a b -> P s' a b) ->
  I s ->
  (forall s a, In a l -> I s ->
     wp Pn Dv (f s a) (fun '(s', b) => I s' /\ ext s s' /\ P s' a b) R) ->
  wp Pn Dv (map_accumM f s l) (fun '(s', bs) => I s' /\ ext s s' /\ Forall2 (P s') l bs) R.
Proof.
  intros Hr Ht Hs. revert s. induction l as [|a l IH]; simpl; intros s Hi Hf.
  - split; auto.
  - apply wp_bind. eapply wp_conseq; [apply Hf; auto|]. intros [s1 b] (Hi1 & He1 & Hp1).
    apply wp_bind. eapply wp_conseq; [apply IH; auto|]. intros [s2 bs] (Hi2 & He2 & Hp2).
    split; [auto|]. split; [eapply Ht; eauto|]. constructor; auto. eapply Hs; eauto.
Qed.

(** Well-formed indexed grammars. *)
Record wf_ig {T L} `{EqDec T} (g : indexed_grammar T L) : Prop := mk_wf_ig {
  wf_voc : wf_vocab (ivocab g);
  wf_meta : forall l m, nth_error (rule_metadata g) l = Some m ->
    start_index m < end_index m /\ end_index m <= length (rules g) /\
    forall i r, nth_error (rules g) i = Some r ->
      (isymbol r = l <-> start_index m <= i < end_index m);
  wf_sym : forall r, In r (rules g) -> isymbol r < labels_count g;
  wf_term : forall r a, In r (rules g) -> In (Terminal a) (irhs r) -> label_id a < vocab_size (ivocab g);
  wf_prod : forall r l, In r (rules g) -> In (Production l) (irhs r) -> l < labels_count g;
  wf_root : exists r m, nth_error (rules g) 0 = Some r /\ isymbol r = 0 /\
    nth_error (rule_metadata g) 0 = Some m /\ start_index m = 0 /\ end_index m = 1;
  wf_rootref : forall i r, nth_error (rules g) i = Some r -> i <> 0 -> ~ In (Production 0) (irhs r);
  wf_labels : NoDup (map original_label (rule_metadata g));
}.

Section RuleIds.
Context {E T L : Type} `{EqDec T}.
Variable g : indexed_grammar T L.
Hypothesis Hwf : wf_ig g.

Lemma production_rule_ids_ok l : l < labels_count g ->
  exists ids, @production_rule_ids_for_label E T L g l = Ok ids /\ NoDup ids /\ ids <> [] /\
    forall i, In i ids <-> exists r, nth_error (rules g) i = Some r /\ isymbol r = l.
Proof.
  intros Hl. unfold labels_count in Hl. apply nth_error_Some in Hl.
  destruct (nth_error (rule_metadata g) l) as [m|] eqn:Hm; [|congruence].
  destruct (wf_meta _ Hwf _ _ Hm) as (H1 & H2 & H3).
  unfold production_rule_ids_for_label. rewrite (index_ok _ _ _ Hm). simpl.
  eexists. split; [reflexivity|]. split; [apply seq_NoDup|]. split.
  { intros Hc. apply (f_equal (@length nat)) in Hc. rewrite seq_length in Hc. simpl in Hc. lia. }
  intros i. rewrite in_seq. split.
  - intros Hi. assert (Hlt : i < length (rules g)) by lia. apply nth_error_Some in Hlt.
    destruct (nth_error (rules g) i) as [r|] eqn:Hr; [|congruence]. exists r. split; auto. apply (H3 _ _ Hr). lia.
  - intros (r & Hr & Hs). apply (H3 _ _ Hr) in Hs. lia.
Qed.

Lemma production_rules_ok l : l < labels_count g ->
  exists ids rs, @production_rule_ids_for_label E T L g l = Ok ids /\
    @production_rules_for_label E T L g l = Ok rs /\
    Forall2 (fun i r => nth_error (rules g) i = Some r) ids rs /\
    NoDup ids /\ (forall i, In i ids <-> exists r, nth_error (rules g) i = Some r /\ isymbol r = l) /\
    (forall r, In r rs -> In r (rules g) /\ isymbol r = l) /\
    (forall i r, nth_error (rules g) i = Some r -> isymbol r = l -> In r rs).
Proof.
  intros Hl. destruct (production_rule_ids_ok l Hl) as (ids & Hids & Hn & _ & Hspec).
  unfold production_rules_for_label. rewrite Hids. simpl.
  assert (Hm : exists rs, @mapM E _ _ (production_rule g) ids = Ok rs /\
      Forall2 (fun i r => nth_error (rules g) i = Some r) ids rs).
  { clear Hn Hids. assert (Hs : forall i, In i ids -> exists r, nth_error (rules g) i = Some r).
    { intros i Hi. apply Hspec in Hi as (r & Hr & _). eauto. } clear Hspec.
    induction ids as [|i ids IH]; simpl.
    - eexists; split; [reflexivity|constructor].
    - destruct (Hs i) as (r & Hr); [simpl; auto|].
      unfold production_rule at 1. rewrite (index_ok _ _ _ Hr). simpl.
      destruct IH as (rs & -> & Hf); [intros; apply Hs; simpl; auto|]. simpl.
      eexists; split; [reflexivity|]. constructor; auto. }
  destruct Hm as (rs & -> & Hf). exists ids, rs.
  split; [auto|]. split; [auto|]. split; [auto|]. split; [auto|]. split; [auto|]. split.
  - intros r Hr. assert (exists i, In i ids /\ nth_error (rules g) i = Some r) as (i & Hi & Hr').
    { clear -Hf Hr. induction Hf; simpl in *; [tauto|]. destruct Hr as [->|Hr]; [eauto|].
      destruct (IHHf Hr) as (i & ? & ?). eauto. }
    apply Hspec in Hi as (r2 & Hr2 & Hs2). rewrite Hr' in Hr2. injection Hr2 as <-.
    split; auto. eapply nth_error_In; eauto.
  - intros i r Hr Hs. assert (Hi : In i ids) by (apply Hspec; eauto).
    clear -Hf Hi Hr. induction Hf; simpl in *; [tauto|]. destruct Hi as [->|Hi]; [left; congruence|auto].
Qed.

End RuleIds.

Section Build.
Context {bm : BuildMode} {T L : Type} `{EqDec T} `{EqDec L}.

Definition sym_is (l : L) (p : rule T L * nat) : bool := eqb (symbol (fst p)) l.

(** Invariant of the grouping loop after the pairs [done]. *)
Definition group_inv (done : list (rule T L * nat)) (st : hash_map L nat * list (label_group T L)) : Prop :=
  let '(lm, gs) := st in
  let labels := map fst gs in
  NoDup labels /\
  lm = combine labels (seq 0 (length labels)) /\
  (forall k l rs, nth_error gs k = Some (l, rs) -> rs = filter (sym_is l) done) /\
  (forall p, In p done -> In (symbol (fst p)) labels) /\
  (forall l, In l labels -> exists p, In p done /\ symbol (fst p) = l).

Lemma references_iff root (r : rule T L) : references root r = true <-> uses r root.
Proof.
  unfold references, uses. rewrite existsb_exists. split.
  - intros (n & Hn & Hx). destruct n as [a|l]; [discriminate|]. apply eqb_eq in Hx.
    subst. auto.
  - intros Hi. eexists. split; [exact Hi|]. simpl. apply eqb_refl.
Qed.

Lemma map_fst_list_set {A B} (l : list (A * B)) k a b :
  nth_error (map fst l) k = Some a -> map fst (list_set l k (a, b)) = map fst l.
Proof.
  revert k. induction l as [|[x y] l IH]; intros [|k] Hk; simpl in *; try discriminate; auto.
  - congruence.
  - f_equal. auto.
Qed.

Lemma add_production_spec root done st p :
  group_inv done st ->
  root_clean (symbol root) (fst p) ->
  exists st', @add_production bm T L _ root st p = Ok st' /\ group_inv (done ++ [p]) st' /\
    (length (snd st) <= length (snd st')) /\
    (forall k grp, nth_error (snd st) k = Some grp -> fst grp <> symbol (fst p) ->
       nth_error (snd st') k = Some grp).
Proof.
  destruct st as [lm gs]. destruct p as [r idx]. intros (Hn & Hlm & Hg & Hd & Hl) (Hc1 & Hc2). simpl in *.
  unfold add_production. simpl.
  destruct (eqb (symbol r) (symbol root)) eqn:He; [apply eqb_eq in He; tauto|].
  destruct (references (symbol root) r) eqn:Hr; [apply references_iff in Hr; tauto|].
  assert (Hlen : length lm = length gs).
  { rewrite Hlm, combine_length, seq_length, map_length. apply Nat.min_id. }
  set (labels := map fst gs) in *.
  destruct (hm_get (symbol r) lm) as [k|] eqn:Hget.
  - rewrite Nat.eqb_refl. simpl.
    rewrite Hlm in Hget. apply hm_get_numbered0 in Hget; auto.
    unfold labels in Hget. rewrite nth_error_map in Hget.
    destruct (nth_error gs k) as [[l rs]|] eqn:Hk; simpl in Hget; [|congruence]. injection Hget as Hsym. subst l.
    rewrite (index_ok _ _ _ Hk). simpl.
    assert (Hkl : k < length gs) by (apply nth_error_Some; congruence).
    rewrite store_ok by auto. simpl. eexists. split; [reflexivity|].
    assert (Hlab : map fst (list_set gs k (symbol r, rs ++ [(r, idx)])) = labels).
    { apply map_fst_list_set. unfold labels. rewrite nth_error_map, Hk. reflexivity. }
    split.
    + unfold group_inv. cbv zeta. rewrite Hlab. split; [auto|]. split; [auto|]. split; [|split].
      * intros j l' rs' Hj. destruct (Nat.eq_dec k j) as [<-|Hne].
        -- rewrite nth_error_list_set_eq in Hj by auto. injection Hj as <- <-.
           rewrite filter_app, <- (Hg _ _ _ Hk). simpl. unfold sym_is. simpl. rewrite eqb_refl. reflexivity.
        -- rewrite nth_error_list_set_neq in Hj by auto. rewrite filter_app, <- (Hg _ _ _ Hj). simpl.
           unfold sym_is at 1. simpl. destruct (eqb (symbol r) l') eqn:Hx; [|rewrite app_nil_r; auto].
           apply eqb_eq in Hx. subst l'. exfalso. apply Hne.
           rewrite NoDup_nth_error in Hn. apply Hn; [unfold labels; rewrite map_length; auto|].
           unfold labels. rewrite !nth_error_map, Hk, Hj. reflexivity.
      * intros p Hp. apply in_app_or in Hp as [Hp|[<-|[]]]; auto. simpl.
        unfold labels. change (symbol r) with (fst (symbol r, rs)). apply in_map. eapply nth_error_In; eauto.
      * intros l' Hl'. destruct (Hl l' Hl') as (p & Hp & Hs). exists p. split; auto. apply in_or_app; auto.
    + simpl. rewrite list_set_length. split; auto. intros j grp Hj Hne. rewrite nth_error_list_set_neq; auto.
      intros <-. rewrite Hk in Hj. injection Hj as <-. simpl in Hne. tauto.
  - unfold hm_insert_vacant. rewrite app_length. simpl.
    destruct (Nat.eqb_spec (length lm + 1) (length lm)); [lia|]. simpl.
    rewrite Hlen, Nat.eqb_refl, debug_assert_true. simpl.
    assert (Hnin : ~ In (symbol r) labels).
    { apply hm_get_none in Hget. rewrite Hlm, numbered_keys in Hget. auto. }
    eexists. split; [reflexivity|]. split.
    + unfold group_inv. cbv zeta. rewrite map_app. simpl. fold labels. split; [apply NoDup_snoc; auto|].
      split; [|split; [|split]].
      * rewrite numbered_snoc, Hlm. unfold labels. rewrite map_length. reflexivity.
      * intros j l' rs' Hj. destruct (Nat.lt_ge_cases j (length gs)) as [Hlt|Hge].
        -- rewrite nth_error_app1 in Hj by auto. rewrite filter_app, <- (Hg _ _ _ Hj). simpl.
           unfold sym_is at 1. simpl. destruct (eqb (symbol r) l') eqn:Hx; [|rewrite app_nil_r; auto].
           apply eqb_eq in Hx. subst l'. exfalso. apply Hnin. unfold labels.
           change (symbol r) with (fst (symbol r, rs')). apply in_map. eapply nth_error_In; eauto.
        -- rewrite nth_error_app2 in Hj by auto. destruct (j - length gs) as [|x]; simpl in Hj; [|destruct x; discriminate].
           injection Hj as <- <-. rewrite filter_app. simpl. unfold sym_is at 2. simpl. rewrite eqb_refl.
           replace (filter (sym_is (symbol r)) done) with (@nil (rule T L * nat)); auto.
           symmetry. clear -Hd Hnin. induction done as [|q done IH]; simpl; auto.
           unfold sym_is at 1. destruct (eqb (symbol (fst q)) (symbol r)) eqn:Hx.
           ++ apply eqb_eq in Hx. exfalso. apply Hnin. rewrite <- Hx. apply Hd. simpl; auto.
           ++ apply IH. intros; apply Hd; simpl; auto.
      * intros p Hp. apply in_or_app. apply in_app_or in Hp as [Hp|[<-|[]]]; [auto|simpl; auto].
      * intros l' Hl'. apply in_app_or in Hl' as [Hl'|[<-|[]]].
        -- destruct (Hl l' Hl') as (p & Hp & Hs). exists p. split; auto. apply in_or_app; auto.
        -- exists (r, idx). split; auto. apply in_or_app; simpl; auto.
    + simpl. rewrite app_length. simpl. split; [lia|]. intros j grp Hj _. rewrite nth_error_app1; auto.
      apply nth_error_Some. congruence.
Qed.

Lemma add_production_bad root st p :
  ~ root_clean (symbol root) (fst p) ->
  (symbol (fst p) = symbol root /\
     @add_production bm T L _ root st p = Err (BuildGrammar RootProductionRepeated)) \/
  (symbol (fst p) <> symbol root /\ uses (fst p) (symbol root) /\
     @add_production bm T L _ root st p = Err (BuildGrammar RootProductionReferenced)).
Proof.
  destruct st as [lm gs], p as [r idx]. unfold root_clean, add_production. simpl. intros Hn.
  destruct (eqb (symbol r) (symbol root)) eqn:He; [apply eqb_eq in He; auto|].
  apply eqb_neq in He. right. split; auto.
  destruct (references (symbol root) r) eqn:Hr.
  - apply references_iff in Hr. auto.
  - exfalso. apply Hn. split; auto. intros Hc. apply references_iff in Hc. congruence.
Qed.

Lemma root_clean_dec root (r : rule T L) : {root_clean root r} + {~ root_clean root r}.
Proof.
  unfold root_clean. destruct (eq_dec (symbol r) root); [right; tauto|].
  destruct (references root r) eqn:Hr.
  - right. apply references_iff in Hr. tauto.
  - left. split; auto. intros Hc. apply references_iff in Hc. congruence.
Qed.

(** The whole grouping loop. *)
Lemma grouping_spec (root : rule T L) rest0 done st :
  group_inv done st ->
  match foldM (@add_production bm T L _ root) st rest0 with
  | Ok st' => group_inv (done ++ rest0) st' /\ Forall (fun p => root_clean (symbol root) (fst p)) rest0 /\
      (forall k grp, nth_error (snd st) k = Some grp -> fst grp = symbol root -> nth_error (snd st') k = Some grp)
  | Err (BuildGrammar RootProductionRepeated) => first_offence (symbol root) (map fst rest0) true
  | Err (BuildGrammar RootProductionReferenced) => first_offence (symbol root) (map fst rest0) false
  | _ => False
  end.
Proof.
  revert done st. induction rest0 as [|p rest0 IH]; intros done st Hinv; simpl.
  - rewrite app_nil_r. split; auto.
  - destruct (root_clean_dec (symbol root) (fst p)) as [Hc|Hc].
    + destruct (add_production_spec root done st p Hinv Hc) as (st' & -> & Hinv' & _ & Hkeep). simpl.
      specialize (IH (done ++ [p]) st' Hinv').
      destruct (foldM _ st' rest0) as [st''|e|w|].
      * rewrite <- app_assoc in IH. destruct IH as (I1 & I2 & I3). split; [auto|]. split; [constructor; auto|].
        intros k grp Hk Hf. apply I3; auto. apply Hkeep; auto. intros Hx. destruct Hc as [Hc _]. congruence.
      * destruct e as [[]| | | | | | | ]; auto; destruct IH as (pre & r & post & Hr & Hp & Hx);
          exists (fst p :: pre), r, post; simpl; rewrite Hr; split; auto.
      * auto.
      * auto.
    + destruct (add_production_bad root st p Hc) as [(H1 & ->)|(H1 & H2 & ->)]; simpl;
        exists [], (fst p), (map fst rest0); simpl; auto.
Qed.

(** Mapping nodes. *)
Definition node_rel (lm : hash_map L nat) (v : vocab T) (n : node T L) (n' : inode) : Prop :=
  match n, n' with
  | Terminal a, Terminal i => aug_rel v a i
  | Production l, Production k => hm_get l lm = Some k
  | _, _ => False
  end.

Definition rule_rel (lm : hash_map L nat) (label : nat) (v : vocab T) (p : rule T L * nat) (r : indexed_rule) : Prop :=
  isymbol r = label /\ original_index r = snd p /\ Forall2 (node_rel lm v) (rhs (fst p)) (irhs r).

Definition group_rel (lm : hash_map L nat) (v : vocab T) (p : nat * label_group T L) (rs : list indexed_rule) : Prop :=
  Forall2 (rule_rel lm (fst p) v) (snd (snd p)) rs.

Lemma node_rel_ext lm v v' n n' : vocab_ext v v' -> node_rel lm v n n' -> node_rel lm v' n n'.
Proof. intros He. destruct n, n'; simpl; auto. apply aug_rel_ext; auto. Qed.

Lemma Forall2_impl {A B} (P Q : A -> B -> Prop) l l' :
  (forall a b, P a b -> Q a b) -> Forall2 P l l' -> Forall2 Q l l'.
Proof. induction 2; constructor; auto. Qed.

Lemma Forall2_impl_in {A B} (P Q : A -> B -> Prop) l l' :
  (forall a b, In a l -> In b l' -> P a b -> Q a b) -> Forall2 P l l' -> Forall2 Q l l'.
Proof.
  intros Hi Hf. induction Hf; constructor; [apply Hi; simpl; auto|]. apply IHHf. intros. apply Hi; simpl; auto.
Qed.

Definition undefined_in (lm : hash_map L nat) (ns : list (node T L)) (e : lr_error T L) : Prop :=
  exists l, e = UnrecognizedLabel l /\ In (Production l) ns /\ hm_get l lm = None.

Lemma index_nodes_spec lm v ns : wf_vocab v ->
  wp False False (map_accumM (index_node lm) v ns)
    (fun '(v', ns') => wf_vocab v' /\ vocab_ext v v' /\ Forall2 (node_rel lm v') ns ns')
    (undefined_in lm ns).
Proof.
  intros Hv. apply (wp_map_accumM wf_vocab vocab_ext (fun v => node_rel lm v)); auto using vocab_ext_refl.
  - apply vocab_ext_trans.
  - intros; eapply node_rel_ext; eauto.
  - intros s n Hn Hs. destruct n as [a|l]; simpl.
    + pose proof (get_id_or_insert_spec s a Hs) as Hg. destruct (get_id_or_insert s a) as [v' i].
      simpl. tauto.
    + destruct (hm_get l lm) as [k|] eqn:Hk; simpl.
      * split; [auto|]. split; [apply vocab_ext_refl|auto].
      * exists l. auto.
Qed.

Lemma index_rules_spec lm v label ps : wf_vocab v ->
  wp False False (map_accumM (index_rule lm label) v ps)
    (fun '(v', rs) => wf_vocab v' /\ vocab_ext v v' /\ Forall2 (rule_rel lm label v') ps rs)
    (fun e => exists p, In p ps /\ undefined_in lm (rhs (fst p)) e).
Proof.
  intros Hv. apply (wp_map_accumM wf_vocab vocab_ext (fun v => rule_rel lm label v)); auto using vocab_ext_refl.
  - apply vocab_ext_trans.
  - intros s s' p r He (H1 & H2 & H3). split; [auto|]. split; [auto|].
    eapply Forall2_impl; [|exact H3]. intros; eapply node_rel_ext; eauto.
  - intros s [r i] Hin Hs. simpl. apply wp_bind.
    eapply wp_mono; [apply index_nodes_spec; auto| |].
    + intros [v' ns] (H1 & H2 & H3). simpl. split; [auto|]. split; [auto|]. split; auto.
    + intros e He. exists (r, i). auto.
Qed.

Lemma index_groups_spec lm gs :
  wp False False (map_accumM (index_group lm) vocab_empty gs)
    (fun '(v', rss) => wf_vocab v' /\ vocab_ext vocab_empty v' /\ Forall2 (group_rel lm v') gs rss)
    (fun e => exists g p, In g gs /\ In p (snd (snd g)) /\ undefined_in lm (rhs (fst p)) e).
Proof.
  apply (wp_map_accumM wf_vocab vocab_ext (fun v => group_rel lm v)); auto using vocab_ext_refl, wf_vocab_empty.
  - apply vocab_ext_trans.
  - intros s s' p r He Hf. eapply Forall2_impl; [|exact Hf].
    intros p' r' (H1 & H2 & H3). split; [auto|]. split; [auto|].
    eapply Forall2_impl; [|exact H3]. intros; eapply node_rel_ext; eauto.
  - intros s [k grp] Hin Hs. simpl.
    eapply wp_mono; [apply index_rules_spec; auto| |].
    + intros [v' rs] (H1 & H2 & H3). auto.
    + intros e (p & Hp & He). exists (k, grp), p. auto.
Qed.

(** Rule ranges. *)
Lemma scan_metadata_labels tot (gs : list (label_group T L)) :
  map original_label (scan_metadata tot gs) = map fst gs.
Proof. revert tot. induction gs as [|[l rs] gs IH]; simpl; intros; f_equal; auto. Qed.

Lemma scan_metadata_spec (gs : list (label_group T L)) rss k0 tot :
  Forall2 (fun g rs => length (snd g) = length rs) gs rss ->
  (forall j rs, nth_error rss j = Some rs -> Forall (fun r => isymbol r = k0 + j) rs) ->
  forall j m, nth_error (scan_metadata tot gs) j = Some m ->
    tot <= start_index m /\
    start_index m + length (nth j rss []) = end_index m /\
    end_index m <= tot + length (concat rss) /\
    (forall i r, nth_error (concat rss) i = Some r ->
       (isymbol r = k0 + j <-> start_index m <= tot + i < end_index m)).
Proof.
  intros Hf. revert k0 tot. induction Hf as [|[l ps] rs gs rss Hlen Hf IH]; intros k0 tot Hs j m Hj.
  - destruct j; discriminate.
  - simpl in Hlen.
    assert (Hhd : Forall (fun r => isymbol r = k0) rs).
    { specialize (Hs 0 rs eq_refl). rewrite Nat.add_0_r in Hs. auto. }
    assert (Htl : forall j rs', nth_error rss j = Some rs' -> Forall (fun r => isymbol r = S k0 + j) rs').
    { intros j' rs' Hj'. specialize (Hs (S j') rs' Hj'). replace (S k0 + j') with (k0 + S j') by lia. auto. }
    simpl. destruct j as [|j]; simpl in Hj.
    + injection Hj as <-. simpl. rewrite Hlen, app_length. repeat split; try lia.
      * assert (i < length rs); [|lia].
        destruct (Nat.lt_ge_cases i (length rs)); auto. exfalso.
        rewrite nth_error_app2 in H1 by auto. apply nth_error_In in H1.
        apply in_concat in H1 as (x & Hx & Hr). apply In_nth_error in Hx as (j & Hx).
        specialize (Htl _ _ Hx). rewrite Forall_forall in Htl. apply Htl in Hr. lia.
      * intros Hr. assert (Hlt : i < length rs) by lia. rewrite nth_error_app1 in H1 by auto.
        apply nth_error_In in H1. rewrite Forall_forall in Hhd. apply Hhd in H1. lia.
    + destruct (IH (S k0) (tot + length ps) Htl j m Hj) as (I1 & I2 & I3 & I4).
      rewrite app_length. repeat split; try lia.
      * destruct (Nat.lt_ge_cases i (length rs)) as [Hlt|Hge].
        -- rewrite nth_error_app1 in H1 by auto. apply nth_error_In in H1.
           rewrite Forall_forall in Hhd. apply Hhd in H1. lia.
        -- rewrite nth_error_app2 in H1 by auto. pose proof (proj1 (I4 _ _ H1)). lia.
      * destruct (Nat.lt_ge_cases i (length rs)) as [Hlt|Hge].
        -- rewrite nth_error_app1 in H1 by auto. apply nth_error_In in H1.
           rewrite Forall_forall in Hhd. apply Hhd in H1. lia.
        -- rewrite nth_error_app2 in H1 by auto. pose proof (proj1 (I4 _ _ H1)). lia.
      * intros Hr. destruct (Nat.lt_ge_cases i (length rs)) as [Hlt|Hge]; [lia|].
        rewrite nth_error_app2 in H1 by auto. pose proof (proj2 (I4 _ _ H1)). lia.
Qed.

End Build.
