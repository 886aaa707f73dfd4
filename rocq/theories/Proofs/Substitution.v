(** Constructor substitution. *)
From Coq Require Import Arith Bool String Ascii NArith List Lia.
From Verif Require Import Base.Prelude Spec.Grammar Proofs.WP Model.Vocabulary Model.IndexedGrammar Model.LRTable Model.TokenTree Model.Terminal Model.Constructor Model.CodeGen Spec.Substitution Spec.Values.
From Verif Require Import Proofs.GenTable Proofs.GenCode Proofs.GenRun Proofs.GenPath Proofs.GenFinal Proofs.GenLang Proofs.GenMain.
Import ListNotations.

(** Sizes, for induction over nested groups. *)
Fixpoint tsize (t : ttree) : nat :=
  match t with
  | TGroup _ ts => S (fold_right (fun t n => tsize t + n) 0 ts)
  | _ => 1
  end.
Definition lsize (ts : list ttree) : nat := fold_right (fun t n => tsize t + n) 0 ts.

Lemma tsize_pos t : 0 < tsize t.
Proof. destruct t; simpl; lia. Qed.

(** Numbers. *)
Lemma digit_of c : 48 <= nat_of_ascii c -> nat_of_ascii c <= 57 -> c = digit_char (nat_of_ascii c - 48).
Proof. intros H1 H2. unfold digit_char. replace (48 + (nat_of_ascii c - 48)) with (nat_of_ascii c) by lia. symmetry. apply ascii_nat_embedding. Qed.

Lemma digit_code d : d < 10 -> nat_of_ascii (digit_char d) = 48 + d.
Proof. intros Hd. apply nat_ascii_embedding. lia. Qed.

Lemma digit_inj d d' : d < 10 -> d' < 10 -> digit_char d = digit_char d' -> d' = d.
Proof. intros H1 H2 He. apply (f_equal nat_of_ascii) in He. rewrite !digit_code in He by auto. lia. Qed.

Lemma digits_mono ds : forall acc, (acc <= digits_value acc ds)%N.
Proof. induction ds as [|d ds IH]; simpl; intros acc; [lia|]. specialize (IH (acc * 10 + N.of_nat d)%N). lia. Qed.

Lemma parse_digits_iff s : forall acc n, (acc < 2 ^ 64)%N -> parse_digits acc s = Some n <->
  exists ds, Forall (fun d => d < 10) ds /\ n = digits_value acc ds /\ (n < 2 ^ 64)%N /\ s = digit_string ds.
Proof.
  induction s as [|c s IH]; intros acc n Hacc; cbn [parse_digits].
  - split.
    + intros H. injection H as <-. exists []. simpl. auto.
    + intros (ds & _ & -> & _ & Hs). destruct ds; [reflexivity|discriminate].
  - destruct ((48 <=? nat_of_ascii c) && (nat_of_ascii c <=? 57)) eqn:Hc.
    + apply andb_true_iff in Hc as (H1 & H2). apply Nat.leb_le in H1, H2. 
      assert (Hex : exists d, d < 10 /\ c = digit_char d) by (exists (nat_of_ascii c - 48); split; [lia|apply digit_of; auto]).
      destruct Hex as (d & Hd & ->). rewrite digit_code in * by auto. replace (48 + d - 48) with d by lia.
      destruct (N.ltb_spec (acc * 10 + N.of_nat d) (2 ^ 64)) as [Hlt|Hge].
      * rewrite IH by auto. split.
        -- intros (ds & A & B & C & ->). exists (d :: ds). simpl. auto.
        -- intros ([|d' ds] & A & B & C & Hs); [discriminate|]. cbn [digit_string digits_value] in Hs, B. injection Hs as Hd' Hs. inversion A; subst.
           assert (d' = d) as -> by (apply digit_inj; auto). eauto.
      * split; [discriminate|]. intros ([|d' ds] & A & B & C & Hs); [discriminate|]. cbn [digit_string digits_value] in Hs, B. injection Hs as Hd' Hs. inversion A; subst.
        assert (d' = d) as -> by (apply digit_inj; auto). pose proof (digits_mono ds (acc * 10 + N.of_nat d)). lia.
    + split; [discriminate|]. intros ([|d' ds] & A & B & C & Hs); [discriminate|]. simpl in Hs. injection Hs as Hd' Hs. inversion A; subst.
      rewrite digit_code in Hc by auto. apply andb_false_iff in Hc as [Hc|Hc]; apply Nat.leb_gt in Hc; cbn in *; lia.
Qed.

Lemma digit_not_plus d : d < 10 -> digit_char d <> "+"%char.
Proof. intros Hd He. assert (nat_of_ascii (digit_char d) = nat_of_ascii "+"%char) by congruence. rewrite digit_code in H by auto. change (nat_of_ascii "+"%char) with 43 in H. lia. Qed.

Lemma parse_usize_iff s n : parse_usize s = Some n <-> decimal s n.
Proof.
  assert (Hz : (0 < 2 ^ 64)%N) by reflexivity.
  assert (Hgen : forall s', s' <> EmptyString -> (parse_digits 0 s' = Some n <->
    exists ds, ds <> [] /\ Forall (fun d => d < 10) ds /\ n = digits_value 0 ds /\ (n < 2 ^ 64)%N /\ s' = digit_string ds)).
  { intros s' Hne. rewrite parse_digits_iff by auto. split; intros (ds & H); exists ds; [|tauto].
    split; [intros ->; destruct H as (_ & _ & _ & H); auto|tauto]. }
  unfold parse_usize, decimal. destruct s as [|c s].
  { split; [discriminate|]. intros (ds & Hne & _ & _ & _ & [Hs|Hs]); [|discriminate]. destruct ds; [congruence|discriminate]. }
  destruct (ascii_dec c "+") as [->|Hc].
  - destruct s as [|c' s].
    { split; [discriminate|]. intros (ds & Hne & Ha & _ & _ & [Hs|Hs]).
      - destruct ds as [|d ds]; [congruence|]. injection Hs as Hd _. inversion Ha; subst. symmetry in Hd. apply digit_not_plus in Hd; tauto.
      - injection Hs as Hs. destruct ds; [congruence|discriminate]. }
    change (parse_digits 0 (String c' s) = Some n <-> exists ds, ds <> [] /\ Forall (fun d => d < 10) ds /\ n = digits_value 0 ds /\ (n < 2 ^ 64)%N /\
      (String "+" (String c' s) = digit_string ds \/ String "+" (String c' s) = String "+" (digit_string ds))).
    rewrite Hgen by discriminate. split; intros (ds & H1 & H2 & H3 & H4 & H5); exists ds; repeat (split; auto).
    + right. congruence.
    + destruct H5 as [H5|H5]; [|congruence]. destruct ds as [|d ds]; [congruence|]. injection H5 as Hd _. inversion H2; subst. symmetry in Hd. apply digit_not_plus in Hd; tauto.
  - assert (Hm : match String c s with EmptyString => None | String "+" EmptyString => None | String "+" s' => parse_digits 0 s' | _ => parse_digits 0 (String c s) end = parse_digits 0 (String c s)).
    { destruct c as [[] [] [] [] [] [] [] []]; try reflexivity. exfalso. apply Hc. reflexivity. }
    rewrite Hm, Hgen by discriminate. split; intros (ds & H1 & H2 & H3 & H4 & H5); exists ds; repeat (split; auto). destruct H5 as [H5|H5]; auto.
    injection H5 as H5 _. congruence.
Qed.

(** Labels. *)
Lemma hm_get_set {K V} `{EqDec K} k k' (v : V) m : hm_get k (hm_set k' v m) = if eq_dec k k' then match hm_get k' m with Some _ => Some v | None => None end else hm_get k m.
Proof.
  induction m as [|[k0 v0] m IH]; simpl; [destruct (eq_dec k k'); reflexivity|]. destruct (eq_dec k' k0) as [->|Hn]; simpl.
  - destruct (eq_dec k k0); reflexivity.
  - rewrite IH. destruct (eq_dec k k0) as [->|Hk].
    + destruct (eq_dec k0 k') as [->|]; [congruence|]. reflexivity.
    + destruct (eq_dec k k'); reflexivity.
Qed.

Definition label_step (m : hash_map string (option nat)) (p : nat * pnode) : hash_map string (option nat) :=
  let '(idx, node) := p in
  match node with
  | PNProduction name =>
      match hm_get name m with
      | Some _ => hm_set name None m
      | None => hm_insert_vacant name (Some idx) m
      end
  | _ => m
  end.

Definition label_found (nodes : list pnode) (name : string) (o : option (option nat)) : Prop :=
  match o with
  | None => forall i, nth_error nodes i <> Some (PNProduction name)
  | Some (Some i) => only_node nodes name i
  | Some None => exists i j, i <> j /\ nth_error nodes i = Some (PNProduction name) /\ nth_error nodes j = Some (PNProduction name)
  end.

Lemma nth_snoc {A} (l : list A) a i x : nth_error (l ++ [a]) i = Some x <-> nth_error l i = Some x \/ i = length l /\ x = a.
Proof.
  destruct (lt_eq_lt_dec i (length l)) as [[Hl| ->]|Hg].
  - rewrite nth_error_app1 by auto. split; auto. intros [H|(H & _)]; auto; lia.
  - rewrite nth_error_app2, Nat.sub_diag by auto. simpl. split.
    + intros H. injection H as <-. auto.
    + intros [H|(_ & ->)]; auto. assert (length l < length l) by (apply nth_error_Some; congruence). lia.
  - rewrite nth_error_app2 by lia. destruct (i - length l) as [|k] eqn:Hk; [lia|]. simpl. split; [destruct k; discriminate|].
    intros [H|(H & _)]; [|lia]. assert (i < length l) by (apply nth_error_Some; congruence). lia.
Qed.

Lemma combine_snoc {A B} (l : list A) (l' : list B) a b : length l = length l' -> combine (l ++ [a]) (l' ++ [b]) = combine l l' ++ [(a, b)].
Proof. revert l'. induction l as [|x l IH]; intros [|y l'] Hl; simpl in *; try discriminate; auto. rewrite IH; auto. Qed.

Lemma labels_ok nodes name : label_found nodes name (hm_get name (production_label_map (subst_build nodes))).
Proof.
  unfold subst_build. cbn [production_label_map]. fold label_step. induction nodes as [|nd nodes IH] using rev_ind.
  { simpl. intros [|i]; discriminate. }
  rewrite app_length. simpl length. rewrite seq_app. simpl seq. rewrite combine_snoc by (rewrite seq_length; reflexivity).
  rewrite fold_left_app. cbn [fold_left]. set (m := fold_left _ _ _) in *. set (n := length nodes) in *. unfold label_step.
  assert (Hother : nd <> PNProduction name -> label_found (nodes ++ [nd]) name (hm_get name m)).
  { intros Hnd. destruct (hm_get name m) as [[i|]|]; simpl in IH |- *.
    - destruct IH as (H1 & H2). split; [apply nth_snoc; auto|]. intros j Hj. apply nth_snoc in Hj as [Hj|(_ & Hj)]; [auto|congruence].
    - destruct IH as (i & j & H1 & H2 & H3). exists i, j. rewrite !nth_snoc. auto.
    - intros i Hi. apply nth_snoc in Hi as [Hi|(_ & Hi)]; [eapply IH; eauto|congruence]. }
  destruct nd as [name'| |]; [|apply Hother; discriminate|apply Hother; discriminate].
  destruct (eq_dec name name') as [<-|Hne].
  - destruct (hm_get name m) as [o|] eqn:Hg.
    + rewrite hm_get_set, Hg. destruct (eq_dec name name) as [_|]; [|congruence]. simpl.
      destruct o as [i|]; simpl in IH.
      * destruct IH as (H1 & _). exists i, n. split; [|split; apply nth_snoc; auto]. assert (i < n) by (apply nth_error_Some; congruence). lia.
      * destruct IH as (i & j & H1 & H2 & H3). exists i, j. rewrite !nth_snoc. auto.
    + unfold hm_insert_vacant. rewrite hm_get_app, Hg. simpl. destruct (eq_dec name name) as [_|]; [|congruence]. simpl.
      split; [apply nth_snoc; auto|]. intros j Hj. apply nth_snoc in Hj as [Hj|(-> & _)]; auto. exfalso. eapply IH; eauto.
  - assert (Hn : hm_get name (match hm_get name' m with Some _ => hm_set name' None m | None => hm_insert_vacant name' (Some n) m end) = hm_get name m).
    { destruct (hm_get name' m) eqn:Hg.
      - rewrite hm_get_set. destruct (eq_dec name name'); [congruence|reflexivity].
      - unfold hm_insert_vacant. rewrite hm_get_app. destruct (hm_get name m); auto. simpl. destruct (eq_dec name name'); [congruence|reflexivity]. }
    rewrite Hn. apply Hother. congruence.
Qed.

Section Nodes.
Variable nodes : list pnode.
Local Notation m := (subst_build nodes).
Local Notation sub := (substitute_vars m nodes).

(** One reference. *)
Lemma label_ok name : match lookup_label m name with
  | Ok i => only_node nodes name i
  | Err e => forall ts, bad_reference nodes (number_sign :: TIdent name :: ts) e
  | _ => False end.
Proof.
  unfold lookup_label. pose proof (labels_ok nodes name) as H. destruct (hm_get name _) as [[i|]|]; simpl in H; auto.
  - intros ts. destruct H as (i & j & H1 & H2 & H3). eapply bad_ambiguous; eauto.
  - intros ts. apply bad_unknown. auto.
Qed.

Lemma index_ok text : match literal_to_index m text nodes with
  | Ok i => exists n nd, decimal text n /\ i = N.to_nat n /\ nth_error nodes (N.to_nat n) = Some nd /\ nd <> PNEpsilon
  | Err e => forall ts, bad_reference nodes (number_sign :: TLiteral text :: ts) e
  | _ => False end.
Proof.
  unfold literal_to_index. destruct (parse_usize text) as [n|] eqn:Hp.
  2:{ intros ts. apply bad_number. intros n Hn. apply parse_usize_iff in Hn. congruence. }
  apply parse_usize_iff in Hp. change (num_nodes m) with (length nodes). destruct (N.leb_spec (N.of_nat (length nodes)) n) as [Hle|Hlt].
  - intros ts. apply bad_range; auto. lia.
  - unfold index. destruct (nth_error nodes (N.to_nat n)) as [nd|] eqn:Hn; [|apply nth_error_None in Hn; lia]. simpl.
    destruct (pnode_is_epsilon nd) eqn:He.
    + intros ts. apply bad_epsilon; auto. destruct nd; try discriminate. auto.
    + exists n, nd. repeat (split; auto). intros ->. discriminate.
Qed.

Lemma tree_group d ts : substitute_tree m nodes (TGroup d ts) = (body <- sub ts ;; Ok (CGroup d body)).
Proof.
  cbn [substitute_tree]. f_equal.
  enough (H : forall n ts, length ts <= n -> (fix vars (ts0 : list ttree) : outcome gen_error (list cbody) :=
     match ts0 with
     | [] => Ok []
     | t :: ts' =>
         if is_punct t "#" Alone
         then index <- substitute_at m nodes (hd_error ts') ;; match ts' with [] => Ok [CVar index] | _ :: rest => r <- vars rest ;; Ok (CVar index :: r) end
         else c <- substitute_tree m nodes t ;; r <- vars ts' ;; Ok (c :: r)
     end) ts = sub ts) by (apply (H (length ts)); auto).
  clear ts. induction n as [|n IH]; intros ts Hl; [destruct ts; [reflexivity|simpl in Hl; lia]|]. destruct ts as [|t ts]; [reflexivity|]. simpl in Hl.
  cbn [substitute_vars]. destruct (is_punct t "#" Alone).
  - destruct (substitute_at m nodes (hd_error ts)); simpl; auto. destruct ts as [|t' ts]; auto. rewrite IH by (simpl in Hl; lia). reflexivity.
  - destruct (substitute_tree m nodes t); simpl; auto. rewrite IH by lia. reflexivity.
Qed.

Lemma number_sign_iff t : is_punct t "#" Alone = true <-> t = number_sign.
Proof.
  unfold is_punct, number_sign. destruct t as [| c sp | |]; try (split; [discriminate|congruence]). unfold eqb. destruct (eq_dec c "#"%char) as [->|], (eq_dec sp Alone) as [->|];
  simpl; split; intros; try congruence.
Qed.

Lemma sub_app_bad ts body e t : substituted nodes [t] body -> bad_reference nodes ts e -> bad_reference nodes (t :: ts) e.
Proof. intros H1 H2. apply (bad_later nodes [t] body ts e); auto. Qed.

Lemma sub_spec : forall k ts, lsize ts <= k -> match sub ts with
  | Ok body => substituted nodes ts body
  | Err e => bad_reference nodes ts e
  | _ => False end.
Proof.
  induction k as [|k IH]; intros ts Hk.
  { destruct ts as [|t ts]; [constructor|]. simpl in Hk. pose proof (tsize_pos t). lia. }
  destruct ts as [|t ts]; [constructor|]. simpl in Hk. fold (lsize ts) in Hk. cbn [substitute_vars]. destruct (is_punct t "#" Alone) eqn:Hp.
  - apply number_sign_iff in Hp as ->. destruct ts as [|t' ts].
    { simpl. apply bad_dangling; discriminate. }
    simpl in Hk. fold (lsize ts) in Hk. pose proof (tsize_pos t'). cbn [hd_error substitute_at]. specialize (IH ts).
    destruct t' as [d tg|c sp|name|text]; try (simpl; apply bad_dangling; discriminate).
    + pose proof (label_ok name) as Hl. destruct (lookup_label m name) as [i|e|w|]; [|apply Hl|destruct Hl|destruct Hl]. cbn [bind].
      specialize (IH ltac:(lia)). destruct (sub ts) as [body|e|w|]; [| |destruct IH|destruct IH]; cbn [bind].
      * apply sub_name; auto.
      * change (number_sign :: TIdent name :: ts) with ([number_sign; TIdent name] ++ ts). apply (bad_later nodes _ [CVar i]); [apply sub_name; auto; constructor|exact IH].
    + pose proof (index_ok text) as Hl. destruct (literal_to_index m text nodes) as [i|e|w|]; [|apply Hl|destruct Hl|destruct Hl]. cbn [bind].
      destruct Hl as (x & nd & H1 & -> & H2 & H3).
      specialize (IH ltac:(lia)). destruct (sub ts) as [body|e|w|]; [| |destruct IH|destruct IH]; cbn [bind].
      * eapply sub_index; eauto.
      * change (number_sign :: TLiteral text :: ts) with ([number_sign; TLiteral text] ++ ts). apply (bad_later nodes _ [CVar (N.to_nat x)]); [|exact IH].
        eapply sub_index; eauto. constructor.
  - assert (Hns : t <> number_sign) by (intros ->; discriminate).
    pose proof (tsize_pos t). assert (IHts := IH ts ltac:(lia)). destruct t as [d tg|c sp|name|text].
    { rewrite tree_group. simpl in Hk. fold (lsize tg) in Hk. specialize (IH tg ltac:(lia)).
      destruct (sub tg) as [bg|e|w|]; [|apply bad_group; exact IH|destruct IH|destruct IH]. cbn [bind].
      destruct (sub ts) as [body|e|w|]; [|eapply sub_app_bad; [constructor; [exact IH|constructor]|exact IHts]|destruct IHts|destruct IHts].
      cbn [bind]. constructor; auto. }
    all: simpl; destruct (sub ts) as [body|e|w|]; [| |destruct IHts|destruct IHts]; cbn [bind];
      [apply sub_token; auto; intros; discriminate|eapply sub_app_bad; [apply sub_token; [auto|intros; discriminate|constructor]|auto]].
Qed.
End Nodes.

Section Exact.
Variable nodes : list pnode.
Local Notation m := (subst_build nodes).
Local Notation sub := (substitute_vars m nodes).

Lemma label_found_ok name i : only_node nodes name i -> lookup_label m name = Ok i.
Proof.
  intros (H1 & H2). unfold lookup_label. pose proof (labels_ok nodes name) as H. destruct (hm_get name _) as [[j|]|]; simpl in H.
  - destruct H as (H3 & _). rewrite (H2 j H3). reflexivity.
  - destruct H as (j & k & H3 & H4 & H5). exfalso. apply H3. rewrite (H2 j H4), (H2 k H5). reflexivity.
  - exfalso. eapply H; eauto.
Qed.

Lemma decimal_parse text n : decimal text n -> parse_usize text = Some n.
Proof. apply parse_usize_iff. Qed.

Lemma index_found_ok text n nd : decimal text n -> nth_error nodes (N.to_nat n) = Some nd -> nd <> PNEpsilon -> literal_to_index m text nodes = Ok (N.to_nat n).
Proof.
  intros H1 H2 H3. unfold literal_to_index. rewrite (decimal_parse _ _ H1). change (num_nodes m) with (length nodes).
  destruct (N.leb_spec (N.of_nat (length nodes)) n) as [Hle|Hlt].
  - assert (N.to_nat n < length nodes) by (apply nth_error_Some; congruence). lia.
  - unfold index. rewrite H2. simpl. destruct nd; try congruence; reflexivity.
Qed.

Lemma sub_complete ts body : substituted nodes ts body -> forall ts', sub (ts ++ ts') = (b <- sub ts' ;; Ok (body ++ b)).
Proof.
  induction 1 as [|name i ts body H1 H2 IH|text n nd ts body H1 H2 H3 H4 IH|d ts body ts1 body1 H1 IH1 H2 IH2|t ts body H1 H2 H3 IH]; intros ts'; cbn [app substitute_vars].
  - destruct (sub ts'); reflexivity.
  - change (is_punct number_sign "#" Alone) with true. cbn [hd_error substitute_at]. rewrite (label_found_ok _ _ H1). cbn [bind]. rewrite IH. destruct (sub ts'); reflexivity.
  - change (is_punct number_sign "#" Alone) with true. cbn [hd_error substitute_at]. rewrite (index_found_ok _ _ _ H1 H2 H3). cbn [bind]. rewrite IH. destruct (sub ts'); reflexivity.
  - cbn [is_punct]. rewrite tree_group. specialize (IH1 []). rewrite app_nil_r in IH1. cbn [substitute_vars bind] in IH1. rewrite app_nil_r in IH1. rewrite IH1. cbn [bind].
    rewrite IH2. destruct (sub ts'); reflexivity.
  - destruct (is_punct t "#" Alone) eqn:Hp; [apply number_sign_iff in Hp; congruence|].
    assert (Ht : substitute_tree m nodes t = Ok (CToken t)) by (destruct t; try reflexivity; exfalso; eapply H2; reflexivity).
    rewrite Ht. cbn [bind]. rewrite IH. destruct (sub ts'); reflexivity.
Qed.

Lemma substituted_ok ts body : substituted nodes ts body -> sub ts = Ok body.
Proof. intros H. pose proof (sub_complete _ _ H []) as He. rewrite app_nil_r in He. cbn [substitute_vars bind] in He. rewrite app_nil_r in He. exact He. Qed.

Lemma bad_err ts e : bad_reference nodes ts e -> sub ts = Err e.
Proof.
  induction 1 as [name ts H|name ts i j H1 H2 H3|text ts H|text n ts H1 H2|text n ts H1 H2|ts H1 H2|d ts ts' e H IH|ts body ts' e H1 H2 IH]; cbn [substitute_vars].
  1-5: change (is_punct number_sign "#" Alone) with true; cbn [hd_error substitute_at].
  - unfold lookup_label. pose proof (labels_ok nodes name) as Hl. destruct (hm_get name _) as [[k|]|]; simpl in Hl; auto.
    + destruct Hl as (Hl & _). exfalso. eapply H; eauto.
    + destruct Hl as (k & _ & _ & Hl & _). exfalso. eapply H; eauto.
  - unfold lookup_label. pose proof (labels_ok nodes name) as Hl. destruct (hm_get name _) as [[k|]|]; simpl in Hl; auto.
    + destruct Hl as (_ & Hl). exfalso. apply H1. rewrite (Hl i H2), (Hl j H3). reflexivity.
    + exfalso. eapply Hl; eauto.
  - unfold literal_to_index. destruct (parse_usize text) as [n|] eqn:Hp; auto. apply parse_usize_iff in Hp. exfalso. eapply H; eauto.
  - unfold literal_to_index. rewrite (decimal_parse _ _ H1). change (num_nodes m) with (length nodes). destruct (N.leb_spec (N.of_nat (length nodes)) n); [reflexivity|lia].
  - unfold literal_to_index. rewrite (decimal_parse _ _ H1). change (num_nodes m) with (length nodes). destruct (N.leb_spec (N.of_nat (length nodes)) n).
    + assert (N.to_nat n < length nodes) by (apply nth_error_Some; congruence). lia.
    + unfold index. rewrite H2. reflexivity.
  - change (is_punct number_sign "#" Alone) with true. destruct ts as [|[d tg|c sp|name|text] ts]; try reflexivity; exfalso; [eapply H1|eapply H2]; reflexivity.
  - cbn [is_punct]. rewrite tree_group, IH. reflexivity.
  - rewrite (sub_complete _ _ H1), IH. reflexivity.
Qed.

Lemma rewrite_ok ts body : rewrite_provided_constructor nodes (Brace, ts) = Ok (CUser body) <-> substituted nodes ts body.
Proof.
  unfold rewrite_provided_constructor. change (negb (eqb Brace Brace)) with false. pose proof (sub_spec nodes (lsize ts) ts (le_n _)) as H. split.
  - destruct (sub ts) as [b|e|w|]; cbn [bind]; intros He; try discriminate. injection He as <-. exact H.
  - intros Hs. rewrite (substituted_ok _ _ Hs). reflexivity.
Qed.

Lemma rewrite_err ts e : rewrite_provided_constructor nodes (Brace, ts) = Err e <-> bad_reference nodes ts e.
Proof.
  unfold rewrite_provided_constructor. change (negb (eqb Brace Brace)) with false. pose proof (sub_spec nodes (lsize ts) ts (le_n _)) as H. split.
  - destruct (sub ts) as [b|e'|w|]; cbn [bind]; intros He; try discriminate. injection He as <-. exact H.
  - intros Hs. rewrite (bad_err _ _ Hs). reflexivity.
Qed.

Lemma rewrite_total d ts : (d = Brace /\ ((exists body, rewrite_provided_constructor nodes (d, ts) = Ok (CUser body)) \/ exists e, bad_reference nodes ts e)) \/
  (d <> Brace /\ rewrite_provided_constructor nodes (d, ts) = Err ConstructorNotBraced).
Proof.
  destruct (eq_dec d Brace) as [->|Hd].
  - left. split; auto. pose proof (sub_spec nodes (lsize ts) ts (le_n _)) as H. unfold rewrite_provided_constructor. change (negb (eqb Brace Brace)) with false.
    destruct (sub ts) as [b|e|w|]; [left; exists b; reflexivity|right; exists e; exact H|destruct H|destruct H].
  - right. split; auto. unfold rewrite_provided_constructor, eqb. destruct (eq_dec d Brace); [congruence|reflexivity].
Qed.
End Exact.

(** Variables. *)
Lemma sub_vars nodes ts body : substituted nodes ts body -> forall i, In i (flat_map body_vars body) -> exists nd, nth_error nodes i = Some nd /\ nd <> PNEpsilon.
Proof.
  induction 1 as [|name i ts body H1 H2 IH|text n nd ts body H1 H2 H3 H4 IH|d ts body ts1 body1 H1 IH1 H2 IH2|t ts body H1 H2 H3 IH]; simpl; intros k Hk.
  - destruct Hk.
  - destruct Hk as [<-|Hk]; auto. destruct H1 as (H1 & _). exists (PNProduction name). split; auto. discriminate.
  - destruct Hk as [<-|Hk]; eauto.
  - apply in_app_iff in Hk as [Hk|Hk]; auto.
  - auto.
Qed.

Lemma node_indices_in ns : forall k i, In i (node_indices_from k ns) <-> exists nd, k <= i /\ nth_error ns (i - k) = Some nd /\ nd <> PNEpsilon.
Proof.
  induction ns as [|nd ns IH]; intros k i.
  { simpl. split; [tauto|]. intros (nd & _ & H & _). destruct (i - k); discriminate. }
  assert (Hs : (exists x, k <= i /\ nth_error (nd :: ns) (i - k) = Some x /\ x <> PNEpsilon) <->
    (i = k /\ nd <> PNEpsilon) \/ exists x, S k <= i /\ nth_error ns (i - S k) = Some x /\ x <> PNEpsilon).
  { split.
    - intros (x & H1 & H2 & H3). destruct (Nat.eq_dec i k) as [->|Hne].
      + rewrite Nat.sub_diag in H2. simpl in H2. injection H2 as ->. auto.
      + right. exists x. replace (i - k) with (S (i - S k)) in H2 by lia. simpl in H2. split; [lia|auto].
    - intros [(-> & H)|(x & H1 & H2 & H3)].
      + exists nd. rewrite Nat.sub_diag. simpl. auto.
      + exists x. replace (i - k) with (S (i - S k)) by lia. simpl. split; [lia|auto]. }
  rewrite Hs, <- IH. destruct nd; simpl; intuition congruence.
Qed.

Lemma build_constructor_vars rules i r c : nth_error rules i = Some r -> build_constructor rules i = Ok c ->
  (pr_block r = None /\ (exists ty, pr_type r = Some ty) /\ pr_nodes r = [PNEpsilon]) \/ incl (ctor_vars c) (node_indices (pr_nodes r)).
Proof.
  unfold build_constructor, index. intros -> Hb. cbn [bind] in Hb. destruct (pr_block r) as [[d ts]|].
  - right. destruct (rewrite_total (pr_nodes r) d ts) as [(-> & _)|(_ & He)]; [|congruence]. destruct c as [|n|body].
    + intros j [].
    + unfold rewrite_provided_constructor in Hb. destruct (negb _); [discriminate|]. destruct (substitute_vars _ _ _); discriminate.
    + apply rewrite_ok in Hb. intros j Hj. destruct (sub_vars _ _ _ Hb j Hj) as (nd & H1 & H2). apply node_indices_in. exists nd. rewrite Nat.sub_0_r. split; [lia|auto].
  - destruct (pr_type r) as [ty|].
    + unfold generate_default_constructor in Hb. destruct (pr_nodes r) as [|nd [|nd' l]]; try discriminate. simpl in Hb. injection Hb as <-. destruct nd as [x|x|].
      * right. intros j Hj. exact Hj.
      * right. intros j Hj. exact Hj.
      * left. eauto.
    + injection Hb as <-. right. intros j [].
Qed.

Lemma constructs_pops p i bs c : constructs p i bs c -> pops p i bs.
Proof.
  intros (sc & H1 & [(ms & rc & H2 & H3 & H4 & _)|(m & ac & H2 & H3 & H4 & _)]); exists sc; split; auto; [left; exists ms, rc|right; exists m, ac]; auto.
Qed.

Lemma vars_bound {bm : BuildMode} literal_ok gi ho p : accepted gi -> orders_ok ho -> generate_parser literal_ok ho gi = Ok p ->
  forall i bs c, constructs p i bs c -> exists r, nth_error (gi_rules gi) i = Some r /\ build_constructor (gi_rules gi) i = Ok c /\
  map b_var bs = rev (node_indices (pr_nodes r)) /\
  (incl (ctor_vars c) (map b_var bs) \/ (pr_block r = None /\ (exists ty, pr_type r = Some ty) /\ pr_nodes r = [PNEpsilon])).
Proof.
  intros Ha Ho Hg i bs c Hc. destruct (accepted_setup_first gi Ha) as (F & ks & acts & gts & Hsu & _).
  pose proof (generated_ok literal_ok ho gi F ks acts gts p Hsu Ho Hg) as Hp.
  destruct (types_pops literal_ok gi p F ks acts gts Hsu Hp i bs (constructs_pops _ _ _ _ Hc)) as (r & Hr & Hv & _).
  exists r. split; auto. assert (Hb : build_constructor (gi_rules gi) i = Ok c).
  { destruct Hc as (sc & Hin & Hcase). apply In_nth_error in Hin as (s & Hs). destruct (po_states _ _ _ _ _ Hp) as (_ & Hst). pose proof (Hst s sc Hs) as Hcode.
    destruct Hcase as [(ms & rc & Hin & <- & <- & <-)|(m & ac & Hin & <- & <- & <-)].
    - destruct (co_reduce _ _ _ _ _ _ Hcode _ _ Hin) as (j & _ & [(r' & pr & fin & _ & _ & H3 & H4 & _)] & _). rewrite H3. exact H4.
    - destruct (co_accept _ _ _ _ _ _ Hcode _ _ Hin) as (_ & _ & [(r' & pr & fin & _ & _ & _ & H4 & H5 & _)]). rewrite H4. exact H5. }
  split; auto. split; auto. destruct (build_constructor_vars _ _ _ _ Hr Hb) as [H|H]; auto. left. rewrite Hv. intros j Hj. apply in_rev. rewrite rev_involutive. auto.
Qed.
