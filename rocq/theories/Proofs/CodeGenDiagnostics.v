(** Where errors in constructors are reported. *)
From Coq Require Import Arith Bool String Ascii NArith List Lia.
From Verif Require Import Base.Prelude Spec.Grammar Model.Error Model.IndexedGrammar Model.LRTable Model.StateMap.
From Verif Require Import Model.TokenTree Model.Terminal Model.Constructor Model.CodeGen Model.Diagnostics Model.CodeGenDiagnostics.
From Verif Require Import Spec.Values Spec.Substitution Spec.CodeGenDiagnostics Proofs.Substitution.
From Verif Require Model.TableText Spec.TableText Proofs.TextLayout.
Import ListNotations.
Open Scope string_scope.
Open Scope list_scope.

(** ** Numbers *)
Lemma digits_error_ok s : forall acc, (acc < 2 ^ 64)%N -> parse_digits acc s = None ->
  digits_error acc s = pos_overflow /\ (exists ds rest, Forall (fun d => d < 10) ds /\ (2 ^ 64 <= digits_value acc ds)%N /\ s = (digit_string ds ++ rest)%string) \/
  digits_error acc s = invalid_digit /\ forall ds rest, Forall (fun d => d < 10) ds -> (2 ^ 64 <= digits_value acc ds)%N -> s <> (digit_string ds ++ rest)%string.
Proof.
  induction s as [|c s IH]; intros acc Hacc; cbn [parse_digits digits_error]; [discriminate|].
  destruct ((48 <=? nat_of_ascii c)%nat && (nat_of_ascii c <=? 57)%nat) eqn:Hc.
  - apply andb_true_iff in Hc as (H1 & H2). apply Nat.leb_le in H1, H2.
    assert (Hex : exists d, d < 10 /\ c = digit_char d) by (exists (nat_of_ascii c - 48); split; [lia|apply digit_of; auto]).
    destruct Hex as (d & Hd & ->). rewrite digit_code in * by auto. replace (48 + d - 48) with d by lia.
    destruct (N.ltb_spec (acc * 10 + N.of_nat d) (2 ^ 64)) as [Hlt|Hge]; intros Hp.
    + destruct (IH _ Hlt Hp) as [(-> & ds & rest & A & B & ->)|(-> & Hno)].
      * left. split; auto. exists (d :: ds), rest. cbn [digits_value digit_string append]. auto.
      * right. split; auto. intros ds rest A B Hs. destruct ds as [|d' ds]; [cbn [digits_value] in B; lia|].
        cbn [digits_value digit_string append] in B, Hs. injection Hs as Hd' Hs. inversion A; subst.
        assert (d' = d) as -> by (apply digit_inj; auto). eapply Hno; eauto.
    + left. split; auto. exists [d], s. cbn [digits_value digit_string append]. auto.
  - intros _. right. split; auto. intros ds rest A B Hs. destruct ds as [|d' ds]; [cbn [digits_value] in B; lia|].
    cbn [digit_string append] in Hs. injection Hs as -> Hs. inversion A; subst.
    rewrite digit_code in Hc by auto. apply andb_false_iff in Hc as [Hc|Hc]; apply Nat.leb_gt in Hc; cbn in *; lia.
Qed.

Lemma plus_cases c s : c <> "+"%char ->
  parse_usize (String c s) = parse_digits 0 (String c s) /\ parse_usize_error (String c s) = digits_error 0 (String c s).
Proof.
  intros Hc. unfold parse_usize, parse_usize_error. destruct c as [[] [] [] [] [] [] [] []]; try (split; reflexivity). exfalso. apply Hc. reflexivity.
Qed.

Lemma parse_error_ok s : parse_usize s = None -> not_a_number s (parse_usize_error s).
Proof.
  assert (Hz : (0 < 2 ^ 64)%N) by reflexivity. destruct s as [|c s]; [intros _; constructor; reflexivity|].
  destruct (ascii_dec c "+") as [->|Hc].
  - assert (Hplus : forall ds rest, Forall (fun d => d < 10) ds -> (2 ^ 64 <= digits_value 0 ds)%N -> String "+" s <> (digit_string ds ++ rest)%string).
    { intros ds rest A B Hs. destruct ds as [|d ds]; [cbn [digits_value] in B; lia|]. cbn [digit_string append] in Hs. injection Hs as Hd _.
      inversion A; subst. symmetry in Hd. apply digit_not_plus in Hd; tauto. }
    destruct s as [|c' s].
    + intros _. apply nn_digit; [discriminate|]. intros (ds & rest & A & B & [Hs|Hs]); [eapply Hplus; eauto|].
      injection Hs as Hs. destruct ds as [|d ds]; [cbn [digits_value] in B; lia|discriminate].
    + intros Hp. change (parse_digits 0 (String c' s) = None) in Hp. change (not_a_number (String "+" (String c' s)) (digits_error 0 (String c' s))).
      destruct (digits_error_ok _ _ Hz Hp) as [(-> & ds & rest & A & B & C)|(-> & Hno)].
      * apply nn_large. exists ds, rest. split; auto. split; auto. right. rewrite C. reflexivity.
      * apply nn_digit; [discriminate|]. intros (ds & rest & A & B & [Hs|Hs]); [eapply Hplus; eauto|].
        injection Hs as Hs. exact (Hno ds rest A B Hs).
  - destruct (plus_cases c s Hc) as (-> & ->). intros Hp. destruct (digits_error_ok _ _ Hz Hp) as [(-> & ds & rest & A & B & C)|(-> & Hno)].
    + apply nn_large. exists ds, rest. auto.
    + apply nn_digit; [discriminate|]. intros (ds & rest & A & B & [Hs|Hs]); [exact (Hno ds rest A B Hs)|]. injection Hs as Hs _. congruence.
Qed.

Lemma not_a_number_fun s m m' : not_a_number s m -> not_a_number s m' -> m = m'.
Proof.
  assert (He : ~ too_large "").
  { intros (ds & rest & A & B & [Hs|Hs]); [|discriminate]. destruct ds as [|d ds]; [cbn [digits_value] in B; lia|discriminate]. }
  intros [H|H|H1 H2] [H'|H'|H1' H2']; subst; try reflexivity; try contradiction; try tauto.
Qed.

(** A numeral is the only one. *)
Lemma value_last s c : forall acc, TableText.value acc (s ++ String c "") = 10 * TableText.value acc s + (nat_of_ascii c - 48).
Proof. induction s as [|c' s IH]; intros acc; cbn [append TableText.value]; [reflexivity|]. apply IH. Qed.

Lemma value_acc s : forall acc, acc <= TableText.value acc s.
Proof. induction s as [|c s IH]; intros acc; cbn [TableText.value]; [lia|]. specialize (IH (10 * acc + (nat_of_ascii c - 48))). lia. Qed.

Lemma string_last s : s = "" \/ exists s0 c, s = (s0 ++ String c "")%string.
Proof.
  induction s as [|c s [->|(s0 & c' & ->)]]; auto; right; [exists "", c; reflexivity|exists (String c s0), c'; reflexivity].
Qed.

Lemma list_ascii_app s s' : list_ascii_of_string (s ++ s') = list_ascii_of_string s ++ list_ascii_of_string s'.
Proof. induction s; simpl; congruence. Qed.

Lemma numeral_split n s0 c : s0 <> "" -> TableText.numeral n (s0 ++ String c "") ->
  10 <= n /\ TableText.is_digit c /\ n = 10 * (n / 10) + (nat_of_ascii c - 48) /\ TableText.numeral (n / 10) s0.
Proof.
  intros Hne (_ & Hd & Hv & Hz). rewrite list_ascii_app in Hd. apply Forall_app in Hd as (Hd & Hc). inversion Hc as [|? ? Hc' _]; subst.
  rewrite value_last in *. unfold TableText.is_digit in Hc'.
  assert (Hdiv : (10 * TableText.value 0 s0 + (nat_of_ascii c - 48)) / 10 = TableText.value 0 s0) by (symmetry; apply (Nat.div_unique _ 10 _ (nat_of_ascii c - 48)); lia).
  rewrite Hdiv. assert (Hpos : 1 <= TableText.value 0 s0).
  { destruct s0 as [|c0 s0]; [congruence|]. cbn [TableText.value]. simpl in Hd. inversion Hd as [|? ? H0 _]; subst. unfold TableText.is_digit in H0.
    assert (nat_of_ascii c0 <> 48). { intros He. assert (c0 = "0"%char) as -> by (rewrite <- (ascii_nat_embedding c0), He; reflexivity).
      specialize (Hz _ eq_refl). destruct s0; discriminate. }
    pose proof (value_acc s0 (10 * 0 + (nat_of_ascii c0 - 48))). lia. }
  split; [lia|]. split; [exact Hc'|]. split; [reflexivity|]. split; auto. split; auto. split; auto.
  intros s' ->. specialize (Hz _ eq_refl). destruct s'; [reflexivity|discriminate].
Qed.

Lemma numeral_unique n : forall s s', TableText.numeral n s -> TableText.numeral n s' -> s = s'.
Proof.
  induction n as [n IH] using lt_wf_ind. intros s s' H H'.
  assert (Hone : forall s0 c, TableText.numeral n (s0 ++ String c "") -> s0 = "" -> TableText.is_digit c /\ n = nat_of_ascii c - 48).
  { intros s0 c (_ & Hd & Hv & _) ->. simpl in Hd, Hv. inversion Hd; subst. auto. }
  destruct (string_last s) as [->|(s0 & c & ->)]; [destruct H; congruence|]. destruct (string_last s') as [->|(s0' & c' & ->)]; [destruct H'; congruence|].
  assert (Hch : forall a b, TableText.is_digit a -> TableText.is_digit b -> nat_of_ascii a - 48 = nat_of_ascii b - 48 -> a = b).
  { unfold TableText.is_digit. intros a b Ha Hb He. rewrite <- (ascii_nat_embedding a), <- (ascii_nat_embedding b). f_equal. lia. }
  destruct (string_dec s0 "") as [He|Hn], (string_dec s0' "") as [He'|Hn'].
  - destruct (Hone _ _ H He) as (D & E), (Hone _ _ H' He') as (D' & E'). subst s0 s0'. simpl. f_equal. apply Hch; auto; congruence.
  - destruct (Hone _ _ H He) as (D & E), (numeral_split _ _ _ Hn' H') as (A & _). unfold TableText.is_digit in D. lia.
  - destruct (Hone _ _ H' He') as (D & E), (numeral_split _ _ _ Hn H) as (A & _). unfold TableText.is_digit in D. lia.
  - destruct (numeral_split _ _ _ Hn H) as (A & B & C & D), (numeral_split _ _ _ Hn' H') as (A' & B' & C' & D').
    rewrite (IH (n / 10) (Nat.div_lt n 10 ltac:(lia) ltac:(lia)) _ _ D D'). do 2 f_equal. apply Hch; auto. lia.
Qed.

Section Spans.
Context {span : Type}.
Notation stree := (stree span).
Notation srule := (srule span).
Notation diag := (diag span).
Notation plain := (@plain span).

(** Both models compute the same; if they fail then [P] holds of the message. *)
Definition agree {E A} (P : diag -> Prop) (m : outcome diag A) (m' : outcome E A) : Prop :=
  match m, m' with
  | Ok a, Ok a' => a = a'
  | Err d, Err _ => P d
  | Panic w, Panic w' => w = w'
  | Diverge, Diverge => True
  | _, _ => False
  end.

Lemma agree_bind {E A B} P (m : outcome diag A) (m' : outcome E A) (k : A -> outcome diag B) k' :
  agree P m m' -> (forall a, m = Ok a -> m' = Ok a -> agree P (k a) (k' a)) -> agree P (bind m k) (bind m' k').
Proof. clear. destruct m, m'; simpl; try tauto. intros <- H. apply H; auto. Qed.

Lemma agree_weaken {E A} (P Q : diag -> Prop) (m : outcome diag A) (m' : outcome E A) :
  (forall d, m = Err d -> P d -> Q d) -> agree P m m' -> agree Q m m'.
Proof. clear. destruct m, m'; simpl; auto. Qed.

Section Nodes.
Variable nodes : list pnode.
Local Notation m := (subst_build nodes).
Local Notation sub := (substitute_vars m nodes).
Local Notation csub := (cg_substitute_vars span m nodes).
Definition bad (ts : list stree) (d : diag) : Prop := bad_at nodes ts (dg_message span d) (dg_span span d).

Lemma label_agree name s place ts :
  agree (bad (sign_at s :: STIdent span name place :: ts)) (cg_lookup_label span m name place) (lookup_label m name).
Proof.
  unfold cg_lookup_label, lookup_label. pose proof (labels_ok nodes name) as H. destruct (hm_get name _) as [[i|]|]; simpl in H |- *; auto.
  - destruct H as (i & j & H1 & H2 & H3). unfold bad. simpl. eapply ba_ambiguous; eauto.
  - unfold bad. simpl. apply ba_unknown. auto.
Qed.

Lemma index_agree text s place ts :
  agree (bad (sign_at s :: STLiteral span text place :: ts)) (cg_literal_to_index span m text place nodes) (literal_to_index m text nodes).
Proof.
  unfold cg_literal_to_index, literal_to_index. destruct (parse_usize text) as [n|] eqn:Hp.
  2:{ unfold bad. simpl. apply ba_number; [|apply parse_error_ok; auto]. intros n Hn. apply parse_usize_iff in Hn. congruence. }
  apply parse_usize_iff in Hp. change (num_nodes m) with (length nodes). destruct (N.leb_spec (N.of_nat (length nodes)) n) as [Hle|Hlt].
  - unfold bad. cbn [agree dg_message dg_span]. eapply ba_range; eauto; [lia|apply TextLayout.decimal_numeral].
  - unfold index. destruct (nth_error nodes (N.to_nat n)) as [nd|] eqn:Hn; [|apply nth_error_None in Hn; lia]. cbn [bind].
    destruct (pnode_is_epsilon nd) eqn:He; cbn [agree]; auto.
    unfold bad. cbn [dg_message dg_span]. eapply ba_epsilon; eauto; [|apply TextLayout.decimal_numeral]. destruct nd; try discriminate. auto.
Qed.

Lemma csub_group d ts s : cg_substitute_tree span m nodes (STGroup span d ts s) = (body <- csub ts ;; Ok (CGroup d body)).
Proof.
  cbn [cg_substitute_tree]. f_equal.
  enough (H : forall n ts, length ts <= n -> (fix vars (ts0 : list stree) : outcome diag (list cbody) :=
     match ts0 with
     | [] => Ok []
     | t :: ts' =>
         if st_is_number_sign span t
         then index <- cg_substitute_at span m nodes (hd_error ts') (st_span span t) ;; match ts' with [] => Ok [CVar index] | _ :: rest => r <- vars rest ;; Ok (CVar index :: r) end
         else c <- cg_substitute_tree span m nodes t ;; r <- vars ts' ;; Ok (c :: r)
     end) ts = csub ts) by (apply (H (length ts)); auto).
  clear ts. induction n as [|n IH]; intros ts Hl; [destruct ts; [reflexivity|simpl in Hl; lia]|]. destruct ts as [|t ts]; [reflexivity|]. simpl in Hl.
  cbn [cg_substitute_vars]. destruct (st_is_number_sign span t).
  - destruct (cg_substitute_at span m nodes (hd_error ts) _); simpl; auto. destruct ts as [|t' ts]; auto. rewrite IH by (simpl in Hl; lia). reflexivity.
  - destruct (cg_substitute_tree span m nodes t); simpl; auto. rewrite IH by lia. reflexivity.
Qed.

Lemma sign_iff t : st_is_number_sign span t = is_punct (st_tree span t) "#" Alone.
Proof. destruct t; simpl; auto. apply andb_comm. Qed.

Lemma sign_form t : st_is_number_sign span t = true -> exists s, t = sign_at s.
Proof.
  rewrite sign_iff. intros H. apply number_sign_iff in H. destruct t as [|c sp s| |]; try discriminate. injection H as -> ->. exists s. reflexivity.
Qed.

Lemma sub_one t ts body d : sub (plain [t]) = Ok body -> bad ts d -> bad (t :: ts) d.
Proof.
  intros H1 H2. unfold bad. change (t :: ts) with ([t] ++ ts). apply (ba_later nodes [t] body); auto.
  pose proof (sub_spec nodes _ _ (le_n (lsize (plain [t])))) as H. rewrite H1 in H. auto.
Qed.

Lemma sub_two t t' ts body d : sub (plain [t; t']) = Ok body -> bad ts d -> bad (t :: t' :: ts) d.
Proof.
  intros H1 H2. unfold bad. change (t :: t' :: ts) with ([t; t'] ++ ts). apply (ba_later nodes [t; t'] body); auto.
  pose proof (sub_spec nodes _ _ (le_n (lsize (plain [t; t'])))) as H. rewrite H1 in H. auto.
Qed.

Lemma sub_agree : forall k ts, lsize (plain ts) <= k -> agree (bad ts) (csub ts) (sub (plain ts)).
Proof.
  induction k as [|k IH]; intros ts Hk.
  { destruct ts as [|t ts]; [reflexivity|]. simpl in Hk. pose proof (tsize_pos (st_tree span t)). lia. }
  destruct ts as [|t ts]; [reflexivity|]. simpl in Hk. fold (lsize (plain ts)) in Hk. cbn [cg_substitute_vars map CodeGenDiagnostics.plain substitute_vars].
  fold (plain ts). rewrite <- sign_iff. destruct (st_is_number_sign span t) eqn:Hp.
  - destruct (sign_form _ Hp) as (s & ->). destruct ts as [|t' ts].
    { simpl. unfold bad. simpl. apply ba_dangling; discriminate. }
    simpl in Hk. fold (lsize (plain ts)) in Hk. pose proof (tsize_pos (st_tree span t')). cbn [hd_error cg_substitute_at map CodeGenDiagnostics.plain]. fold (plain ts).
    destruct t' as [d tg sg|c sp sc|name place|text place]; cbn [st_tree substitute_at];
      try (unfold bad; simpl; apply ba_dangling; discriminate).
    + pose proof (label_agree name s place ts) as Hl. apply agree_bind; [exact Hl|]. intros i _ Hi. apply agree_bind; [|reflexivity].
      eapply agree_weaken; [|apply IH; lia]. intros d _ Hd. apply (sub_two _ _ _ [CVar i]); auto.
      unfold plain. cbn [map st_tree substitute_vars]. change (is_punct (TPunct "#" Alone) "#" Alone) with true. cbn [hd_error substitute_at]. rewrite Hi. reflexivity.
    + pose proof (index_agree text s place ts) as Hl. apply agree_bind; [exact Hl|]. intros i _ Hi. apply agree_bind; [|reflexivity].
      eapply agree_weaken; [|apply IH; lia]. intros d _ Hd. apply (sub_two _ _ _ [CVar i]); auto.
      unfold plain. cbn [map st_tree substitute_vars]. change (is_punct (TPunct "#" Alone) "#" Alone) with true. cbn [hd_error substitute_at]. rewrite Hi. reflexivity.
  - pose proof (tsize_pos (st_tree span t)).
    assert (Ht : agree (bad (t :: ts)) (cg_substitute_tree span m nodes t) (substitute_tree m nodes (st_tree span t))).
    { destruct t as [d tg s|c sp s|name s|text s]; try reflexivity. rewrite csub_group. cbn [st_tree]. rewrite tree_group.
      apply agree_bind; [|reflexivity]. simpl in Hk. eapply agree_weaken; [|apply IH; unfold CodeGenDiagnostics.plain, lsize; lia].
      intros d' _ Hd. unfold bad. apply ba_group. exact Hd. }
    apply agree_bind; [exact Ht|]. intros c _ Hc. apply agree_bind; [|reflexivity].
    eapply agree_weaken; [|apply IH; lia]. intros d _ Hd. apply (sub_one _ _ [c]); auto.
    unfold plain. cbn [map substitute_vars]. rewrite <- sign_iff, Hp, Hc. reflexivity.
Qed.

Lemma csub_agree ts : agree (bad ts) (csub ts) (sub (plain ts)).
Proof. exact (sub_agree _ _ (le_n _)). Qed.

(** The place is the only one. *)
Lemma csub_complete ts body : substituted nodes (plain ts) body -> forall ts', csub (ts ++ ts') = (b <- csub ts' ;; Ok (body ++ b)).
Proof.
  intros H. remember (plain ts) as us eqn:Hu. revert ts Hu.
  induction H as [|name i us body H1 H2 IH|text n nd us body H1 H2 H3 H4 IH|d us body us1 body1 H1 IH1 H2 IH2|t us body H1 H2 H3 IH]; intros ts Hu ts'.
  - destruct ts; [|discriminate]. simpl. destruct (csub ts'); reflexivity.
  - destruct ts as [|[| c sp s | |] [|[| |name' place |] ts]]; try discriminate. injection Hu as <- <- <- ->.
    cbn [app cg_substitute_vars]. change (st_is_number_sign span (STPunct span "#" Alone s)) with true. cbn [hd_error cg_substitute_at].
    pose proof (label_agree name s place []) as Ha. rewrite (label_found_ok _ _ _ H1) in Ha. destruct (cg_lookup_label span m name place); simpl in Ha; try tauto. subst.
    cbn [bind]. rewrite (IH ts eq_refl). destruct (csub ts'); reflexivity.
  - destruct ts as [|[| c sp s | |] [|[| | |text' place] ts]]; try discriminate. injection Hu as <- <- <- ->.
    cbn [app cg_substitute_vars]. change (st_is_number_sign span (STPunct span "#" Alone s)) with true. cbn [hd_error cg_substitute_at].
    pose proof (index_agree text s place []) as Ha. rewrite (index_found_ok _ _ _ _ H1 H2 H3) in Ha. destruct (cg_literal_to_index span m text place nodes); simpl in Ha; try tauto. subst.
    cbn [bind]. rewrite (IH ts eq_refl). destruct (csub ts'); reflexivity.
  - destruct ts as [|[d' tg s| | |] ts]; try discriminate. injection Hu as <- -> ->.
    cbn [app cg_substitute_vars st_is_number_sign]. rewrite csub_group. specialize (IH1 tg eq_refl []). rewrite app_nil_r in IH1. rewrite IH1. cbn [cg_substitute_vars bind]. rewrite app_nil_r.
    rewrite (IH2 ts eq_refl). destruct (csub ts'); reflexivity.
  - destruct ts as [|t' ts]; [discriminate|]. injection Hu as -> ->. cbn [app cg_substitute_vars]. rewrite sign_iff.
    destruct (is_punct (st_tree span t') "#" Alone) eqn:Hp; [apply number_sign_iff in Hp; congruence|].
    assert (Ht : cg_substitute_tree span m nodes t' = Ok (CToken (st_tree span t'))).
    { destruct t' as [d' tg s| | |]; try reflexivity. exfalso. apply (H2 d' (map (st_tree span) tg)). reflexivity. }
    rewrite Ht. cbn [bind]. rewrite (IH ts eq_refl). destruct (csub ts'); reflexivity.
Qed.

Lemma bad_exact ts message place : bad_at nodes ts message place -> csub ts = Err (mk_diag span message place).
Proof.
  induction 1 as [name s place ts Hu|name i j s place ts Hij Hi Hj|text message s place ts Hn Hm|text n w s place ts Hn Hl Hw|text n w s place ts Hn Hl Hw
    |place ts H1 H2|d ts s ts' message place Hb IH|ts body ts' message place Hs Hb IH].
  - cbn [cg_substitute_vars]. change (st_is_number_sign span (sign_at s)) with true. cbn [hd_error cg_substitute_at]. unfold cg_lookup_label.
    pose proof (labels_ok nodes name) as H. destruct (hm_get name _) as [[i|]|]; simpl in H; auto.
    + destruct H as (H & _). exfalso. eapply Hu; eauto.
    + destruct H as (i & _ & _ & H & _). exfalso. eapply Hu; eauto.
  - cbn [cg_substitute_vars]. change (st_is_number_sign span (sign_at s)) with true. cbn [hd_error cg_substitute_at]. unfold cg_lookup_label.
    pose proof (labels_ok nodes name) as H. destruct (hm_get name _) as [[k|]|]; simpl in H; auto.
    + destruct H as (_ & H). exfalso. apply Hij. rewrite (H i Hi), (H j Hj). reflexivity.
    + exfalso. eapply H; eauto.
  - cbn [cg_substitute_vars]. change (st_is_number_sign span (sign_at s)) with true. cbn [hd_error cg_substitute_at]. unfold cg_literal_to_index.
    destruct (parse_usize text) as [n|] eqn:Hp; [apply parse_usize_iff in Hp; exfalso; eapply Hn; eauto|].
    rewrite (not_a_number_fun _ _ _ (parse_error_ok _ Hp) Hm). reflexivity.
  - cbn [cg_substitute_vars]. change (st_is_number_sign span (sign_at s)) with true. cbn [hd_error cg_substitute_at]. unfold cg_literal_to_index.
    apply parse_usize_iff in Hn. rewrite Hn. change (num_nodes m) with (length nodes). destruct (N.leb_spec (N.of_nat (length nodes)) n) as [_|Hlt]; [|lia].
    rewrite (numeral_unique _ _ _ Hw (TextLayout.decimal_numeral _)). reflexivity.
  - cbn [cg_substitute_vars]. change (st_is_number_sign span (sign_at s)) with true. cbn [hd_error cg_substitute_at]. unfold cg_literal_to_index.
    apply parse_usize_iff in Hn. rewrite Hn. change (num_nodes m) with (length nodes). destruct (N.leb_spec (N.of_nat (length nodes)) n) as [Hle|_].
    { assert (N.to_nat n < length nodes) by (apply nth_error_Some; congruence). lia. }
    unfold index. rewrite Hl. cbn [bind pnode_is_epsilon]. rewrite (numeral_unique _ _ _ Hw (TextLayout.decimal_numeral _)). reflexivity.
  - cbn [cg_substitute_vars]. change (st_is_number_sign span (sign_at place)) with true. cbv iota.
    destruct ts as [|[| |name s|text s] ts]; try reflexivity; exfalso.
    + apply (H1 name (plain ts)). reflexivity.
    + apply (H2 text (plain ts)). reflexivity.
  - cbn [cg_substitute_vars st_is_number_sign]. rewrite csub_group, IH. reflexivity.
  - rewrite (csub_complete _ _ Hs), IH. reflexivity.
Qed.

Lemma csub_ok ts body : csub ts = Ok body <-> substituted nodes (plain ts) body.
Proof.
  split.
  - intros H. pose proof (csub_agree ts) as Ha. rewrite H in Ha. pose proof (sub_spec nodes _ _ (le_n (lsize (plain ts)))) as Hs.
    destruct (sub (plain ts)); simpl in Ha; try tauto. subst. auto.
  - intros H. pose proof (csub_complete _ _ H []) as Hc. rewrite app_nil_r in Hc. rewrite Hc. simpl. rewrite app_nil_r. reflexivity.
Qed.

Lemma csub_err ts d : csub ts = Err d <-> bad ts d.
Proof.
  split.
  - intros H. pose proof (csub_agree ts) as Ha. rewrite H in Ha. destruct (sub (plain ts)); simpl in Ha; tauto.
  - intros H. destruct d as [message place]. apply bad_exact in H. exact H.
Qed.

Lemma csub_total ts : (exists body, csub ts = Ok body) \/ exists d, csub ts = Err d.
Proof.
  pose proof (csub_agree ts) as Ha. pose proof (sub_spec nodes _ _ (le_n (lsize (plain ts)))) as Hs.
  destruct (csub ts), (sub (plain ts)); simpl in Ha; try tauto; eauto.
Qed.
End Nodes.

(** ** Rules *)
Lemma rewrite_at_ok nodes ts place body :
  cg_rewrite_provided_constructor span nodes (Brace, ts, place) = Ok (CUser body) <-> substituted nodes (plain ts) body.
Proof.
  rewrite <- csub_ok. unfold cg_rewrite_provided_constructor. change (negb (eqb Brace Brace)) with false. cbv iota.
  destruct (cg_substitute_vars span (subst_build nodes) nodes ts); cbn [bind]; split; intros H; try discriminate; congruence.
Qed.

Lemma rewrite_at_err nodes ts place d :
  cg_rewrite_provided_constructor span nodes (Brace, ts, place) = Err d <-> bad_at nodes ts (dg_message span d) (dg_span span d).
Proof.
  fold (bad nodes ts d). rewrite <- csub_err. unfold cg_rewrite_provided_constructor. change (negb (eqb Brace Brace)) with false. cbv iota.
  destruct (cg_substitute_vars span (subst_build nodes) nodes ts); cbn [bind]; split; intros H; try discriminate; congruence.
Qed.

Lemma rule_exact rules i r : nth_error rules i = Some r ->
  (forall d, cg_build_constructor span rules i = Err d <-> bad_rule r d) /\
  agree (bad_rule r) (cg_build_constructor span rules i) (build_constructor (map (sr_rule span) rules) i).
Proof.
  intros Hr. unfold cg_build_constructor, build_constructor, index. rewrite nth_error_map, Hr. cbn [bind option_map]. cbn [sr_rule pr_block pr_type pr_nodes].
  destruct (sr_block span r) as [[[d ts] place]|] eqn:Hb; cbn [option_map]; unfold block_tree; cbn [fst snd].
  - unfold cg_rewrite_provided_constructor, rewrite_provided_constructor, eqb. destruct (eq_dec d Brace) as [->|Hd]; cbn [negb].
    + pose proof (csub_agree (sr_nodes span r) ts) as Ha. split.
      * intros d. split.
        -- intros H. destruct d as [message s]. eapply br_reference; eauto. change (bad (sr_nodes span r) ts (mk_diag span message s)). apply csub_err.
           destruct (cg_substitute_vars span (subst_build (sr_nodes span r)) (sr_nodes span r) ts); cbn [bind] in H; congruence.
        -- intros [ts' s message pl Hb' Hbad|d' ts' pl Hb' Hd|ty Hb' _ _]; rewrite Hb in Hb'; try discriminate.
           ++ injection Hb' as -> ->. apply bad_exact in Hbad. rewrite Hbad. reflexivity.
           ++ injection Hb' as <- -> ->. congruence.
      * apply agree_bind; [|reflexivity]. eapply agree_weaken; [|exact Ha]. intros [message s] _ Hbad. eapply br_reference; eauto.
    + split.
      * intros d0. split.
        -- intros H. injection H as <-. eapply br_delimiter; eauto.
        -- intros [ts' s message pl Hb' Hbad|d' ts' pl Hb' Hd'|ty Hb' _ _]; rewrite Hb in Hb'; try discriminate; injection Hb' as -> -> ->; [congruence|reflexivity].
      * simpl. eapply br_delimiter; eauto.
  - assert (Hno : forall d, bad_rule r d -> exists ty, sr_type span r = Some ty /\ length (sr_nodes span r) <> 1 /\
        d = mk_diag span "Must provide a constructor for rules with more than 1 node" (sr_span span r)).
    { intros d [ts' s message pl Hb' Hbad|d' ts' pl Hb' Hd'|ty _ Ht Hl]; try (rewrite Hb in Hb'; discriminate). eauto. }
    destruct (sr_type span r) as [ty|] eqn:Ht.
    + unfold cg_default_constructor, generate_default_constructor. cbn [sr_rule pr_nodes]. destruct (Nat.eqb_spec (length (sr_nodes span r)) 1) as [Hl|Hl]; cbn [negb].
      * split; [|reflexivity]. intros d. split; [discriminate|]. intros H. destruct (Hno _ H) as (_ & _ & H1 & _). congruence.
      * split; [|simpl; eapply br_missing; eauto]. intros d. split.
        -- intros H. injection H as <-. eapply br_missing; eauto.
        -- intros H. destruct (Hno _ H) as (_ & _ & _ & ->). reflexivity.
    + split; [|reflexivity]. intros d. split; [discriminate|]. intros H. destruct (Hno _ H) as (ty & H1 & _). discriminate.
Qed.
End Spans.
