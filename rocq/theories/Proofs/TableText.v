(** The printed table. *)
From Coq Require Import Arith Bool String Ascii NArith List Lia Sorted.
From Verif Require Import Base.Prelude Spec.Grammar Spec.Validity Model.Error.
From Verif Require Import Model.BitSet Model.FixedMap Model.Vocabulary Model.IndexedGrammar Model.FirstMap.
From Verif Require Import Model.Position Model.Closure Model.LRTable Model.TableText Spec.TableText.
From Verif Require Import Proofs.WP Proofs.BitSetProofs Proofs.VocabProofs.
From Verif Require Import Proofs.IndexedProofs Proofs.IndexedBuild Proofs.IndexedMain Proofs.FirstProofs.
From Verif Require Import Proofs.TableProofs Proofs.TableBuild Proofs.ParserFinal Proofs.LR1Final Proofs.TableFinal Proofs.StateMapFinal Proofs.UsedTokens Proofs.TextLayout.
Import ListNotations.
Open Scope string_scope.
Open Scope nat_scope.

(** ** Rows and widths *)

Lemma nth_skipn {A} (l : list A) : forall m k, nth_error (skipn m l) k = nth_error l (m + k).
Proof. induction l as [|x l IH]; intros [|m] k; auto. destruct k; reflexivity. apply IH. Qed.

Lemma chunks_rows {A} (f : nat -> nat -> A) m : 0 < m -> forall N fuel l s0, N <= fuel -> length l = m * N ->
  (forall s k, s < N -> k < m -> nth_error l (m * s + k) = Some (f (s0 + s) k)) ->
  chunks_from fuel m l = map (fun s => map (f s) (seq 0 m)) (seq s0 N).
Proof.
  intros Hm. induction N as [|N IH]; intros fuel l s0 Hf Hl Hn.
  - destruct l; [destruct fuel; reflexivity|]. rewrite Nat.mul_0_r in Hl. discriminate.
  - destruct fuel as [|fuel]; [lia|]. cbn [chunks_from seq map].
    destruct l as [|x l']; [rewrite Nat.mul_succ_r in Hl; simpl in Hl; lia|]. f_equal.
    + apply (firstn_rows (x :: l') (f s0) m 0 0). intros k Hk. specialize (Hn 0 k ltac:(lia) Hk). rewrite Nat.mul_0_r, !Nat.add_0_r in Hn. auto.
    + apply IH; [lia|rewrite skipn_length, Hl, Nat.mul_succ_r; lia|]. intros s k Hs Hk. specialize (Hn (S s) k ltac:(lia) Hk).
      rewrite nth_skipn. replace (m + (m * s + k)) with (m * S s + k) by lia. rewrite Hn. f_equal. f_equal. lia.
Qed.

Lemma fold_max l : forall x y, (y <= x \/ exists z, In z l /\ y <= z) -> y <= fold_left Nat.max l x.
Proof.
  induction l as [|z l IH]; intros x y Hy; simpl.
  - destruct Hy as [Hy|(z & [] & _)]. auto.
  - apply IH. destruct Hy as [Hy|(z' & [<-|Hz] & Hy)]; [left; lia|left; lia|right; eauto].
Qed.
Lemma max_or_ge d l x y : In x l -> y <= x -> y <= max_or d l.
Proof. destruct l as [|z l]; [intros []|]. intros [->|Hi] Hy; apply fold_max; [left; auto|right; eauto]. Qed.

Lemma show_action_len a : String.length (show_action a) = char_count (show_action a).
Proof.
  symmetry. apply ascii_chars. destruct a as [s|j|]; cbn [show_action]; rewrite ?chars_app.
  - constructor; [vm_compute; lia|]. destruct (decimal_numeral s) as (_ & Hd & _). eapply Forall_impl; [|exact Hd]. unfold is_digit. intros; simpl in *; lia.
  - constructor; [vm_compute; lia|]. destruct (decimal_numeral j) as (_ & Hd & _). eapply Forall_impl; [|exact Hd]. unfold is_digit. intros; simpl in *; lia.
  - repeat constructor; vm_compute; lia.
Qed.

Lemma numeral_word n s : numeral n s -> word s.
Proof.
  intros (H1 & H2 & _). split; auto. eapply Forall_impl; [|exact H2]. intros c Hc. unfold is_digit in Hc. split; intros ->; vm_compute in Hc; lia.
Qed.
Lemma numeral_len n s : numeral n s -> char_count s = String.length s.
Proof. intros (_ & H2 & _). apply ascii_chars. eapply Forall_impl; [|exact H2]. unfold is_digit. intros; simpl in *; lia. Qed.

Lemma word_app w1 w2 : word w1 -> Forall wordy (list_ascii_of_string w2) -> word (w1 ++ w2).
Proof. intros (H1 & H2) H3. split; [destruct w1; [congruence|discriminate]|]. rewrite chars_app. apply Forall_app. auto. Qed.

Definition action_text (o : option action) : string := match o with Some a => show_action a | None => "_" end.
Definition goto_text (o : option nat) : string := match o with Some s => show_goto s | None => "_" end.

Ltac wordy_tac := repeat constructor; intros Hx; vm_compute in Hx; discriminate.
Lemma word_cons c w : wordy c -> word w -> word (String c w).
Proof. intros Hc (_ & Hf). split; [discriminate|]. constructor; auto. Qed.

Lemma action_text_word o : action_word o (action_text o) /\ word (action_text o).
Proof.
  destruct o as [[s|j|]|]; cbn [action_text show_action append].
  - split; [constructor; apply decimal_numeral|apply word_cons; [wordy_tac|eapply numeral_word, decimal_numeral]].
  - split; [constructor; apply decimal_numeral|apply word_cons; [wordy_tac|eapply numeral_word, decimal_numeral]].
  - split; [constructor|split; [discriminate|wordy_tac]].
  - split; [constructor|split; [discriminate|wordy_tac]].
Qed.
Lemma goto_text_word o : goto_word o (goto_text o) /\ word (goto_text o).
Proof.
  destruct o as [s|]; cbn [goto_text].
  - split; [constructor; apply decimal_numeral|]. unfold show_goto. cbn [append]. repeat (apply word_cons; [wordy_tac|]).
    apply word_app; [eapply numeral_word, decimal_numeral|wordy_tac].
  - split; [constructor|split; [discriminate|wordy_tac]].
Qed.
Lemma show_goto_len s : char_count (show_goto s) = String.length (show_goto s).
Proof.
  apply ascii_chars. unfold show_goto. rewrite !chars_app. apply Forall_app. split; [repeat constructor; vm_compute; lia|].
  apply Forall_app. split; [|repeat constructor; vm_compute; lia].
  destruct (decimal_numeral s) as (_ & Hd & _). eapply Forall_impl; [|exact Hd]. unfold is_digit. intros; simpl in *; lia.
Qed.
Lemma token_text_word a : token_word a (show_token_id a) /\ word (show_token_id a).
Proof.
  destruct a as [n| |]; cbn [show_token_id].
  - split; [constructor; apply decimal_numeral|eapply numeral_word, decimal_numeral].
  - split; [constructor|split; [discriminate|wordy_tac]].
  - split; [constructor|split; [discriminate|wordy_tac]].
Qed.

Section Scan.
Context {bm : BuildMode} {E : Type}.

Lemma scan_ok m row : forall i st, wf_bs m (fst st) -> i + length row <= m ->
  exists st', scan_actions (E := E) i row st = Ok st' /\ wf_bs m (fst st') /\
  (forall c, mem (fst st') c = true <-> mem (fst st) c = true \/ exists k a, nth_error row k = Some (Some a) /\ c = i + k) /\
  snd st <= snd st' /\ (forall k a, nth_error row k = Some (Some a) -> String.length (show_action a) <= snd st').
Proof.
  induction row as [|o row IH]; intros i st Hwf Hi; cbn [scan_actions].
  - exists st. split; auto. split; auto. split; [|split; auto; intros [|]; discriminate].
    intros c. split; auto. intros [Hc|(k & a & Hk & _)]; auto. destruct k; discriminate.
  - cbn [length] in Hi. destruct o as [a|].
    + destruct (@bs_set_ok bm E m (fst st) i Hwf ltac:(lia)) as (v & -> & Hv & Hm). cbn [bind].
      destruct (IH (S i) (v, Nat.max (snd st) (String.length (show_action a))) Hv ltac:(lia)) as (st' & -> & Hw & Hc & Hs & Hl).
      exists st'. split; auto. split; auto. simpl in Hs, Hc. split; [|split; [lia|]].
      * intros c. rewrite Hc, Hm. split.
        -- intros [Ho|(k & b & Hk & ->)]; [|right; exists (S k), b; split; auto; lia].
           apply orb_true_iff in Ho as [Ho|Ho]; auto. apply Nat.eqb_eq in Ho as <-. right. exists 0, a. split; auto; lia.
        -- intros [Ho|([|k] & b & Hk & ->)]; [left; rewrite Ho; apply orb_true_r| |].
           ++ left. rewrite Nat.add_0_r, Nat.eqb_refl. reflexivity.
           ++ right. exists k, b. split; auto; lia.
      * intros [|k] b Hk; [|eapply Hl; eauto]. injection Hk as <-. lia.
    + destruct (IH (S i) st Hwf ltac:(lia)) as (st' & -> & Hw & Hc & Hs & Hl).
      exists st'. split; auto. split; auto. split; [|split; [lia|]].
      * intros c. rewrite Hc. split.
        -- intros [Ho|(k & b & Hk & ->)]; auto. right; exists (S k), b; split; auto; lia.
        -- intros [Ho|([|k] & b & Hk & ->)]; auto; [discriminate|]. right. exists k, b. split; auto; lia.
      * intros [|k] b Hk; [discriminate|eapply Hl; eauto].
Qed.

Lemma scan_rows_ok m rows : forall st, wf_bs m (fst st) -> Forall (fun row => length row = m) rows ->
  exists st', foldM (fun st actions => scan_actions (E := E) 0 actions st) st rows = Ok st' /\ wf_bs m (fst st') /\
  (forall c, mem (fst st') c = true <-> mem (fst st) c = true \/ exists row a, In row rows /\ nth_error row c = Some (Some a)) /\
  snd st <= snd st' /\ (forall row k a, In row rows -> nth_error row k = Some (Some a) -> String.length (show_action a) <= snd st').
Proof.
  induction rows as [|row rows IH]; intros st Hwf Hf; cbn [foldM].
  - exists st. split; auto. split; auto. split; [|split; auto; intros ? ? ? []].
    intros c. split; auto. intros [Hc|(r & a & [] & _)]; auto.
  - inversion Hf; subst. destruct (scan_ok (length row) row 0 st Hwf ltac:(lia)) as (st1 & -> & Hw1 & Hc1 & Hs1 & Hl1). cbn [bind].
    destruct (IH st1 Hw1 ltac:(auto)) as (st' & -> & Hw & Hc & Hs & Hl). exists st'. split; auto. split; auto. split; [|split; [lia|]].
    + intros c. rewrite Hc, Hc1. split.
      * intros [[Ho|(k & a & Hk & ->)]|(r & a & Hr & Ha)]; auto; right; [exists row, a; split; [left|]; auto|exists r, a; split; [right|]; auto].
      * intros [Ho|(r & a & [<-|Hr] & Ha)]; auto; [left; right; exists c, a; auto|right; exists r, a; auto].
    + intros r k a [<-|Hr] Hk; [specialize (Hl1 _ _ Hk); lia|eapply Hl; eauto].
Qed.
End Scan.

(** ** The whole text *)

Section Text.
Context {bm : BuildMode} {T L E : Type} `{EqDec T} `{EqDec L}.
Variable g : grammar T L.
Variable ig : indexed_grammar T L.
Hypothesis Hix : indexes g ig.
Variable F : first_table.
Variables (t : lr_table) (ks : list kernel) (acts : nat -> aug nat -> option action) (gts : nat -> nat -> option nat).
Hypothesis Hok : table_ok ig F t ks acts gts.
Local Notation m := (vocab_size (ivocab ig)).
Local Notation n := (labels_count ig).
Local Notation N := (num_states t).

Lemma m_pos : 0 < m.
Proof. unfold vocab_size. lia. Qed.
Lemma n_pos : 0 < n.
Proof. destruct (wf_root _ (ix_wf _ _ Hix)) as (r & l & Hr & Hz & _). rewrite <- Hz. apply (wf_sym _ (ix_wf _ _ Hix)). eapply nth_error_In; eauto. Qed.

Definition act_row s := map (fun k => acts s (aug_from_id k)) (seq 0 m).
Definition goto_row s := map (gts s) (seq 0 n).

Lemma actions_iter_ok : actions_iter (E := E) t = Ok (map act_row (seq 0 N)).
Proof.
  unfold actions_iter. rewrite (table_vocab_size_ok ig _ _ _ _ _ Hok). cbn [bind]. unfold chunks.
  pose proof m_pos as Hm. replace (m =? 0) with false by (symmetry; apply Nat.eqb_neq; lia). f_equal.
  apply (chunks_rows (fun s k => acts s (aug_from_id k)) m Hm).
  - rewrite (to_len_a _ _ _ _ _ _ Hok). nia.
  - apply (to_len_a _ _ _ _ _ _ Hok).
  - intros s k Hs Hk. pose proof (to_acts _ _ _ _ _ _ Hok s (aug_from_id k) Hs) as Hx. rewrite label_aug_from_id in Hx. auto.
Qed.
Lemma gotos_iter_ok : gotos_iter (E := E) t = Ok (map goto_row (seq 0 N)).
Proof.
  unfold gotos_iter. rewrite (num_production_labels_ok ig _ _ _ _ _ Hok). cbn [bind]. unfold chunks.
  pose proof n_pos as Hm. replace (n =? 0) with false by (symmetry; apply Nat.eqb_neq; lia). f_equal.
  apply (chunks_rows gts n Hm).
  - rewrite (to_len_g _ _ _ _ _ _ Hok). nia.
  - apply (to_len_g _ _ _ _ _ _ Hok).
  - intros s k Hs Hk. apply (to_gts _ _ _ _ _ _ Hok); auto.
Qed.

Lemma relevant_ok : exists v aw, relevant_vocab (E := E) t = Ok (v, aw) /\
  StronglySorted lt (bs_for_each v) /\ (forall c, In c (bs_for_each v) <-> c < m /\ exists s a, s < N /\ acts s (aug_from_id c) = Some a) /\
  1 <= aw /\ (forall s c a, s < N -> c < m -> acts s (aug_from_id c) = Some a -> String.length (show_action a) <= aw).
Proof.
  unfold relevant_vocab. rewrite actions_iter_ok. cbn [bind]. rewrite (table_vocab_size_ok ig _ _ _ _ _ Hok). cbn [bind].
  destruct (@scan_rows_ok bm E m (map act_row (seq 0 N)) (bs_new m, 1) (wf_new m)) as ((v & aw) & -> & Hwf & Hm & Hs & Hl).
  { apply Forall_forall. intros r Hr. apply in_map_iff in Hr as (s & <- & _). unfold act_row. rewrite map_length, seq_length. reflexivity. }
  assert (Hrow : forall s c a, nth_error (act_row s) c = Some (Some a) <-> c < m /\ acts s (aug_from_id c) = Some a).
  { intros s c a. unfold act_row. split.
    - intros Hc. assert (Hlt : c < m). { rewrite <- (seq_length m 0), <- (map_length (fun k => acts s (aug_from_id k))). apply nth_error_Some. congruence. }
      split; auto. rewrite (map_nth_error _ c (seq 0 m) (d := c)) in Hc by (rewrite nth_error_nth' with (d := 0) by (rewrite seq_length; auto); rewrite seq_nth; auto).
      congruence.
    - intros (Hc & Ha). rewrite <- Ha. apply (map_nth_error (fun k => acts s (aug_from_id k))).
      rewrite nth_error_nth' with (d := 0) by (rewrite seq_length; auto). rewrite seq_nth; auto. }
  exists v, aw. split; auto. split; [apply for_each_sorted|]. simpl in Hwf, Hm, Hs, Hl. split; [|split; auto].
  - intros c. rewrite (in_for_each m v c Hwf), Hm, mem_new. split.
    + intros [Hx|(row & a & Hr & Ha)]; [discriminate|]. apply in_map_iff in Hr as (s & <- & Hs'). apply in_seq in Hs'.
      apply Hrow in Ha as (Hc & Ha). split; auto. exists s, a. split; auto; lia.
    + intros (Hc & s & a & Hs' & Ha). right. exists (act_row s), a. split; [apply in_map, in_seq; lia|apply Hrow; auto].
  - intros s c a Hs' Hc Ha. apply (Hl (act_row s) c a); [apply in_map, in_seq; lia|apply Hrow; auto].
Qed.

Lemma goto_width_ok : exists gw, goto_print_width (E := E) t = Ok gw /\
  forall s k s', s < N -> k < n -> gts s k = Some s' -> String.length (show_goto s') <= gw.
Proof.
  unfold goto_print_width. rewrite gotos_iter_ok. cbn [bind]. eexists. split; [reflexivity|].
  intros s k s' Hs Hk Hg. eapply max_or_ge.
  - apply in_map. apply in_map with (f := goto_row). apply in_seq. split; [lia|simpl; exact Hs].
  - eapply max_or_ge; [|apply le_n]. apply in_map_iff. exists (Some s'). split; auto. unfold goto_row. rewrite <- Hg. apply in_map, in_seq. lia.
Qed.

Definition row_text (cs : list nat) (aw gw sw s : nat) : string :=
  pad_left sw (decimal s) ++ ": " ++ row_of aw (map (fun c => action_text (acts s (aug_from_id c))) cs) ++ " : " ++
  row_of gw (map (fun k => goto_text (gts s k)) (seq 0 n)).

Lemma print_rows_ok cs aw gw sw : (forall c, In c cs -> c < m) -> forall k s, s + k = N ->
  print_rows (E := E) k t cs aw gw sw s (map act_row (seq s k)) (map goto_row (seq s k)) =
  Ok (join newline_text (map (row_text cs aw gw sw) (seq s k))).
Proof.
  intros Hcs. induction k as [|k IH]; intros s Hk; [reflexivity|]. cbn [seq map print_rows].
  rewrite (mapM_ok _ (fun c => action_cell aw (acts s (aug_from_id c)))).
  2:{ intros c Hc. unfold index, act_row. erewrite map_nth_error; [reflexivity|].
      rewrite nth_error_nth' with (d := 0) by (rewrite seq_length; auto). rewrite seq_nth; auto. }
  cbn [bind]. rewrite (IH (S s)) by lia. cbn [bind]. f_equal.
  assert (Hrow : pad_left sw (decimal s) ++ ": " ++ join " " (map (fun c => action_cell aw (acts s (aug_from_id c))) cs) ++ " : " ++
    join " " (map (goto_cell gw) (goto_row s)) = row_text cs aw gw sw s).
  { unfold row_text, row_of, goto_row. rewrite !map_map. reflexivity. }
  rewrite Hrow. destruct k as [|k].
  - cbn [seq map join]. replace (s <? N - 1) with false by (symmetry; apply Nat.ltb_ge; lia). apply app_nil_r.
  - replace (s <? N - 1) with true by (symmetry; apply Nat.ltb_lt; lia). reflexivity.
Qed.

Lemma lines_join rows : rows <> [] -> Forall one_line rows -> lines (join newline_text rows) = rows.
Proof.
  induction rows as [|r rows IH]; [congruence|]. intros _ Hf. inversion Hf; subst. destruct rows as [|r' rows].
  - apply lines_one; auto.
  - change (lines (r ++ newline_text ++ join newline_text (r' :: rows)) = r :: r' :: rows). rewrite lines_cons by auto. f_equal. apply IH; [discriminate|auto].
Qed.

Lemma row_one_line cs aw gw sw s : one_line (row_text cs aw gw sw s).
Proof.
  unfold row_text, pad_left, row_of. repeat apply one_line_app; try apply one_line_spaces; try (intros Hx; vm_compute in Hx; intuition discriminate).
  - apply one_line_word. eapply numeral_word, decimal_numeral.
  - apply one_line_join; [intros Hx; vm_compute in Hx; intuition discriminate|]. rewrite map_map. apply Forall_forall. intros x Hx.
    apply in_map_iff in Hx as (c & <- & _). apply one_line_pad, action_text_word.
  - apply one_line_join; [intros Hx; vm_compute in Hx; intuition discriminate|]. rewrite map_map. apply Forall_forall. intros x Hx.
    apply in_map_iff in Hx as (c & <- & _). apply one_line_pad, goto_text_word.
Qed.

Lemma row_text_words cs aw gw sw s :
  words (row_text cs aw gw sw s) = ((decimal s ++ ":")%string :: map (fun c => action_text (acts s (aug_from_id c))) cs ++
    ":" :: map (fun k => goto_text (gts s k)) (seq 0 n))%list.
Proof.
  unfold row_text, pad_left. rewrite app_assoc, words_spaces.
  replace (decimal s ++ ": " ++ row_of aw (map (fun c => action_text (acts s (aug_from_id c))) cs) ++ " : " ++
    row_of gw (map (fun k => goto_text (gts s k)) (seq 0 n))) with
    ((decimal s ++ ":") ++ " " ++ row_of aw (map (fun c => action_text (acts s (aug_from_id c))) cs) ++ " : " ++
    row_of gw (map (fun k => goto_text (gts s k)) (seq 0 n))) by (rewrite app_assoc; reflexivity).
  rewrite words_word; [|apply word_app; [eapply numeral_word, decimal_numeral|wordy_tac]|reflexivity]. f_equal.
  change (words (row_of aw (map (fun c => action_text (acts s (aug_from_id c))) cs) ++ " : " ++ row_of gw (map (fun k => goto_text (gts s k)) (seq 0 n))) =
    (map (fun c => action_text (acts s (aug_from_id c))) cs ++ ":" :: map (fun k => goto_text (gts s k)) (seq 0 n))%list).
  rewrite words_row; [|apply Forall_forall; intros x Hx; apply in_map_iff in Hx as (c & <- & _); apply action_text_word|reflexivity].
  f_equal. change (words (":" ++ " " ++ row_of gw (map (fun k => goto_text (gts s k)) (seq 0 n))) = ":" :: map (fun k => goto_text (gts s k)) (seq 0 n)).
  rewrite words_word; [|split; [discriminate|wordy_tac]|reflexivity]. f_equal.
  change (words (row_of gw (map (fun k => goto_text (gts s k)) (seq 0 n))) = map (fun k => goto_text (gts s k)) (seq 0 n)).
  rewrite <- (app_nil_r (row_of _ _)). rewrite words_row; [apply List.app_nil_r| |reflexivity].
  apply Forall_forall; intros x Hx; apply in_map_iff in Hx as (c & <- & _); apply goto_text_word.
Qed.

Lemma text_parts : exists v aw gw, relevant_vocab (E := E) t = Ok (v, aw) /\ goto_print_width (E := E) t = Ok gw /\
  let cs := bs_for_each v in let sw := String.length (decimal N) in
  let header := spaces (sw + 2) ++ head_of aw (map (fun c => show_token_id (aug_from_id c)) cs) in
  exists text, table_text (E := E) t = Ok text /\ lines text = header :: map (row_text cs aw gw sw) (seq 0 N).
Proof.
  destruct relevant_ok as (v & aw & Hv & Hsort & Hin & _). destruct goto_width_ok as (gw & Hgw & _).
  exists v, aw, gw. split; auto. split; auto. intros cs sw header. unfold table_text. rewrite Hv. cbn [bind]. rewrite Hgw. cbn [bind].
  rewrite actions_iter_ok, gotos_iter_ok. cbn [bind]. fold cs sw.
  rewrite print_rows_ok; [|intros c Hc; apply Hin; auto|reflexivity]. cbn [bind]. eexists. split; [reflexivity|].
  assert (Hh : spaces sw ++ "  " ++ join "" (map (fun i => pad_right aw (show_token_id (aug_from_id i)) ++ " ") cs) ++ newline_text = header ++ newline_text).
  { unfold header, head_of. rewrite map_map. rewrite app_assoc.
    assert (Hs : forall k s, spaces k ++ "  " ++ s = spaces (k + 2) ++ s) by (induction k as [|k IH]; intros s; simpl; [reflexivity|rewrite <- IH; reflexivity]).
    apply Hs. }
  rewrite Hh, app_assoc. rewrite lines_cons.
  - f_equal. apply lines_join.
    + pose proof (num_states_pos ig _ _ _ _ _ Hok). destruct N; [lia|discriminate].
    + apply Forall_forall. intros x Hx. apply in_map_iff in Hx as (c & <- & _). apply row_one_line.
  - unfold header. apply one_line_app; [apply one_line_spaces|]. unfold head_of. apply one_line_join; [intros []|]. rewrite map_map.
    apply Forall_forall. intros x Hx. apply in_map_iff in Hx as (c & <- & _). apply one_line_app; [apply one_line_pad, token_text_word|intros Hx; vm_compute in Hx; intuition discriminate].
Qed.

Lemma Forall2_map {A B C} (R : B -> C -> Prop) (f : A -> B) (h : A -> C) l : (forall x, In x l -> R (f x) (h x)) -> Forall2 R (map f l) (map h l).
Proof. induction l as [|x l IH]; intros Hr; simpl; constructor; [apply Hr; left; auto|apply IH; intros; apply Hr; right; auto]. Qed.

Lemma text_shows : exists text, table_text (E := E) t = Ok text /\ shows_table t m n text.
Proof.
  destruct text_parts as (v & aw & gw & Hv & Hgw & text & Ht & Hl). destruct relevant_ok as (v' & aw' & Hv' & Hsort & Hin & _).
  rewrite Hv in Hv'. injection Hv' as <- <-. exists text. split; auto. set (cs := bs_for_each v) in *.
  exists (map aug_from_id cs), (spaces (String.length (decimal N) + 2) ++ head_of aw (map (fun c => show_token_id (aug_from_id c)) cs)), (map (row_text cs aw gw (String.length (decimal N))) (seq 0 N)). split; [split|split; [exact Hl|split; [|split]]].
  - clear -Hsort. induction Hsort as [|c cs Hs IH Hf]; simpl; constructor; auto. apply Forall_forall. intros a Ha.
    apply in_map_iff in Ha as (c' & <- & Hc'). rewrite !label_aug_from_id. rewrite Forall_forall in Hf. auto.
  - intros a. rewrite in_map_iff. split.
    + intros (c & <- & Hc). apply Hin in Hc as (Hc & s & act & Hs & Ha). rewrite label_aug_from_id. split; auto. exists s, act. split; auto.
      rewrite (get_action_ok ig _ _ _ _ _ Hok) by (auto; rewrite label_aug_from_id; auto). congruence.
    + intros (Ha & s & act & Hs & Hact). exists (label_id a). split; [apply aug_from_id_label|]. apply Hin. split; auto. exists s, act. split; auto.
      rewrite aug_from_id_label. rewrite (get_action_ok ig _ _ _ _ _ Hok) in Hact by auto. congruence.
  - rewrite words_spaces, words_head. { apply Forall2_map. intros c _. apply token_text_word. }
    apply Forall_forall. intros x Hx. apply in_map_iff in Hx as (c & <- & _). apply token_text_word.
  - rewrite map_length. apply seq_length.
  - intros s row Hrow. assert (Hs : s < N). { rewrite <- (seq_length N 0), <- (map_length (row_text cs aw gw (String.length (decimal N)))). apply nth_error_Some. congruence. }
    erewrite map_nth_error in Hrow by (rewrite nth_error_nth' with (d := 0) by (rewrite seq_length; auto); rewrite seq_nth by auto; reflexivity).
    injection Hrow as <-. cbn [Nat.add].
    exists (decimal s), (map (fun c => acts s (aug_from_id c)) cs), (map (gts s) (seq 0 n)),
      (map (fun c => action_text (acts s (aug_from_id c))) cs), (map (fun k => goto_text (gts s k)) (seq 0 n)).
    split; [apply decimal_numeral|]. split; [|split; [|split; [|split]]].
    + apply Forall2_map. intros c Hc. apply (get_action_ok ig _ _ _ _ _ Hok); auto. rewrite label_aug_from_id. apply Hin; auto.
    + apply Forall2_map. intros c _. apply action_text_word.
    + rewrite <- (map_id (seq 0 n)) at 1. apply Forall2_map. intros k Hk. apply in_seq in Hk. apply (get_goto_ok ig _ _ _ _ _ Hok); auto. lia.
    + apply Forall2_map. intros c _. apply goto_text_word.
    + apply row_text_words.
Qed.

(** *** Columns *)
Hypothesis Hval : valid_grammar g.
Variable fuel : nat.
Hypothesis Hb : indexed_build fuel g = Ok ig.

Lemma numeral_count k : char_count (decimal k) = String.length (decimal k) /\ 1 <= String.length (decimal k).
Proof.
  split; [eapply numeral_len, decimal_numeral|]. destruct (decimal_numeral k) as (Hn & _). destruct (decimal k); [congruence|simpl; lia].
Qed.

(** The cells of the actions have room for the tokens. *)
Lemma token_fits v aw c : relevant_vocab (E := E) t = Ok (v, aw) -> In c (bs_for_each v) -> char_count (show_token_id (aug_from_id c)) <= aw.
Proof.
  intros Hv Hc. destruct relevant_ok as (v' & aw' & Hv' & _ & Hin & H1 & Hl). rewrite Hv in Hv'. injection Hv' as <- <-.
  apply Hin in Hc as (Hc & _). unfold aug_from_id. destruct (c =? 0) eqn:Hc0; [exact H1|]. destruct (c =? 1) eqn:Hc1; [exact H1|].
  apply Nat.eqb_neq in Hc0, Hc1. cbn [show_token_id]. destruct (numeral_count (c - 2)) as (-> & _).
  destruct (shift_beyond g ig Hix Hval F t ks acts gts Hok (m - 2)) as (s & k & s' & Hs & Hk & Ha & Hle).
  - intros k Hk. apply (vocab_used fuel g ig k Hb). lia.
  - lia.
  - specialize (Hl s (k + 2) (Shift s') Hs ltac:(lia)). change (k + 2) with (label_id (Token k)) in Hl. rewrite aug_from_id_label in Hl. specialize (Hl Ha).
    cbn [show_action append String.length] in Hl. pose proof (decimal_len (c - 2) s' ltac:(lia)). lia.
Qed.

Lemma row_wide k ws : Forall (fun w => 1 <= char_count w) ws -> row_of k ws = row_of (Nat.max 1 k) ws.
Proof.
  intros Hf. unfold row_of. f_equal. apply map_ext_in. intros w Hw. rewrite Forall_forall in Hf. apply Hf in Hw. unfold pad_right. f_equal. f_equal. lia.
Qed.

Lemma goto_text_count o : char_count (goto_text o) = String.length (goto_text o) /\ 1 <= String.length (goto_text o).
Proof. destruct o as [s|]; cbn [goto_text]; [split; [apply show_goto_len|simpl; lia]|split; [reflexivity|simpl; lia]]. Qed.

Lemma text_aligned text : table_text (E := E) t = Ok text -> aligned text.
Proof.
  intros Ht. destruct text_parts as (v & aw & gw & Hv & Hgw & text' & Ht' & Hl). rewrite Ht in Ht'. injection Ht' as <-.
  pose proof relevant_ok as (v' & aw' & Hv' & _ & Hin & H1 & Haw). rewrite Hv in Hv'. injection Hv' as <- <-.
  pose proof goto_width_ok as (gw' & Hgw' & Hg). rewrite Hgw in Hgw'. injection Hgw' as <-.
  pose proof (fun c => token_fits v aw c Hv) as Hfit.
  set (cs := bs_for_each v) in *. set (sw := String.length (decimal N)) in *.
  assert (Hhead : starts (spaces (sw + 2) ++ head_of aw (map (fun c => show_token_id (aug_from_id c)) cs)) = columns (sw + 2) aw (length cs)).
  { unfold starts. rewrite starts_spaces. rewrite <- (map_length (fun c => show_token_id (aug_from_id c)) cs).
    destruct (sw + 2) eqn:He; [lia|]. rewrite <- He. clear He. apply starts_head; apply Forall_forall; intros x Hx; apply in_map_iff in Hx as (c & <- & Hc); [apply token_text_word|auto]. }
  assert (Hrow : forall row, In row (map (row_text cs aw gw sw) (seq 0 N)) -> exists rest, tl (starts row) = (columns (sw + 2) aw (length cs) ++ rest)%list /\
      rest = (let e := match cs with [] => S (sw + 2) | _ => sw + 2 + length cs * S aw end in e :: columns (S (S e)) (Nat.max 1 gw) n)).
  { intros row Hr. apply in_map_iff in Hr as (s & <- & Hs). apply in_seq in Hs. eexists. split; [|reflexivity]. cbv zeta.
    unfold row_text, pad_left. rewrite app_assoc.
    set (acells := map (fun c => action_text (acts s (aug_from_id c))) cs). set (gcells := map (fun k => goto_text (gts s k)) (seq 0 n)).
    replace (decimal s ++ ": " ++ row_of aw acells ++ " : " ++ row_of gw gcells) with
      ((decimal s ++ ":") ++ String " " (row_of aw acells ++ String " " (":" ++ String " " (row_of (Nat.max 1 gw) gcells)))).
    2:{ rewrite app_assoc. cbn [append]. rewrite <- row_wide; auto. apply Forall_forall. intros x Hx. apply in_map_iff in Hx as (k & <- & _).
        destruct (goto_text_count (gts s k)) as (-> & Hc). auto. }
    destruct (numeral_count s) as (Hcs & _). pose proof (decimal_len s N ltac:(lia)) as Hds.
    unfold starts. rewrite starts_spaces.
    assert (Hb' : match sw - char_count (decimal s) with 0 => true | S _ => true end = true) by (destruct (sw - char_count (decimal s)); auto). rewrite Hb'.
    rewrite starts_word; [|apply word_app; [eapply numeral_word, decimal_numeral|wordy_tac]|reflexivity]. cbn [List.app tl].
    assert (Hcc : char_count (decimal s ++ ":") = S (String.length (decimal s))).
    { assert (Hx : forall a b, char_count (a ++ b) = char_count a + char_count b) by (induction a as [|x a IH]; intros b; cbn [append char_count]; [auto|rewrite IH; destruct (continuation x); lia]).
      rewrite Hx, Hcs. change (char_count ":") with 1. lia. }
    rewrite Hcc, starts_space. replace (S (0 + (sw - char_count (decimal s)) + S (String.length (decimal s)))) with (sw + 2) by lia.
    rewrite starts_row.
    - unfold acells. rewrite map_length. f_equal.
      assert (He : match map (fun c => action_text (acts s (aug_from_id c))) cs with [] => S (sw + 2) | _ :: _ => sw + 2 + length cs * S aw end =
        match cs with [] => S (sw + 2) | _ => sw + 2 + length cs * S aw end) by (destruct cs; reflexivity). rewrite He.
      rewrite starts_word; [|split; [discriminate|wordy_tac]|reflexivity]. cbn [List.app]. f_equal. rewrite starts_space.
      rewrite starts_row_end.
      + unfold gcells. rewrite map_length, seq_length. f_equal. change (char_count ":") with 1. lia.
      + apply Forall_forall; intros x Hx; apply in_map_iff in Hx as (k & <- & _). apply goto_text_word.
      + apply Forall_forall; intros x Hx; apply in_map_iff in Hx as (k & <- & Hk). apply in_seq in Hk. destruct (goto_text_count (gts s k)) as (-> & _).
        destruct (gts s k) as [s'|] eqn:Hgk; cbn [goto_text]; [specialize (Hg s k s' ltac:(lia) ltac:(lia) Hgk); apply (Nat.le_trans _ gw); [exact Hg|apply Nat.le_max_r]|change (String.length "_") with 1; apply Nat.le_max_l].
    - apply Forall_forall; intros x Hx; apply in_map_iff in Hx as (c & <- & _). apply action_text_word.
    - apply Forall_forall; intros x Hx; apply in_map_iff in Hx as (c & <- & Hc).
      destruct (acts s (aug_from_id c)) as [a|] eqn:Ha; cbn [action_text]; [|exact H1]. rewrite <- show_action_len. apply (Haw s c a); auto; [lia|apply Hin; auto]. }
  intros header rows row row' Hlines Hr Hr'. rewrite Hl in Hlines. injection Hlines as <- <-.
  destruct (Hrow _ Hr) as (r1 & E1 & Hr1). destruct (Hrow _ Hr') as (r2 & E2 & Hr2). rewrite E1, E2, Hr1, Hr2. split; auto.
  rewrite Hhead. rewrite firstn_app, Nat.sub_diag, firstn_O, List.app_nil_r, firstn_all. reflexivity.
Qed.
End Text.

(** ** Reading the text *)

Lemma numeral_det a b w : numeral a w -> numeral b w -> a = b.
Proof. apply numeral_fun. Qed.
Lemma action_word_det o o' w : action_word o w -> action_word o' w -> o = o'.
Proof.
  intros H1 H2. destruct H1; inversion H2; subst; auto; try congruence; f_equal; f_equal; eapply numeral_det; eauto.
Qed.
Lemma app_inj_r s1 s2 s : s1 ++ s = s2 ++ s -> s1 = s2.
Proof.
  intros He. assert (Hl : String.length s1 = String.length s2) by (apply (f_equal String.length) in He; rewrite !length_app in He; lia).
  revert s2 He Hl. induction s1 as [|c s1 IH]; intros [|c2 s2] He Hl; try discriminate; auto. cbn in He. injection He as -> He. f_equal. apply IH; auto.
Qed.
Lemma goto_word_inv o w : goto_word o w -> (o = None /\ w = "_") \/ exists s w', o = Some s /\ numeral s w' /\ w = "GO(" ++ w' ++ ")".
Proof. destruct 1; [left|right]; eauto. Qed.
Lemma goto_word_det o o' w : goto_word o w -> goto_word o' w -> o = o'.
Proof.
  intros H1 H2. apply goto_word_inv in H1 as [(-> & ->)|(s & w1 & -> & Hn & ->)]; apply goto_word_inv in H2 as [(-> & He)|(s' & w2 & -> & Hn' & He)]; auto; try discriminate.
  cbn in He. injection He as He. assert (w1 = w2) as <- by (eapply app_inj_r; eauto). f_equal. eapply numeral_det; eauto.
Qed.
Lemma token_word_det a b w : token_word a w -> token_word b w -> a = b.
Proof.
  assert (Hd : forall k c w, numeral k (String c w) -> is_digit c) by (intros k c w0 (_ & Hf & _); inversion Hf; auto).
  intros H1 H2. destruct H1 as [k w Hn| |]; inversion H2 as [k' w' Hn'| |]; subst; auto.
  - f_equal. eapply numeral_det; eauto.
  - apply Hd in Hn. unfold is_digit in Hn. vm_compute in Hn. lia.
  - apply Hd in Hn. unfold is_digit in Hn. vm_compute in Hn. lia.
  - apply Hd in Hn'. unfold is_digit in Hn'. vm_compute in Hn'. lia.
  - apply Hd in Hn'. unfold is_digit in Hn'. vm_compute in Hn'. lia.
Qed.
Lemma Forall2_det {A B} (R : A -> B -> Prop) l l' ws : (forall a a' w, R a w -> R a' w -> a = a') -> Forall2 R l ws -> Forall2 R l' ws -> l = l'.
Proof.
  intros Hd Hf. revert l'. induction Hf as [|a w l ws Ha Hf IH]; intros l' Hf'; inversion Hf'; subst; auto. f_equal; eauto.
Qed.
Lemma action_word_colon o : ~ action_word o ":".
Proof. intros H1. inversion H1. Qed.
Lemma split_colon wa wa' wg wg' : (forall w, In w wa -> w <> ":") -> (forall w, In w wa' -> w <> ":") ->
  (wa ++ ":" :: wg)%list = (wa' ++ ":" :: wg')%list -> wa = wa' /\ wg = wg'.
Proof.
  revert wa'. induction wa as [|w wa IH]; intros [|w' wa'] H1 H2 He; cbn in He.
  - injection He as ->. auto.
  - injection He as <- He. destruct (H2 ":" (or_introl eq_refl) eq_refl).
  - injection He as -> He. destruct (H1 ":" (or_introl eq_refl) eq_refl).
  - injection He as -> He. destruct (IH wa') as (-> & ->); auto; intros x Hx; [apply H1|apply H2]; right; auto.
Qed.
Lemma Forall2_in_r' {A B} (R : A -> B -> Prop) l ws w : Forall2 R l ws -> In w ws -> exists a, In a l /\ R a w.
Proof. induction 1 as [|a b l ws Hr Hf IH]; [intros []|]. intros [->|Hi]; [exists a; split; [left|]; auto|]. destruct (IH Hi) as (x & Hx & Hr'). exists x. split; [right|]; auto. Qed.

Section Read.
Context {bm : BuildMode}.
Variables (t1 t2 : lr_table) (m1 m2 n1 n2 : nat) (text : string).
Hypothesis S1 : shows_table t1 m1 n1 text.
Hypothesis S2 : shows_table t2 m2 n2 text.

(** The tokens of the columns, the states and the entries. *)
Lemma text_read : 0 < num_states t1 -> num_states t1 = num_states t2 /\ n1 = n2 /\
  exists cs, column_tokens t1 m1 cs /\ column_tokens t2 m2 cs /\
  forall s, s < num_states t1 ->
    (forall a, In a cs -> exists o, get_action (E := unit) t1 s a = Ok o /\ get_action (E := unit) t2 s a = Ok o) /\
    (forall k, k < n1 -> exists o, get_goto (E := unit) t1 s k = Ok o /\ get_goto (E := unit) t2 s k = Ok o).
Proof.
  intros Hpos. destruct S1 as (cs & h & rows & Hc & Hl & Hh & Hlen & Hr). destruct S2 as (cs' & h' & rows' & Hc' & Hl' & Hh' & Hlen' & Hr').
  rewrite Hl in Hl'. injection Hl' as <- <-.
  assert (cs' = cs) as -> by (eapply Forall2_det; [apply token_word_det|eauto|eauto]).
  assert (Hrow : forall s, s < num_states t1 -> exists acts gotos, Forall2 (fun a o => get_action (E := unit) t1 s a = Ok o) cs acts /\
    Forall2 (fun a o => get_action (E := unit) t2 s a = Ok o) cs acts /\ Forall2 (fun k o => get_goto (E := unit) t1 s k = Ok o) (seq 0 n1) gotos /\
    Forall2 (fun k o => get_goto (E := unit) t2 s k = Ok o) (seq 0 n2) gotos).
  { intros s Hs. destruct (nth_error rows s) as [row|] eqn:Hrow; [|apply nth_error_None in Hrow; lia].
    destruct (Hr _ _ Hrow) as (nn & acts & gotos & wa & wg & Hn & Ha & Hwa & Hg & Hwg & Hw).
    destruct (Hr' _ _ Hrow) as (nn' & acts' & gotos' & wa' & wg' & Hn' & Ha' & Hwa' & Hg' & Hwg' & Hw').
    rewrite Hw in Hw'. injection Hw' as _ Hw'. apply split_colon in Hw' as (<- & <-).
    - rewrite (Forall2_det _ _ _ _ action_word_det Hwa' Hwa) in Ha'. rewrite (Forall2_det _ _ _ _ goto_word_det Hwg' Hwg) in Hg'. exists acts, gotos. auto.
    - intros w Hi ->. destruct (Forall2_in_r' _ _ _ _ Hwa Hi) as (o & _ & Ho). eapply action_word_colon; eauto.
    - intros w Hi ->. destruct (Forall2_in_r' _ _ _ _ Hwa' Hi) as (o & _ & Ho). eapply action_word_colon; eauto. }
  assert (Hnn : n1 = n2).
  { destruct (Hrow 0 Hpos) as (acts & gotos & _ & _ & H1 & H2). apply Forall2_len in H1, H2. rewrite seq_length in H1, H2. congruence. }
  split; [congruence|]. split; auto. exists cs. split; auto. split; auto. intros s Hs. destruct (Hrow s Hs) as (acts & gotos & Ha1 & Ha2 & Hg1 & Hg2).
  split.
  - intros a Hi. clear -Ha1 Ha2 Hi. revert Ha2 Hi. induction Ha1 as [|b o cs acts H1 Hf IH]; intros Ha2; [intros []|]. inversion Ha2; subst. intros [<-|Hi]; eauto.
  - intros k Hk. assert (Hi : In k (seq 0 n1)) by (apply in_seq; lia). rewrite <- Hnn in Hg2. clear -Hg1 Hg2 Hi. revert Hg2 Hi.
    induction Hg1 as [|b o cs acts H1 Hf IH]; intros Hg2; [intros []|]. inversion Hg2; subst. intros [<-|Hi]; eauto.
Qed.
End Read.

(** ** Built tables *)

Section Built.
Context {bm : BuildMode} {T L : Type} `{EqDec T} `{EqDec L}.

Theorem table_text_ok (g : grammar T L) ig t fuel fuel' E : indexed_build fuel g = Ok ig -> table_build ig fuel' = Ok t ->
  exists text, table_text (E := E) t = Ok text /\ shows_table t (vocab_size (ivocab ig)) (labels_count ig) text /\ aligned text.
Proof.
  intros Hg Ht. destruct (build_indexes _ _ _ Hg) as (Hix & Hval). destruct (table_built g ig t fuel fuel' Hg Ht) as (_ & F & ks & acts & gts & _ & _ & Hok).
  destruct (text_shows (E := E) g ig Hix F t ks acts gts Hok) as (text & Htx & Hs). exists text. split; auto. split; auto.
  apply (text_aligned (E := E) g ig Hix F t ks acts gts Hok Hval fuel Hg text Htx).
Qed.

Lemma column_of_token (g : grammar T L) ig t fuel fuel' k cs : indexed_build fuel g = Ok ig -> table_build ig fuel' = Ok t ->
  column_tokens t (vocab_size (ivocab ig)) cs -> (k + 2 < vocab_size (ivocab ig) <-> In (Token k) cs).
Proof.
  intros Hg Ht (_ & Hc). split; [|intros Hi; apply Hc in Hi as (Hi & _); exact Hi]. intros Hk. apply Hc. split; [exact Hk|].
  destruct (build_indexes _ _ _ Hg) as (Hix & Hval). destruct (table_built g ig t fuel fuel' Hg Ht) as (_ & F & ks & acts & gts & _ & _ & Hok).
  destruct (vocab_used _ _ _ _ Hg Hk) as (r & Hr & Hi). destruct (terminal_shifted g ig Hix Hval F t ks acts gts Hok r (Token k) Hr Hi ltac:(discriminate)) as (s & s' & Hs & Ha).
  exists s, (Shift s'). split; auto. rewrite (get_action_ok ig _ _ _ _ _ Hok) by auto. congruence.
Qed.

Lemma nth_ext_some {A} (l l' : list A) : length l = length l' -> (forall i, i < length l -> nth_error l i = nth_error l' i) -> l = l'.
Proof.
  revert l'. induction l as [|x l IH]; intros [|x' l'] Hl He; try discriminate; auto. f_equal.
  - specialize (He 0 ltac:(simpl; lia)). simpl in He. congruence.
  - apply IH; [simpl in Hl; lia|]. intros i Hi. apply (He (S i)). simpl; lia.
Qed.
Lemma div_index m i N : i < m * N -> exists s k, i = m * s + k /\ s < N /\ k < m.
Proof.
  intros Hi. assert (Hm : m <> 0) by (intros ->; lia). exists (i / m), (i mod m). split; [apply Nat.div_mod; auto|].
  split; [apply Nat.div_lt_upper_bound; auto|apply Nat.mod_upper_bound; auto].
Qed.
End Built.

Theorem text_determines_table {bm : BuildMode} {T1 L1 T2 L2 E : Type} {dT1 : EqDec T1} {dL1 : EqDec L1} {dT2 : EqDec T2} {dL2 : EqDec L2}
  (g1 : grammar T1 L1) (g2 : grammar T2 L2) ig1 ig2 t1 t2 f1 f1' f2 f2' text :
  indexed_build f1 g1 = Ok ig1 -> table_build ig1 f1' = Ok t1 -> indexed_build f2 g2 = Ok ig2 -> table_build ig2 f2' = Ok t2 ->
  table_text (E := E) t1 = Ok text -> table_text (E := E) t2 = Ok text -> t1 = t2.
Proof.
  intros Hg1 Ht1 Hg2 Ht2 Hx1 Hx2.
  destruct (table_text_ok g1 ig1 t1 f1 f1' E Hg1 Ht1) as (text1 & Hx1' & S1 & _). rewrite Hx1 in Hx1'. injection Hx1' as <-.
  destruct (table_text_ok g2 ig2 t2 f2 f2' E Hg2 Ht2) as (text2 & Hx2' & S2 & _). rewrite Hx2 in Hx2'. injection Hx2' as <-.
  destruct (table_built g1 ig1 t1 f1 f1' Hg1 Ht1) as (_ & F1 & ks1 & acts1 & gts1 & _ & _ & Hok1).
  destruct (table_built g2 ig2 t2 f2 f2' Hg2 Ht2) as (_ & F2 & ks2 & acts2 & gts2 & _ & _ & Hok2).
  pose proof (num_states_pos ig1 _ _ _ _ _ Hok1) as Hpos.
  destruct (text_read t1 t2 _ _ _ _ _ S1 S2 Hpos) as (HN & Hn & cs & C1 & C2 & Hread).
  assert (Hm : vocab_size (ivocab ig1) = vocab_size (ivocab ig2)).
  { pose proof (fun k => column_of_token g1 ig1 t1 f1 f1' k cs Hg1 Ht1 C1) as K1. pose proof (fun k => column_of_token g2 ig2 t2 f2 f2' k cs Hg2 Ht2 C2) as K2.
    assert (K : forall k, k + 2 < vocab_size (ivocab ig1) <-> k + 2 < vocab_size (ivocab ig2)) by (intros k; rewrite K1, K2; tauto).
    clear -K. unfold vocab_size in *. pose proof (K (length (id_map (ivocab ig1)))). pose proof (K (length (id_map (ivocab ig2)))). lia. }
  assert (Hacts : forall s a, s < num_states t1 -> label_id a < vocab_size (ivocab ig1) -> acts1 s a = acts2 s a).
  { intros s a Hs Ha. pose proof (get_action_ok (E := unit) ig1 _ _ _ _ _ Hok1 s a Hs Ha) as A1. pose proof (get_action_ok (E := unit) ig2 _ _ _ _ _ Hok2 s a ltac:(lia) ltac:(lia)) as A2.
    destruct (acts1 s a) as [x1|] eqn:E1.
    - destruct C1 as (_ & C1). destruct (proj1 (Hread s Hs) a) as (o & O1 & O2); [apply C1; split; auto; exists s, x1; auto|]. congruence.
    - destruct (acts2 s a) as [x2|] eqn:E2; auto. destruct C2 as (_ & C2).
      destruct (proj1 (Hread s Hs) a) as (o & O1 & O2); [apply C2; split; [lia|]; exists s, x2; split; auto; lia|]. congruence. }
  assert (Hgts : forall s k, s < num_states t1 -> k < labels_count ig1 -> gts1 s k = gts2 s k).
  { intros s k Hs Hk. pose proof (get_goto_ok (E := unit) ig1 _ _ _ _ _ Hok1 s k Hs Hk) as A1. pose proof (get_goto_ok (E := unit) ig2 _ _ _ _ _ Hok2 s k ltac:(lia) ltac:(lia)) as A2.
    destruct (proj2 (Hread s Hs) k Hk) as (o & O1 & O2). congruence. }
  assert (Ha : action_table t1 = action_table t2).
  { apply nth_ext_some; [rewrite (to_len_a _ _ _ _ _ _ Hok1), (to_len_a _ _ _ _ _ _ Hok2); congruence|]. intros i Hi. rewrite (to_len_a _ _ _ _ _ _ Hok1) in Hi.
    apply div_index in Hi as (s & k & -> & Hs & Hk). pose proof (to_acts _ _ _ _ _ _ Hok1 s (aug_from_id k) Hs) as A1. pose proof (to_acts _ _ _ _ _ _ Hok2 s (aug_from_id k) ltac:(lia)) as A2.
    rewrite label_aug_from_id in A1, A2. rewrite (A1 Hk). rewrite Hm. rewrite (A2 ltac:(lia)). rewrite Hacts; auto. rewrite label_aug_from_id. auto. }
  assert (Hgt : goto_table t1 = goto_table t2).
  { apply nth_ext_some; [rewrite (to_len_g _ _ _ _ _ _ Hok1), (to_len_g _ _ _ _ _ _ Hok2); congruence|]. intros i Hi. rewrite (to_len_g _ _ _ _ _ _ Hok1) in Hi.
    apply div_index in Hi as (s & k & -> & Hs & Hk). pose proof (to_gts _ _ _ _ _ _ Hok1 s k Hs Hk) as A1. pose proof (to_gts _ _ _ _ _ _ Hok2 s k ltac:(lia) ltac:(lia)) as A2.
    rewrite A1. rewrite Hn. rewrite A2. rewrite Hgts; auto. }
  destruct t1, t2. cbn in *. congruence.
Qed.
