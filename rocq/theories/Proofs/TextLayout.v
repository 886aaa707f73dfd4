(** Decimal numerals, words, lines and columns of printed text. *)
From Coq Require Import Arith Bool String Ascii List Lia.
From Verif Require Import Base.Prelude Model.TableText Spec.TableText.
Import ListNotations.
Open Scope string_scope.
Open Scope nat_scope.

Lemma app_nil_r s : s ++ "" = s.
Proof. induction s as [|c s IH]; simpl; congruence. Qed.
Lemma app_assoc s1 s2 s3 : (s1 ++ s2) ++ s3 = s1 ++ s2 ++ s3.
Proof. induction s1 as [|c s IH]; simpl; congruence. Qed.
Lemma length_app s1 s2 : String.length (s1 ++ s2) = String.length s1 + String.length s2.
Proof. induction s1 as [|c s IH]; simpl; congruence. Qed.
Lemma chars_app s1 s2 : list_ascii_of_string (s1 ++ s2) = (list_ascii_of_string s1 ++ list_ascii_of_string s2)%list.
Proof. induction s1 as [|c s IH]; simpl; congruence. Qed.

(** ** Numerals *)

Lemma digit_val n : is_digit (digit n) /\ nat_of_ascii (digit n) - 48 = n mod 10.
Proof.
  unfold is_digit, digit. pose proof (Nat.mod_upper_bound n 10 ltac:(lia)) as Hb.
  rewrite nat_ascii_embedding by lia. lia.
Qed.

Lemma value_app s1 : forall acc s2, value acc (s1 ++ s2) = value (value acc s1) s2.
Proof. induction s1 as [|c s IH]; intros acc s2; simpl; auto. Qed.

Lemma decimal_from_ok fuel : forall n, n <= fuel ->
  decimal_from fuel n <> "" /\ Forall is_digit (list_ascii_of_string (decimal_from fuel n)) /\ value 0 (decimal_from fuel n) = n /\
  (forall s, decimal_from fuel n = String "0" s -> s = "" /\ n = 0).
Proof.
  assert (Hone : forall n, n < 10 -> String (digit n) "" <> "" /\ Forall is_digit (list_ascii_of_string (String (digit n) "")) /\
    value 0 (String (digit n) "") = n /\ (forall s, String (digit n) "" = String "0" s -> s = "" /\ n = 0)).
  { intros n Hn. destruct (digit_val n) as (Hd & Hv). rewrite Nat.mod_small in Hv by lia. split; [discriminate|].
    split; [constructor; auto; constructor|]. split; [cbn [value]; lia|]. intros s Hs. injection Hs as Hc <-. split; auto.
    rewrite Hc in Hv. cbn in Hv. lia. }
  induction fuel as [|fuel IH]; intros n Hn; cbn [decimal_from].
  - apply Hone. lia.
  - destruct (n <? 10) eqn:Hlt; [apply Hone, Nat.ltb_lt; auto|]. apply Nat.ltb_ge in Hlt.
    assert (Hq : n / 10 <= fuel) by (pose proof (Nat.div_lt n 10 ltac:(lia) ltac:(lia)); lia).
    destruct (IH _ Hq) as (H1 & H2 & H3 & H4). destruct (digit_val n) as (Hd & Hv).
    split; [destruct (decimal_from fuel (n / 10)); discriminate|].
    split; [rewrite chars_app; apply Forall_app; split; auto; constructor; auto; constructor|].
    split. { rewrite value_app, H3. cbn [value]. rewrite Hv. pose proof (Nat.div_mod n 10 ltac:(lia)). lia. }
    intros s Hs. destruct (decimal_from fuel (n / 10)) as [|c s'] eqn:Hx; [congruence|]. injection Hs as -> <-.
    destruct (H4 s' eq_refl) as (_ & H0). pose proof (Nat.div_str_pos n 10 ltac:(lia)). lia.
Qed.

Lemma decimal_numeral n : numeral n (decimal n).
Proof.
  destruct (decimal_from_ok n n (le_n _)) as (H1 & H2 & H3 & H4). split; [|split; [|split]]; auto. intros s Hs. apply H4; auto.
Qed.

Lemma numeral_fun n n' s : numeral n s -> numeral n' s -> n = n'.
Proof. intros (_ & _ & <- & _) (_ & _ & <- & _). reflexivity. Qed.

Lemma decimal_from_len f : forall f' a b, a <= f -> b <= f' -> a <= b -> String.length (decimal_from f a) <= String.length (decimal_from f' b).
Proof.
  assert (Hpos : forall f b, 1 <= String.length (decimal_from f b)).
  { intros g b. destruct g; simpl; auto. destruct (b <? 10); simpl; auto. rewrite length_app. simpl. lia. }
  induction f as [|f IH]; intros f' a b Ha Hb Hab; cbn [decimal_from]; [apply Hpos|].
  destruct (a <? 10) eqn:Hlt; [apply Hpos|]. apply Nat.ltb_ge in Hlt. destruct f' as [|f']; [lia|]. cbn [decimal_from].
  replace (b <? 10) with false by (symmetry; apply Nat.ltb_ge; lia). rewrite !length_app. apply Nat.add_le_mono_r.
  pose proof (Nat.div_lt a 10 ltac:(lia) ltac:(lia)). pose proof (Nat.div_lt b 10 ltac:(lia) ltac:(lia)).
  apply IH; try lia. apply Nat.div_le_mono; lia.
Qed.
Lemma decimal_len a b : a <= b -> String.length (decimal a) <= String.length (decimal b).
Proof. intros H. apply decimal_from_len; auto. Qed.

(** ** Words *)

(** A word of plain or other characters. *)
Definition wordy (c : ascii) : Prop := c <> space /\ c <> end_of_line.
Definition word (w : string) : Prop := w <> "" /\ Forall wordy (list_ascii_of_string w).

Lemma continuation_spec c : continuation c = if continues_dec c then true else false.
Proof.
  unfold continuation. destruct (continues_dec c) as [Hc|Hc]; unfold continues in Hc.
  - apply andb_true_intro. split; [apply Nat.leb_le|apply Nat.ltb_lt]; lia.
  - destruct (128 <=? nat_of_ascii c) eqn:H1; auto. apply Nat.leb_le in H1. simpl. apply Nat.ltb_ge. lia.
Qed.

Lemma ascii_chars w : Forall (fun c => nat_of_ascii c < 128) (list_ascii_of_string w) -> char_count w = String.length w.
Proof.
  induction w as [|c w IH]; intros Hf; simpl; auto. inversion Hf; subst. rewrite IH by auto. unfold continuation.
  replace (128 <=? nat_of_ascii c) with false by (symmetry; apply Nat.leb_gt; auto). reflexivity.
Qed.

Lemma words_word w s : word w -> spaced s = true -> words (w ++ s) = w :: words s.
Proof.
  intros (Hw & Hf) Hs. induction w as [|c w IH]; [congruence|]. inversion Hf as [|? ? (Hc & _) Hf']; subst. cbn [append words].
  destruct (ascii_dec c space) as [->|_]; [congruence|]. destruct w as [|c' w]; cbn [append].
  - rewrite Hs. reflexivity.
  - cbn [spaced]. inversion Hf' as [|? ? (Hc' & _) _]; subst. destruct (ascii_dec c' space) as [->|_]; [congruence|].
    change (String c' (w ++ s)) with (String c' w ++ s). rewrite IH by (auto; discriminate). reflexivity.
Qed.
Lemma words_spaces n s : words (spaces n ++ s) = words s.
Proof. induction n as [|n IH]; simpl; auto. Qed.
Lemma spaced_spaces n s : spaced s = true -> spaced (spaces n ++ s) = true.
Proof. destruct n; auto. Qed.

Lemma starts_word w s b i : word w -> spaced s = true ->
  starts_from b i (w ++ s) = ((if b then [i] else []) ++ starts_from false (i + char_count w) s)%list.
Proof.
  intros (Hw & Hf) Hs. revert b i Hw. induction w as [|c w IH]; intros b i Hw; [congruence|].
  inversion Hf as [|? ? (Hc & _) Hf']; subst. cbn [append starts_from char_count]. rewrite continuation_spec.
  destruct (ascii_dec c space) as [->|_]; [congruence|]. f_equal.
  destruct w as [|c' w]; cbn [append].
  - cbn [char_count]. destruct (continues_dec c); f_equal; lia.
  - change (String c' (w ++ s)) with (String c' w ++ s). rewrite IH by (auto; discriminate). cbn [List.app].
    destruct (continues_dec c); f_equal; lia.
Qed.
Lemma starts_spaces n : forall b i s, starts_from b i (spaces n ++ s) = starts_from (match n with O => b | _ => true end) (i + n) s.
Proof.
  induction n as [|n IH]; intros b i s; cbn [spaces append]; [rewrite Nat.add_0_r; auto|]. cbn [starts_from].
  destruct (ascii_dec " " space) as [_|Hn]; [|destruct Hn; reflexivity].
  destruct (continues_dec " ") as [Hc|_]; [exfalso; unfold continues in Hc; cbn in Hc; lia|]. rewrite IH. replace (S i + n) with (i + S n) by lia. destruct n; auto.
Qed.
Lemma starts_space b i s : starts_from b i (String " " s) = starts_from true (S i) s.
Proof. pose proof (starts_spaces 1 b i s) as Hs. cbn [spaces append] in Hs. rewrite Hs. f_equal. lia. Qed.

(** ** Cells *)

Definition row_of (k : nat) (ws : list string) : string := join " " (map (pad_right k) ws).
Definition columns (i k n : nat) : list nat := map (fun j => i + j * S k) (seq 0 n).

Lemma columns_S i k n : columns i k (S n) = i :: columns (i + S k) k n.
Proof.
  unfold columns. cbn [seq map]. f_equal; [lia|]. rewrite <- seq_shift, map_map. apply map_ext. intros j. lia.
Qed.

Lemma row_cons k w w' ws : row_of k (w :: w' :: ws) = w ++ spaces (k - char_count w) ++ String " " (row_of k (w' :: ws)).
Proof. unfold row_of. cbn [map join]. unfold pad_right at 1. rewrite app_assoc. reflexivity. Qed.
Lemma row_one k w : row_of k [w] = w ++ spaces (k - char_count w).
Proof. reflexivity. Qed.

Lemma words_row k ws s : Forall word ws -> spaced s = true -> words (row_of k ws ++ s) = (ws ++ words s)%list.
Proof.
  intros Hf Hs. induction Hf as [|w ws Hw Hf IH]; [reflexivity|]. destruct ws as [|w' ws].
  - rewrite row_one, app_assoc. rewrite words_word, words_spaces by (auto; apply spaced_spaces; auto). reflexivity.
  - rewrite row_cons, !app_assoc. rewrite words_word by (auto; apply spaced_spaces; reflexivity).
    rewrite words_spaces. change (w :: words (row_of k (w' :: ws) ++ s) = w :: ((w' :: ws) ++ words s))%list. rewrite <- IH. reflexivity.
Qed.

Lemma starts_row k ws : forall i s, Forall word ws -> Forall (fun w => char_count w <= k) ws ->
  starts_from true i (row_of k ws ++ String " " s) = (columns i k (length ws) ++ starts_from true (match ws with [] => S i | _ => i + length ws * S k end) s)%list.
Proof.
  induction ws as [|w ws IH]; intros i s Hf Hk; [apply starts_space|].
  inversion Hf as [|? ? Hw Hf']; subst. inversion Hk as [|? ? Hwk Hk']; subst. cbn [length]. rewrite columns_S. destruct ws as [|w' ws].
  - rewrite row_one, app_assoc. rewrite starts_word by (auto; apply spaced_spaces; auto). rewrite starts_spaces, starts_space.
    cbn. f_equal. f_equal. lia.
  - rewrite row_cons, !app_assoc. rewrite starts_word by (auto; apply spaced_spaces; auto). rewrite starts_spaces. cbn [append].
    rewrite starts_space, IH by auto. cbn [List.app]. f_equal. replace (S (i + char_count w + (k - char_count w))) with (i + S k) by lia.
    f_equal. f_equal. cbn [length]. lia.
Qed.
Lemma starts_row_end k ws i : Forall word ws -> Forall (fun w => char_count w <= k) ws ->
  starts_from true i (row_of k ws) = columns i k (length ws).
Proof.
  revert i. induction ws as [|w ws IH]; intros i Hf Hk; [reflexivity|].
  inversion Hf as [|? ? Hw Hf']; subst. inversion Hk as [|? ? Hwk Hk']; subst. cbn [length]. rewrite columns_S. destruct ws as [|w' ws].
  - rewrite row_one. rewrite starts_word; auto; [|rewrite <- (app_nil_r (spaces _)); apply spaced_spaces; auto].
    rewrite <- (app_nil_r (spaces _)), starts_spaces. reflexivity.
  - rewrite row_cons. rewrite starts_word by (auto; apply spaced_spaces; auto). rewrite starts_spaces.
    rewrite starts_space, IH by auto. cbn [List.app]. f_equal. f_equal. lia.
Qed.

(** The header: every cell is followed by a space. *)
Definition head_of (k : nat) (ws : list string) : string := join "" (map (fun w => pad_right k w ++ " ") ws).
Lemma head_cons k w ws : head_of k (w :: ws) = w ++ spaces (k - char_count w) ++ String " " (head_of k ws).
Proof.
  unfold head_of. cbn [map]. destruct ws; cbn [map join]; unfold pad_right at 1; rewrite ?app_assoc; reflexivity.
Qed.
Lemma words_head k ws : Forall word ws -> words (head_of k ws) = ws.
Proof.
  induction 1 as [|w ws Hw Hf IH]; [reflexivity|]. rewrite head_cons. rewrite words_word by (auto; apply spaced_spaces; auto).
  rewrite words_spaces. cbn. rewrite IH. reflexivity.
Qed.
Lemma starts_head k ws : forall i, Forall word ws -> Forall (fun w => char_count w <= k) ws ->
  starts_from true i (head_of k ws) = columns i k (length ws).
Proof.
  induction ws as [|w ws IH]; intros i Hf Hk; [reflexivity|].
  inversion Hf as [|? ? Hw Hf']; subst. inversion Hk as [|? ? Hwk Hk']; subst. cbn [length]. rewrite columns_S.
  rewrite head_cons. rewrite starts_word by (auto; apply spaced_spaces; auto). rewrite starts_spaces.
  rewrite starts_space, IH by auto. cbn [List.app]. f_equal. f_equal. lia.
Qed.

(** ** Lines *)

Definition one_line (s : string) : Prop := ~ In end_of_line (list_ascii_of_string s).
Lemma lines_nonempty s : exists l ls, lines s = l :: ls.
Proof. destruct s as [|c s]; simpl; eauto. destruct (ascii_dec c end_of_line); eauto. destruct (lines s); eauto. Qed.
Lemma lines_one s : one_line s -> lines s = [s].
Proof.
  induction s as [|c s IH]; intros Hs; [reflexivity|]. cbn [lines]. destruct (ascii_dec c end_of_line) as [->|_].
  - destruct Hs. left. reflexivity.
  - rewrite IH by (intros Hi; apply Hs; right; auto). reflexivity.
Qed.
Lemma lines_cons l s : one_line l -> lines (l ++ newline_text ++ s) = l :: lines s.
Proof.
  induction l as [|c l IH]; intros Hl; [reflexivity|]. cbn [lines append]. destruct (ascii_dec c end_of_line) as [->|_].
  - destruct Hl. left. reflexivity.
  - unfold newline_text in *. cbn [append] in *. rewrite IH by (intros Hi; apply Hl; right; auto). reflexivity.
Qed.

Lemma one_line_app s1 s2 : one_line s1 -> one_line s2 -> one_line (s1 ++ s2).
Proof. unfold one_line. intros H1 H2. rewrite chars_app, in_app_iff. tauto. Qed.
Lemma one_line_spaces n : one_line (spaces n).
Proof. induction n as [|n IH]; intros Hi; [destruct Hi|]. destruct Hi as [Hi|Hi]; [discriminate|auto]. Qed.
Lemma one_line_word w : word w -> one_line w.
Proof. intros (_ & Hf) Hi. rewrite Forall_forall in Hf. apply Hf in Hi. destruct Hi as (_ & Hi). auto. Qed.
Lemma one_line_pad k w : word w -> one_line (pad_right k w).
Proof. intros Hw. apply one_line_app; [apply one_line_word; auto|apply one_line_spaces]. Qed.
Lemma one_line_join sep ws : one_line sep -> Forall one_line ws -> one_line (join sep ws).
Proof.
  intros Hsep. induction 1 as [|w ws Hw Hf IH]; [intros []|]. destruct ws as [|w' ws]; auto.
  change (one_line (w ++ sep ++ join sep (w' :: ws))). repeat apply one_line_app; auto.
Qed.
