(** The texts of sets, positions, kernels and maps. *)
From Coq Require Import Arith Bool String Ascii NArith List Sorted Permutation Lia.
From Verif Require Import Base.Prelude Spec.Grammar Spec.Histories Spec.TableText Spec.FixedSize Spec.DebugText.
From Verif Require Import Model.BitSet Model.FixedMap Model.FixedSize Model.Position Model.TableText Model.ErrorText Model.DebugText.
From Verif Require Import Proofs.BitSetProofs Proofs.DataFinal Proofs.FixedSize Proofs.TextLayout.
Import ListNotations.
Open Scope string_scope.
Open Scope nat_scope.

(** ** Joined words *)

Fixpoint tails (sep : string) (l : list string) : string :=
  match l with [] => "" | x :: l' => sep ++ x ++ tails sep l' end.

Lemma join_cons sep x l : join sep (x :: l) = x ++ tails sep l.
Proof.
  revert x. induction l as [|y l IH]; intros x; [simpl; symmetry; apply app_nil_r|].
  change (join sep (x :: y :: l)) with (x ++ sep ++ join sep (y :: l)). rewrite IH. reflexivity.
Qed.

Lemma join_separated sep l : separated sep l (join sep l).
Proof. induction l as [|x [|y l] IH]; constructor; auto. Qed.

(** ** Reading a text from the left *)

Definition all (P : ascii -> Prop) (s : string) : Prop := Forall P (list_ascii_of_string s).
Definition stops_at (P : ascii -> Prop) (s : string) : Prop := match s with String c _ => ~ P c | EmptyString => True end.

Lemma span_eq P a : forall a' r r', all P a -> all P a' -> stops_at P r -> stops_at P r' -> a ++ r = a' ++ r' -> a = a' /\ r = r'.
Proof.
  induction a as [|c a IH]; intros [|c' a'] r r' Ha Ha' Hr Hr' He; simpl in *; auto.
  - subst r. inversion Ha'; subst. contradiction.
  - subst r'. inversion Ha; subst. contradiction.
  - injection He as -> He. inversion Ha; inversion Ha'; subst. destruct (IH a' r r') as (-> & ->); auto.
Qed.

Lemma decimal_digits n : all is_digit (decimal n).
Proof. apply (proj1 (proj2 (decimal_numeral n))). Qed.
Lemma decimal_same n m r r' : stops_at is_digit r -> stops_at is_digit r' -> decimal n ++ r = decimal m ++ r' -> n = m /\ r = r'.
Proof.
  intros Hr Hr' He. destruct (span_eq is_digit (decimal n) (decimal m) r r') as (Hd & Hrr); auto using decimal_digits. split; auto.
  apply (numeral_fun n m (decimal n)); [|rewrite Hd]; apply decimal_numeral.
Qed.

Definition listed (c : ascii) : Prop := is_digit c \/ c = "/"%char.

Ltac not_digit := cbn [stops_at String.append]; unfold is_digit; match goal with |- context [nat_of_ascii ?c] => let v := eval vm_compute in (nat_of_ascii c) in change (nat_of_ascii c) with v end; lia.
Ltac not_listed := cbn [stops_at String.append]; unfold listed; intros [Hx|Hx]; [revert Hx; not_digit|discriminate].

Lemma tails_stop l : stops_at is_digit (tails "/" l).
Proof. destruct l; cbn [tails]; [exact I|]. not_digit. Qed.

Lemma numbers_same l : forall l', join "/" (map decimal l) = join "/" (map decimal l') -> l = l'.
Proof.
  assert (Htails : forall l l', tails "/" (map decimal l) = tails "/" (map decimal l') -> l = l').
  { clear l. induction l as [|x l IH]; intros [|y l0] He; simpl in He; try discriminate; auto.
    injection He as He. apply decimal_same in He; auto using tails_stop. destruct He as (-> & He). f_equal. auto. }
  intros l'. destruct l as [|x l], l' as [|y l']; cbn [map]; rewrite ?join_cons; intros He; auto.
  - exfalso. destruct (decimal_numeral y) as (Hne & _). cbn [join] in He. destruct (decimal y); [congruence|discriminate].
  - exfalso. destruct (decimal_numeral x) as (Hne & _). cbn [join] in He. destruct (decimal x); [congruence|discriminate].
  - apply decimal_same in He; auto using tails_stop. destruct He as (-> & He). f_equal. auto.
Qed.

(** ** Sets *)

Lemma numbers_listed l : all listed (join "/" (map decimal l)).
Proof.
  assert (Hd : forall n, all listed (decimal n)).
  { intros n. unfold all. eapply Forall_impl; [|apply decimal_digits]. intros c Hc. left. auto. }
  assert (Ht : forall l, all listed (tails "/" (map decimal l))).
  { clear l. induction l as [|x l IH]; [constructor|]. cbn [map tails]. unfold all. rewrite !chars_app. apply Forall_app. split.
    - constructor; [right; reflexivity|constructor].
    - apply Forall_app. split; auto. apply Hd. }
  destruct l as [|x l]; cbn [map]; [constructor|]. rewrite join_cons. unfold all. rewrite chars_app. apply Forall_app.
  split; [apply Hd|apply Ht].
Qed.

Section Mode.
Context {bm : BuildMode}.

Lemma set_text n h s : within n h -> run_set (E := unit) n h = Ok s -> lists_set (members h) (show_vocab_set s).
Proof.
  intros Hw Hs. destruct (bitset_is_set (E := unit) n h Hw) as (s0 & Hs0 & _ & (Hsort & Hin) & _). rewrite Hs0 in Hs. injection Hs as <-.
  exists (bs_for_each s0), (map decimal (bs_for_each s0)). split; auto. split; auto. split; [|apply join_separated].
  generalize (bs_for_each s0). intros l. induction l; simpl; constructor; auto using decimal_numeral.
Qed.

Lemma set_texts n n' h h' s s' : within n h -> within n' h' -> run_set (E := unit) n h = Ok s -> run_set (E := unit) n' h' = Ok s' ->
  (show_vocab_set s = show_vocab_set s' <-> forall b, members h b <-> members h' b).
Proof.
  intros Hw Hw' Hs Hs'. destruct (bitset_is_set (E := unit) n h Hw) as (s0 & Hs0 & _ & (Hsort & Hin) & _). rewrite Hs0 in Hs. injection Hs as <-.
  destruct (bitset_is_set (E := unit) n' h' Hw') as (s1 & Hs1 & _ & (Hsort' & Hin') & _). rewrite Hs1 in Hs'. injection Hs' as <-.
  split.
  - intros He b. apply numbers_same in He. rewrite <- Hin, <- Hin', He. tauto.
  - intros Hm. unfold show_vocab_set. f_equal. f_equal. revert Hsort Hsort'.
    assert (Hext : forall b, In b (bs_for_each s0) <-> In b (bs_for_each s1)) by (intros b; rewrite Hin, Hin'; auto). revert Hext.
    generalize (bs_for_each s0), (bs_for_each s1). clear. intros l. induction l as [|x l IH]; intros [|y l'] Hext Hl Hl'; auto.
    + exfalso. apply (Hext y). left. auto.
    + exfalso. apply (Hext x). left. auto.
    + inversion Hl as [|? ? Hl1 Hl2]. inversion Hl' as [|? ? Hl1' Hl2']. subst. rewrite Forall_forall in Hl2, Hl2'.
      assert (x = y).
      { destruct (proj1 (Hext x) (or_introl eq_refl)) as [|Hx]; auto. destruct (proj2 (Hext y) (or_introl eq_refl)) as [|Hy]; auto.
        apply Hl2' in Hx. apply Hl2 in Hy. lia. }
      subst y. f_equal. apply IH; auto. intros b. specialize (Hext b). simpl in Hext. split; intros Hb.
      * destruct (proj1 Hext (or_intror Hb)) as [<-|]; auto. apply Hl2 in Hb. lia.
      * destruct (proj2 Hext (or_intror Hb)) as [<-|]; auto. apply Hl2' in Hb. lia.
Qed.

(** ** Positions and kernels *)

Definition sound (n : nat) (p : position) : Prop := exists h, within n h /\ run_set (E := unit) n h = Ok (follow_set p).

Lemma position_same n p p' r r' : sound n p -> sound n p' -> show_position p ++ r = show_position p' ++ r' -> p = p' /\ r = r'.
Proof.
  intros (h & Hw & Hh) (h' & Hw' & Hh') He. unfold show_position, show_rule_id in He. rewrite !app_assoc in He. cbn [String.append] in He.
  injection He as He. apply decimal_same in He; try not_digit. destruct He as (Hr & He). repeat (injection He as He).
  apply decimal_same in He; try not_digit. destruct He as (Hd & He). injection He as He.
  assert (Hst : forall x, stops_at listed (String "]" x)) by (intros x; not_listed).
  destruct (span_eq listed _ _ _ _ (numbers_listed _) (numbers_listed _) (Hst r) (Hst r') He) as (Hs & Ht).
  injection Ht as ->. split; auto. destruct p as [a b c], p' as [a' b' c']. simpl in *. f_equal; auto.
  destruct (bitset_is_set (E := unit) n h Hw) as (s0 & Hs0 & _ & _ & _ & Heq). rewrite Hs0 in Hh. injection Hh as <-.
  apply (proj1 (Heq h' c' Hw' Hh')). apply (set_texts n n h h' s0 c' Hw Hw' Hs0 Hh'). exact Hs.
Qed.

Lemma kernel_same n k k' : Forall (sound n) k -> Forall (sound n) k' -> show_kernel k = show_kernel k' -> k = k'.
Proof.
  assert (Hcut : forall a b c, a ++ b = a ++ c -> b = c) by (induction a as [|x a IH]; intros b c He; auto; injection He; auto).
  assert (Htails : forall k k', Forall (sound n) k -> Forall (sound n) k' -> tails ", " (map show_position k) ++ "}" = tails ", " (map show_position k') ++ "}" -> k = k').
  { clear k k'. induction k as [|p k IH]; intros [|p' k'] Hk Hk' He; cbn [map tails] in He; rewrite ?app_assoc in He; auto; try discriminate.
    apply Hcut in He. inversion Hk; inversion Hk'; subst. apply (position_same n) in He; auto. destruct He as (-> & He). f_equal. auto. }
  intros Hk Hk' He. unfold show_kernel in He. apply Hcut in He.
  destruct k as [|p k], k' as [|p' k']; cbn [map] in He; rewrite ?join_cons, ?app_assoc in He; auto; try discriminate.
  inversion Hk; inversion Hk'; subst. apply (position_same n) in He; auto. destruct He as (-> & He). f_equal. auto.
Qed.

Lemma insert_perm p ps : Permutation (p :: ps) (insert_position p ps).
Proof.
  induction ps as [|q ps IH]; simpl; auto. destruct (key_leb p q); auto. rewrite perm_swap. auto.
Qed.
Lemma sort_perm ps : Permutation ps (sort_positions ps).
Proof. induction ps as [|p ps IH]; simpl; auto. rewrite <- insert_perm. auto. Qed.

Lemma items_sound n its ps : Forall2 (item_position n) its ps -> Forall (sound n) (kernel_new ps).
Proof.
  intros Hf. unfold kernel_new. apply (Permutation_Forall (sort_perm ps)). induction Hf as [|it p its ps (Hw & _ & _ & Hr)]; constructor; auto.
  exists (it_follow it). auto.
Qed.

Lemma key_leb_le n it it' p q : item_position n it p -> item_position n it' q -> (key_leb p q = true <-> item_le it it').
Proof.
  intros (_ & Hr & Hd & _) (_ & Hr' & Hd' & _). unfold key_leb, item_le. rewrite <- Hr, <- Hr', <- Hd, <- Hd'.
  destruct (production_id p <? production_id q) eqn:Hlt; [apply Nat.ltb_lt in Hlt; intuition|]. apply Nat.ltb_ge in Hlt.
  destruct (production_id p =? production_id q) eqn:He; [apply Nat.eqb_eq in He; rewrite Nat.leb_le; lia|]. apply Nat.eqb_neq in He. split; [discriminate|lia].
Qed.

Definition here (r d : nat) (it : item) : bool := (it_rule it =? r) && (it_dot it =? d).

Lemma item_le_trans a b c : item_le a b -> item_le b c -> item_le a c.
Proof. unfold item_le. lia. Qed.
Lemma item_le_total a b : item_le a b \/ item_le b a.
Proof. unfold item_le. lia. Qed.

Lemma insert_items n it p its ps : item_position n it p -> StronglySorted item_le its -> Forall2 (item_position n) its ps ->
  exists its', Permutation (it :: its) its' /\ StronglySorted item_le its' /\
    (forall r d, filter (here r d) its' = filter (here r d) (it :: its)) /\ Forall2 (item_position n) its' (insert_position p ps).
Proof.
  intros Hp Hs Hf. induction Hf as [|it' q its ps Hq Hf IH]; simpl.
  - exists [it]. repeat split; auto. repeat constructor.
  - inversion Hs as [|? ? Hs1 Hs2]. subst. pose proof (key_leb_le n it it' p q Hp Hq) as Hle. destruct (key_leb p q) eqn:Hk.
    + exists (it :: it' :: its). split; [auto|]. split; [|split; [auto|constructor; auto]].
      assert (item_le it it') by tauto. constructor; auto. constructor; auto. eapply Forall_impl; [|exact Hs2].
      intros x Hx. eapply item_le_trans; eauto.
    + destruct (IH Hs1) as (its' & Hperm & Hsort & Hfil & Hpos). exists (it' :: its'). split; [|split; [|split]].
      * rewrite perm_swap. auto.
      * constructor; auto. apply (Permutation_Forall Hperm). constructor; auto. destruct (item_le_total it it'); auto.
        exfalso. assert (false = true) by tauto. discriminate.
      * intros r d. cbn [filter]. rewrite Hfil. cbn [filter]. destruct (here r d it') eqn:H1, (here r d it) eqn:H2; auto. exfalso.
        unfold here in H1, H2. apply andb_true_iff in H1, H2. rewrite !Nat.eqb_eq in H1, H2. assert (item_le it it') by (unfold item_le; lia).
        assert (false = true) by tauto. discriminate.
      * constructor; auto.
Qed.

Lemma sort_items n its ps : Forall2 (item_position n) its ps ->
  exists its', Permutation its its' /\ StronglySorted item_le its' /\
    (forall r d, filter (here r d) its' = filter (here r d) its) /\ Forall2 (item_position n) its' (sort_positions ps).
Proof.
  induction 1 as [|it p its ps Hp Hf (its1 & Hperm & Hsort & Hfil & Hpos)].
  - exists []. repeat split; auto. constructor. constructor.
  - destruct (insert_items n it p its1 (sort_positions ps) Hp Hsort Hpos) as (its2 & Hperm2 & Hsort2 & Hfil2 & Hpos2).
    exists its2. split; [rewrite <- Hperm2; auto|]. split; auto. split; auto. intros r d. rewrite Hfil2. cbn [filter]. rewrite Hfil. reflexivity.
Qed.

Lemma position_text n it p : item_position n it p -> item_text it (show_position p).
Proof.
  intros (Hw & Hr & Hd & Hs). exists (decimal (production_id p)), (decimal (pos p)), (show_vocab_set (follow_set p)).
  rewrite Hr, Hd. split; [apply decimal_numeral|]. split; [apply decimal_numeral|]. split; [apply (set_text n); auto|].
  unfold show_position, show_rule_id. rewrite Hr, Hd, !app_assoc. reflexivity.
Qed.

Lemma kernel_text n its ps : Forall2 (item_position n) its ps -> lists_items its (show_kernel (kernel_new ps)).
Proof.
  intros Hf. destruct (sort_items n its ps Hf) as (its' & Hperm & Hsort & Hfil & Hpos).
  exists its', (map show_position (kernel_new ps)), (join ", " (map show_position (kernel_new ps))).
  split; auto. split; auto. split; [exact Hfil|]. split; [|split; [apply join_separated|reflexivity]]. unfold kernel_new.
  clear -Hpos. induction Hpos; simpl; constructor; eauto using position_text.
Qed.

Lemma kernel_texts n its its' ps ps' : Forall2 (item_position n) its ps -> Forall2 (item_position n) its' ps' ->
  (show_kernel (kernel_new ps) = show_kernel (kernel_new ps') <-> kernel_new ps = kernel_new ps').
Proof.
  intros Hf Hf'. split; [|congruence]. apply (kernel_same n); eapply items_sound; eauto.
Qed.

End Mode.

(** ** Maps *)

Section Maps.
Context {E K V : Type} {lab : Label K} {dec : EqDec K}.
Variable show_key : K -> string.
Variable show_value : V -> string.

Lemma fixed_map_text (from_id : nat -> outcome E K) (Hinj : forall k k' : K, label_id k = label_id k' -> k = k')
  cap (constructor : nat -> V) (ws : list (K * V)) keys :
  Forall (fun w : K * V => label_id (fst w) < cap) ws -> mapM from_id (seq 0 cap) = Ok keys -> map label_id keys = seq 0 cap ->
  exists m text, run_writes (E := E) cap constructor ws = Ok m /\ fm_debug (E := E) (K := K) from_id show_key show_value m = Ok text /\ lists_entries show_key show_value (map (fun k => (k, match last_write k ws with Some v => v | None => constructor (label_id k) end)) keys) text.
Proof.
  intros Hws Hkeys Hids. destruct (fixed_map_ok (E := E) Hinj cap constructor ws Hws) as (m & Hm & Hget).
  set (value := fun k => match last_write k ws with Some v => v | None => constructor (label_id k) end).
  assert (Hlen : List.length m = cap).
  { clear -Hm. unfold run_writes in Hm. assert (H0 : List.length (fm_new cap constructor) = cap) by (unfold fm_new; rewrite map_length, seq_length; auto).
    revert Hm H0. generalize (fm_new cap constructor). induction ws as [|w ws IH]; intros m0 Hm H0; simpl in Hm; [injection Hm as <-; auto|].
    unfold fm_get_mut_assign at 1 in Hm. unfold store in Hm. destruct (label_id (fst w) <? List.length m0) eqn:Hb; simpl in Hm; [|discriminate].
    eapply IH; eauto. rewrite list_set_len. auto. }
  assert (Hparts : forall ids ks, (forall i, In i ids -> i < cap) -> mapM from_id ids = Ok ks -> map label_id ks = ids ->
    mapM (fun id => k <- from_id id ;; v <- fm_get m k ;; Ok (show_key k ++ ": " ++ show_value v)) ids =
    Ok (map (fun e => show_key (fst e) ++ ": " ++ show_value (snd e)) (map (fun k => (k, value k)) ks))).
  { induction ids as [|i ids IH]; intros ks Hb Hks Hl; simpl in Hks; [injection Hks as <-; reflexivity|].
    destruct (from_id i) as [k| | |] eqn:Hk; simpl in Hks; try discriminate. destruct (mapM from_id ids) as [ks'| | |] eqn:Hks'; simpl in Hks; try discriminate.
    injection Hks as <-. simpl in Hl. injection Hl as Hl1 Hl2. cbn [mapM]. rewrite Hk. cbn [bind].
    rewrite (proj1 (Hget k)) by (rewrite Hl1; apply Hb; left; auto). cbn [bind]. rewrite (IH ks'); auto. intros j Hj. apply Hb. right. auto. }
  exists m. unfold fm_debug. rewrite Hlen. rewrite (Hparts (seq 0 cap) keys); auto; [|intros i Hi; apply in_seq in Hi; lia]. simpl.
  eexists. split; [exact Hm|]. split; [reflexivity|]. eexists. split; [apply join_separated|reflexivity].
Qed.

Lemma sparse_map_text {bm : BuildMode} (Hinj : forall k k' : K, label_id k = label_id k' -> k = k') cap (ops : list (map_op K V)) m :
  Forall (fun o => label_id (op_key o) < cap) ops -> run_ops (E := E) cap ops = Ok m ->
  lists_entries show_key show_value (contents ops) (sm_debug show_key show_value m).
Proof.
  intros Hops Hm. destruct (sparse_map_is_map (E := E) Hinj cap ops Hops) as (m' & Hm' & Hit & _). rewrite Hm' in Hm. injection Hm as <-.
  rewrite <- Hit. eexists. split; [apply join_separated|reflexivity].
Qed.
End Maps.

Lemma byte_keys {bm : BuildMode} {E} cap : cap < 256 -> mapM (u8_from_id (E := E)) (seq 0 cap) = Ok (seq 0 cap).
Proof.
  intros Hc. assert (H : forall n i, i + n < 256 -> mapM (u8_from_id (E := E)) (seq i n) = Ok (seq i n)).
  { induction n as [|n IH]; intros i Hi; auto. cbn [seq mapM]. rewrite (u8_back i) by lia. simpl. rewrite IH by lia. reflexivity. }
  apply H. lia.
Qed.

Lemma byte_map_panics {E V} (show_key : nat -> string) (show_value : V -> string) (m : list V) : 256 <= List.length m ->
  exists why, fm_debug (E := E) (u8_from_id (bm := true)) show_key show_value m = Panic why.
Proof.
  intros Hm. unfold fm_debug. exists "id < u8::MAX as usize".
  assert (H : forall n i, i <= 255 -> 255 < i + n -> i + n <= List.length m ->
    mapM (fun id => k <- u8_from_id (bm := true) (E := E) id ;; v <- fm_get m k ;; Ok (show_key k ++ ": " ++ show_value v)) (seq i n) = Panic "id < u8::MAX as usize").
  { induction n as [|n IH]; intros i H1 H2 H3; [lia|]. cbn [seq mapM]. destruct (Nat.eq_dec i 255) as [->|Hi]; [reflexivity|].
    rewrite (u8_back (bm := true) i) by lia. cbn [bind]. unfold fm_get at 1, index. change (label_id i) with i.
    destruct (nth_error m i) eqn:Hn; [|apply nth_error_None in Hn; lia]. cbn [bind]. rewrite IH by lia. reflexivity. }
  rewrite H by lia. reflexivity.
Qed.

(** ** Examples *)

Lemma same_map : exists m m' : sparse_map nat nat,
  run_ops (bm := true) (E := unit) 2 [MTryInsert 0 5; MTryInsert 1 6] = Ok m /\
  run_ops (bm := true) (E := unit) 2 [MTryInsert 1 6; MTryInsert 0 5] = Ok m' /\
  (forall k, k < 2 -> sm_get (E := unit) m k = sm_get m' k) /\ sm_debug decimal decimal m <> sm_debug decimal decimal m'.
Proof.
  eexists; eexists. split; [vm_compute; reflexivity|]. split; [vm_compute; reflexivity|]. split; [|vm_compute; discriminate].
  intros [|[|k]] Hk; [reflexivity|reflexivity|lia].
Qed.

Lemma items_shown : exists ps, Forall2 (item_position (bm := true) 70)
  [{| it_rule := 11; it_dot := 2; it_follow := SSet 10 SNew |};
   {| it_rule := 3; it_dot := 0; it_follow := SClear 5 (SSet 64 (SSet 5 (SSet 2 SNew))) |};
   {| it_rule := 3; it_dot := 0; it_follow := SNew |}] ps /\
  show_kernel (kernel_new ps) = "{RuleId(3) at 0 [2/64], RuleId(3) at 0 [], RuleId(11) at 2 [10]}".
Proof.
  exists (map (fun it => mk_position (it_rule it) (it_dot it) (match run_set (bm := true) (E := unit) 70 (it_follow it) with Ok s => s | _ => bs_new 0 end))
    [{| it_rule := 11; it_dot := 2; it_follow := SSet 10 SNew |};
     {| it_rule := 3; it_dot := 0; it_follow := SClear 5 (SSet 64 (SSet 5 (SSet 2 SNew))) |};
     {| it_rule := 3; it_dot := 0; it_follow := SNew |}]).
  split; [|vm_compute; reflexivity]. unfold map.
  apply Forall2_cons; [|apply Forall2_cons; [|apply Forall2_cons; [|constructor]]]; (split; [cbn [within it_follow]; repeat split; lia|]);
    (split; [reflexivity|]); (split; [reflexivity|]); vm_compute; reflexivity.
Qed.
