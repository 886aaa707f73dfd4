(** How many reductions a parser makes without its stack getting lower than it
    was: a number that depends on the table alone.  So the steps of a parse are
    linear in the length of the input. *)
From Coq Require Import Arith Bool String NArith List Lia Permutation.
From Verif Require Import Base.Prelude Spec.Grammar Model.Error.
From Verif Require Import Model.BitSet Model.FixedMap Model.Vocabulary Model.IndexedGrammar Model.FirstMap.
From Verif Require Import Model.Position Model.Closure Model.LRTable Model.ParseSimulator.
From Verif Require Import Proofs.WP Proofs.BitSetProofs Proofs.FixedMapProofs Proofs.VocabProofs.
From Verif Require Import Proofs.IndexedProofs Proofs.IndexedBuild Proofs.IndexedMain Proofs.FirstProofs.
From Verif Require Import Proofs.ClosureProofs Proofs.ItemSets Proofs.TableProofs Proofs.TableBuild Proofs.Machine.
From Verif Require Import Proofs.MixedRuns Proofs.Amortize Proofs.ParserFinal.
Import ListNotations.

Lemma fin_bound {A} (l : list A) (P : A -> nat -> Prop) :
  (forall x n m, n <= m -> P x n -> P x m) -> (forall x, In x l -> exists n, P x n) -> exists n, forall x, In x l -> P x n.
Proof.
  intros Hm. induction l as [|a l IH]; intros Hl; [exists 0; intros x []|].
  destruct IH as (n & Hn); [simpl in Hl; auto|]. destruct (Hl a) as (m & Hm'); [left; auto|].
  exists (n + m). intros x [<-|Hx]; [eapply Hm; [|eauto]; lia|eapply Hm; [|eapply Hn; auto]; lia].
Qed.

Section Linear.
Context {T L : Type} `{EqDec T}.
Variable g : indexed_grammar T L.
Hypothesis Hwf : wf_ig g.
Hypothesis Heps : eps_trailing (igram g).
Variable F : first_table.
Hypothesis HF : FInv g F.
Variable t : lr_table.
Variable ks : list kernel.
Variable acts : nat -> aug nat -> option action.
Variable gts : nat -> nat -> option nat.
Hypothesis Hok : table_ok g F t ks acts gts.

Local Notation vstk := (vstk acts gts).
Local Notation rstep := (rstep g acts gts).
Local Notation rcount := (rcount g acts gts).

(** Moves between states. *)
Definition succ (s : nat) (X : inode) : option nat :=
  match X with
  | Terminal a => match acts s a with Some (Shift s') => Some s' | _ => None end
  | Production l => if l =? 0 then None else gts s l
  end.

Lemma vstk_cons s X tr B : vstk ((s, X, tr) :: B) <-> vstk B /\ succ (top B) X = Some s.
Proof.
  split.
  - inversion 1 as [|? ? a ? Hv Ha|? ? l ? Hv Ha Hl]; subst; simpl; [rewrite Ha; auto|].
    apply Nat.eqb_neq in Hl. rewrite Hl. auto.
  - intros (Hv & Hs). destruct X as [a|l]; simpl in Hs.
    + destruct (acts (top B) a) as [[s'|j|]|] eqn:Ha; try discriminate. injection Hs as ->. constructor; auto.
    + destruct (l =? 0) eqn:Hl; [discriminate|]. constructor; auto. apply Nat.eqb_neq. auto.
Qed.

Definition symbols : list inode := flat_map irhs (rules g).

Lemma succ_symbol B X s : vstk B -> succ (top B) X = Some s -> In X symbols.
Proof.
  intros Hv Hs. assert (Hn : exists i p, nextn g i p = Some X).
  { destruct (vstk_rep g F t ks acts gts Hok B Hv) as (K & HK & _). destruct X as [a|l]; simpl in Hs.
    - destruct (acts (top B) a) as [[s'|j|]|] eqn:Ha; try discriminate.
      destruct (to_shift _ _ _ _ _ _ Hok _ _ _ _ HK Ha) as (_ & i & p & _ & Hn). eauto.
    - destruct (l =? 0); [discriminate|]. destruct (to_goto _ _ _ _ _ _ Hok _ _ _ _ HK Hs) as (_ & i & p & _ & Hn). eauto. }
  destruct Hn as (i & p & Hn). apply (nextn_iff g Heps) in Hn as (ns & Hs' & _).
  assert (Hin : In X (rnodes g i)) by (rewrite <- (firstn_skipn p (rnodes g i)), Hs'; apply in_or_app; simpl; auto).
  apply rnodes_in in Hin as (r & Hr & Hin). apply in_flat_map. exists r. split; auto. eapply nth_error_In; eauto.
Qed.

Lemma top_bound B : vstk B -> top B < num_states t.
Proof.
  intros Hv. destruct (vstk_rep g F t ks acts gts Hok B Hv) as (K & HK & _). rewrite (to_states _ _ _ _ _ _ Hok).
  apply nth_error_Some. congruence.
Qed.

(** Stacks that stand for all, in what state is on top. *)
Definition closed_under (W : list (list entry)) : Prop :=
  forall B X s, In B W -> In X symbols -> succ (top B) X = Some s -> In s (map top W).

Lemma closed_dec W : closed_under W \/ exists B X s, In B W /\ In X symbols /\ succ (top B) X = Some s /\ ~ In s (map top W).
Proof.
  assert (Hp : forall l : list (list entry * inode), (forall B X s, In (B, X) l -> succ (top B) X = Some s -> In s (map top W)) \/
     exists B X s, In (B, X) l /\ succ (top B) X = Some s /\ ~ In s (map top W)).
  { induction l as [|[B X] l [IH|(B' & X' & s & H1 & H2 & H3)]]; [left; intros ? ? ? []| |right; exists B', X', s; simpl; auto].
    destruct (succ (top B) X) as [s|] eqn:Hs; [destruct (in_dec Nat.eq_dec s (map top W)) as [Hi|Hi]|].
    - left. intros B' X' s' [Hx|Hx] Hs'; [|eauto]. injection Hx as <- <-. congruence.
    - right. exists B, X, s. simpl. auto.
    - left. intros B' X' s' [Hx|Hx] Hs'; [|eauto]. injection Hx as <- <-. congruence. }
  destruct (Hp (list_prod W symbols)) as [Hc|(B & X & s & H1 & H2 & H3)].
  - left. intros B X s HB HX. apply Hc. apply in_prod; auto.
  - right. exists B, X, s. apply in_prod_iff in H1 as (H1 & H1'). auto.
Qed.

Lemma representatives_aux d W : Forall vstk W -> NoDup (map top W) -> In [] W -> num_states t - length W <= d ->
  exists W', Forall vstk W' /\ In [] W' /\ closed_under W'.
Proof.
  revert W. induction d as [|d IH]; intros W HW Hnd H0 Hd; (destruct (closed_dec W) as [Hc|(B & X & s & H1 & H2 & H3 & H4)]; [eauto|]);
    rewrite Forall_forall in HW; pose (B' := (s, X, Leaf 0) :: B : list entry);
    assert (HB : vstk B') by (apply vstk_cons; auto);
    assert (HW' : Forall vstk (B' :: W)) by (constructor; auto; apply Forall_forall; auto);
    assert (Hnd' : NoDup (map top (B' :: W))) by (constructor; auto);
    assert (Hle : length (B' :: W) <= num_states t)
      by (rewrite <- (map_length top), <- (seq_length (num_states t) 0); apply NoDup_incl_length; auto;
          intros x Hx; apply in_map_iff in Hx as (C & <- & HC); apply in_seq; split; [lia|]; simpl; apply top_bound;
          rewrite Forall_forall in HW'; auto);
    simpl in Hle.
  - lia.
  - apply (IH (B' :: W)); auto; [right; auto|simpl; lia].
Qed.

Lemma representatives : exists W, Forall vstk W /\ In [] W /\ closed_under W.
Proof.
  apply (representatives_aux (num_states t) [[]]); [repeat constructor|repeat constructor; simpl; tauto|simpl; auto|lia].
Qed.

Lemma represented W : Forall vstk W -> In [] W -> closed_under W -> forall B, vstk B -> exists B', In B' W /\ vstk B' /\ top B' = top B.
Proof.
  intros HW H0 Hc B. rewrite Forall_forall in HW. induction B as [|[[s X] tr] B IH]; intros Hv; [exists []; auto using vs_nil|].
  apply vstk_cons in Hv as (Hv & Hs). destruct (IH Hv) as (B' & H1 & H2 & H3).
  pose proof (succ_symbol _ _ _ Hv Hs) as HX. rewrite <- H3 in Hs. specialize (Hc _ _ _ H1 HX Hs). apply in_map_iff in Hc as (C & HC & Hin).
  exists C. split; auto.
Qed.

(** Reductions that leave at least [h] entries on the stack. *)
Inductive rabove (a : aug nat) (h : nat) : nat -> list entry -> list entry -> Prop :=
| ra_refl stk : rabove a h 0 stk stk
| ra_step n s1 s2 s3 : rstep a s1 s2 -> h <= length s2 -> rabove a h n s2 s3 -> rabove a h (S n) s1 s3.

Lemma rabove_count a h n s1 s2 : rabove a h n s1 s2 -> rcount a n s1 s2.
Proof. induction 1; econstructor; eauto. Qed.

Definition stt (e : entry) : nat := fst (fst e).

Lemma top_app (U U' B B' : list entry) : map stt U = map stt U' -> top B = top B' -> top (U ++ B) = top (U' ++ B').
Proof. destruct U as [|[[s X] tr] U], U' as [|[[s' X'] tr'] U']; simpl; try discriminate; auto. unfold stt at 1 3. simpl. congruence. Qed.

(** What is above the lowest entries does not depend on them but for the state on top of them. *)
Lemma transfer a h n s1 s2 : rabove a h n s1 s2 -> forall U B U' B', s1 = U ++ B -> h = S (length B) -> map stt U = map stt U' -> top B = top B' ->
  exists s2', rcount a n (U' ++ B') s2'.
Proof.
  induction 1 as [stk|n s1 s2 s3 Hs Hh Hr IH]; intros U B U' B' He Hh' HU HB; [eexists; constructor|].
  subst s1. destruct Hs as (j & r & po & re & s & A & Bq & C & D & Eq & Hs2). subst s2. simpl in Hh.
  assert (Hlen : length (U ++ B) = length po + length re) by (rewrite C; apply app_length). rewrite app_length in Hlen.
  assert (Hsplit : exists V, U = po ++ V /\ re = V ++ B).
  { exists (skipn (length po) U). assert (HU' : U = firstn (length po) U ++ skipn (length po) U) by (symmetry; apply firstn_skipn).
    rewrite HU' in C at 1. rewrite <- app_assoc in C.
    assert (Hl : length (firstn (length po) U) = length po) by (apply firstn_length_le; lia).
    destruct (app_inv_length _ _ _ _ C Hl) as (H1 & H2). split; auto. rewrite <- H1 at 1. auto. }
  destruct Hsplit as (V & -> & ->). rewrite map_app in HU.
  assert (HU' : U' = firstn (length po) U' ++ skipn (length po) U') by (symmetry; apply firstn_skipn).
  assert (HlU : length U' = length po + length V) by (rewrite <- (map_length stt U'), <- HU, app_length, !map_length; auto).
  assert (Hl : length (firstn (length po) U') = length po) by (apply firstn_length_le; lia).
  rewrite HU', map_app in HU. apply app_inv_length in HU as (H1 & H2); [|rewrite !map_length; auto].
  set (po' := firstn (length po) U') in *. set (V' := skipn (length po) U') in *.
  pose (e' := (s, Production (isymbol r), Node j (rev (trees po'))) : entry).
  destruct (IH ((s, Production (isymbol r), Node j (rev (trees po))) :: V) B (e' :: V') B') as (s3' & Hc); auto; [simpl; f_equal; auto|].
  exists s3'. apply (rc_step _ _ _ _ _ _ ((e' :: V') ++ B')); auto. exists j, r, po', (V' ++ B'), s.
  split; [rewrite HU'; rewrite <- A; f_equal; symmetry; apply top_app; auto; rewrite !map_app; congruence|]. split; auto.
  split; [rewrite HU', <- app_assoc; auto|]. split; [congruence|]. split; [rewrite <- Eq; f_equal; symmetry; apply top_app; auto|reflexivity].
Qed.

Theorem above_bound As : exists K, forall a n s1 s2, In a As -> vstk s1 -> rabove a (length s1) n s1 s2 -> n <= K.
Proof.
  destruct representatives as (W & HW & H0 & Hc). pose proof (represented W HW H0 Hc) as Hrep. rewrite Forall_forall in HW.
  destruct (fin_bound (list_prod W symbols) (fun BX K => forall s, succ (top (fst BX)) (snd BX) = Some s -> forall a, In a As -> forall n s2,
      rcount a n ((s, snd BX, Leaf 0) :: fst BX) s2 -> n <= K)) as (K & HK).
  - intros [B X] n m Hnm HP s Hs a Ha k s2 Hk. specialize (HP s Hs a Ha k s2 Hk). lia.
  - intros [B X] Hin. simpl. apply in_prod_iff in Hin as (HB & HX). destruct (succ (top B) X) as [s|] eqn:Hs; [|exists 0; discriminate].
    assert (Hv : vstk ((s, X, Leaf 0) :: B)) by (apply vstk_cons; auto).
    destruct (counts_bound g Hwf Heps F HF t ks acts gts Hok As _ Hv) as (N & HN). exists N. intros s' Hs'. injection Hs' as <-. exact HN.
  - destruct (counts_bound g Hwf Heps F HF t ks acts gts Hok As [] (vs_nil _ _)) as (N & HN).
    exists (K + N). intros a n s1 s2 Ha Hv Hr. destruct s1 as [|[[s X] tr] B].
    + apply rabove_count in Hr. apply (HN a Ha) in Hr. lia.
    + pose proof Hv as Hv'. apply vstk_cons in Hv' as (HvB & Hs). destruct (Hrep B HvB) as (B' & HB' & HvB' & HtB).
      destruct (transfer _ _ _ _ _ Hr [(s, X, tr)] B [(s, X, Leaf 0)] B') as (s2' & Hcn); auto.
      assert (Hin : In (B', X) (list_prod W symbols)) by (apply in_prod; [auto|exact (succ_symbol B X s HvB Hs)]).
      rewrite <- HtB in Hs. pose proof (HK (B', X) Hin s Hs a Ha n s2' Hcn). lia.
Qed.

(** Terminals of the grammar, by id, and the end of the stream. *)
Definition terminals : list (aug nat) := EndOfStream :: map Token (seq 0 (length (id_map (ivocab g)))).

Lemma in_terminals a : a <> Epsilon -> label_id a < vocab_size (ivocab g) -> In a terminals.
Proof.
  destruct a as [i| |]; intros Hn Hl; [|congruence|left; auto].
  right. apply in_map, in_seq. unfold vocab_size, label_id in Hl. simpl in Hl. lia.
Qed.

Local Notation mstep := (mstep g acts gts).
Definition mheight (c : list entry * list nat) : nat := length (fst c).
Definition mleft (c : list entry * list nat) : nat := length (snd c).
Definition mvalid (c : list entry * list nat) : Prop := vstk (fst c).
Definition mred (c c' : list entry * list nat) : Prop := rstep (la (snd c)) (fst c) (fst c') /\ snd c' = snd c.
Definition mread (c c' : list entry * list nat) : Prop := exists x s, acts (top (fst c)) (Token x) = Some (Shift s) /\
  snd c = x :: snd c' /\ fst c' = (s, Terminal (Token x), Leaf x) :: fst c.

Lemma rstep_length a s1 s2 : rstep a s1 s2 -> length s2 <= S (length s1).
Proof. intros (j & r & po & re & s & A & Bq & -> & D & Eq & ->). simpl. rewrite app_length. lia. Qed.

Lemma mstep_cases c c' : mstep c c' -> mred c c' \/ mread c c'.
Proof. intros [stk x w s Ha|stk w stk' Hr]; [right; exists x, s; auto|left; split; auto]. Qed.

Lemma rabove_snoc a h n s1 s2 s3 : rabove a h n s1 s2 -> rstep a s2 s3 -> h <= length s3 -> rabove a h (S n) s1 s3.
Proof. induction 1 as [|n s1 s2 s4 Hs Hh Hr IH]; intros H1 H2; [eapply ra_step; eauto; constructor|]. eapply ra_step; eauto. Qed.

Lemma machine_bound : exists K, forall n c c', mvalid c -> run _ mred mread n c c' -> n <= bound K (mheight c) (mleft c).
Proof.
  destruct (above_bound terminals) as (K & HK). exists K. intros n c c' Hv Hr.
  apply (run_bound _ mheight mleft mvalid mred mread) with (c' := c'); auto; clear n c c' Hv Hr.
  - intros c c' Hv (Hr & He). split; [eapply (rstep_vstk g Hwf F t ks acts gts Hok); eauto|]. split; [eapply rstep_length; eauto|]. unfold mleft. congruence.
  - intros c c' Hv (x & s & Ha & H1 & H2). unfold mvalid, mheight, mleft. rewrite H1, H2. simpl. split; [apply vs_shift; auto|auto].
  - intros n c c' Hv Ha. assert (Hr : rabove (la (snd c)) (mheight c) n (fst c) (fst c') /\ snd c' = snd c).
    { clear Hv. remember (mheight c) as h eqn:Hh0. clear Hh0. induction Ha as [c|n c c' c'' Ha (IH & He) (Hr & He') Hh]; [split; [constructor|auto]|].
      split; [|congruence]. rewrite He in Hr. eapply rabove_snoc; eauto. }
    destruct Hr as (Hr & _). destruct n as [|n]; [lia|]. eapply HK; [|exact Hv|exact Hr].
    inversion Hr as [|? ? s2 ? (j & r & po & re & s & A & _) _ _]; subst. apply in_terminals; [destruct (snd c); discriminate|].
    eapply (act_bound g Hwf Heps F HF t ks acts gts Hok); eauto.
Qed.
End Linear.

Section Simulator.
Context {bm : BuildMode} {T L : Type} `{EqDec T} `{EqDec L}.
Variable ig : indexed_grammar T L.
Hypothesis Hwf : wf_ig ig.
Hypothesis Heos : no_eos (igram ig).
Hypothesis Heps : eps_trailing (igram ig).
Variable F : first_table.
Hypothesis HF : FInv ig F.
Variables (t : lr_table) (ks : list kernel) (acts : nat -> aug nat -> option action) (gts : nat -> nat -> option nat).
Hypothesis Hok : table_ok ig F t ks acts gts.
Local Notation p := (mk_parser ig t).

Lemma diverge_run E fuel c st : simrel ig acts gts c st -> while_loop fuel (@parse_step bm T L _ E p) st = Diverge ->
  exists c', run _ (mred ig acts gts) (mread acts) fuel c c'.
Proof.
  revert c st. induction fuel as [|fuel IH]; intros c st Hrel Hd; [eexists; constructor|]. simpl in Hd.
  pose proof (sim_step (E := E) ig Hwf Heos Heps F HF t ks acts gts Hok _ _ Hrel) as Hst.
  destruct (parse_step p st) as [[st'|b]|e|why|]; try tauto; try discriminate.
  destruct Hst as (c' & Hs & Hrel'). destruct (IH _ _ Hrel' Hd) as (c'' & Hr). exists c''.
  destruct (mstep_cases _ _ _ _ _ Hs); [eapply run_reduce|eapply run_read]; eauto.
Qed.

Theorem parse_stream_linear : exists C, forall E w fuel, C * S (length w) <= fuel -> exists b, @parse_stream bm T L _ E fuel p w = Ok b.
Proof.
  destruct (machine_bound ig Hwf Heps F HF t ks acts gts Hok) as (K & HK). exists (S (S K * (K + 3))). intros E w fuel Hf.
  destruct (parse_stream_exact (E := E) ig Hwf Heos Heps F HF t ks acts gts Hok w) as (n & b & c & Hn & _).
  exists b. rewrite Hn. destruct (n <? fuel) eqn:Hlt; auto. exfalso. specialize (Hn fuel). rewrite Hlt in Hn.
  destruct (diverge_run E fuel ([], map (id_of ig) w) ([root_state], [], w)) as (c' & Hr); auto.
  { split; [apply vs_nil|]. auto. }
  apply HK in Hr; [|apply vs_nil]. unfold bound, mheight, mleft in Hr. simpl fst in Hr. simpl snd in Hr. rewrite map_length in Hr.
  cbn [length] in Hr. nia.
Qed.
End Simulator.
