(** Every token of the vocabulary occurs in a rule and is shifted in some state. *)
From Coq Require Import Arith Bool String NArith List Lia Permutation.
From Verif Require Import Base.Prelude Spec.Grammar Spec.Validity Spec.States Model.Error.
From Verif Require Import Model.BitSet Model.FixedMap Model.Vocabulary Model.IndexedGrammar Model.FirstMap.
From Verif Require Import Model.Position Model.Closure Model.LRTable.
From Verif Require Import Proofs.WP Proofs.BitSetProofs Proofs.VocabProofs.
From Verif Require Import Proofs.IndexedProofs Proofs.IndexedBuild Proofs.IndexedMain Proofs.FirstProofs.
From Verif Require Import Proofs.ClosureProofs Proofs.ItemSets.
From Verif Require Import Proofs.TableProofs Proofs.TableBuild Proofs.ParserFinal Proofs.LR1Final Proofs.TableFinal Proofs.StateMapFinal.
Import ListNotations.

(** ** In a rule *)

Section Used.
Context {bm : BuildMode} {T L : Type} `{EqDec T} `{EqDec L}.
Local Notation E := (lr_error T L).

Definition sized (v : vocab T) : Prop := length (token_map v) = length (id_map v).

(** [v'] is [v] and tokens satisfying [P]. *)
Definition grows (v v' : vocab T) (P : nat -> Prop) : Prop :=
  sized v' /\ forall k, k < length (id_map v') -> k < length (id_map v) \/ P k.

Lemma grows_refl v P : sized v -> grows v v P.
Proof. split; auto. Qed.
Lemma grows_trans v1 v2 v3 (P Q R : nat -> Prop) : grows v1 v2 P -> grows v2 v3 Q -> (forall k, P k -> R k) -> (forall k, Q k -> R k) -> grows v1 v3 R.
Proof. intros (S1 & G1) (S2 & G2) H1 H2. split; auto. intros k Hk. apply G2 in Hk as [Hk|Hk]; auto. apply G1 in Hk as [Hk|Hk]; auto. Qed.

Lemma map_accum_grows {A B} (f : vocab T -> A -> outcome E (vocab T * B)) (P : B -> nat -> Prop) :
  (forall v a v' b, f v a = Ok (v', b) -> sized v -> grows v v' (P b)) ->
  forall l v v' bs, map_accumM f v l = Ok (v', bs) -> sized v -> grows v v' (fun k => exists b, In b bs /\ P b k).
Proof.
  intros Hf. induction l as [|a l IH]; intros v v' bs Hm Hv; cbn [map_accumM] in Hm.
  - injection Hm as <- <-. apply grows_refl; auto.
  - destruct (f v a) as [(v1 & b)|e|w|] eqn:Ha; cbn [bind] in Hm; try discriminate.
    destruct (map_accumM f v1 l) as [(v2 & bs')|e|w|] eqn:Hl; cbn [bind] in Hm; try discriminate. injection Hm as <- <-.
    pose proof (Hf _ _ _ _ Ha Hv) as G1. pose proof (IH _ _ _ Hl (proj1 G1)) as G2.
    eapply grows_trans; [exact G1|exact G2| |].
    + intros k Hk. exists b. split; [left|]; auto.
    + intros k (b' & Hi & Hk). exists b'. split; [right|]; auto.
Qed.

Lemma index_node_grows lm v nd v' nd' : index_node lm v nd = Ok (v', nd') -> sized v -> grows v v' (fun k => nd' = Terminal (Token k)).
Proof.
  intros Hi Hv. destruct nd as [a|l]; cbn [index_node] in Hi.
  - destruct a as [t| |]; cbn [get_id_or_insert] in Hi; [|injection Hi as <- <-; apply grows_refl; auto..].
    destruct (hm_get t (token_map v)) as [i|]; injection Hi as <- <-; [apply grows_refl; auto|]. unfold sized in *. split.
    + unfold sized, hm_insert_vacant. simpl. rewrite !app_length. simpl. congruence.
    + intros k. cbn [id_map]. rewrite app_length. cbn [length]. intros Hk. destruct (Nat.lt_ge_cases k (length (id_map v))) as [|Hg]; auto. right. f_equal. f_equal. lia.
  - destruct (hm_get l lm); [|discriminate]. injection Hi as <- <-. apply grows_refl; auto.
Qed.

Lemma index_rule_grows lm l v p v' r : index_rule lm l v p = Ok (v', r) -> sized v -> grows v v' (fun k => In (Terminal (Token k)) (irhs r)).
Proof.
  destruct p as (pr & i). unfold index_rule. intros Hi Hv. destruct (map_accumM (index_node lm) v (rhs pr)) as [(v1 & ns)|e|w|] eqn:Hm; cbn [bind] in Hi; try discriminate.
  injection Hi as <- <-. destruct (map_accum_grows _ _ (index_node_grows lm) _ _ _ _ Hm Hv) as (S1 & G1). split; auto.
  intros k Hk. apply G1 in Hk as [Hk|(nd & Hin & ->)]; auto.
Qed.

Lemma index_group_grows lm v p v' rs : index_group lm v p = Ok (v', rs) -> sized v -> grows v v' (fun k => exists r, In r rs /\ In (Terminal (Token k)) (irhs r)).
Proof. destruct p as (l & gr). unfold index_group. apply (map_accum_grows _ (fun r k => In (Terminal (Token k)) (irhs r))). intros. eapply index_rule_grows; eauto. Qed.

(** The vocabulary has only tokens of the rules. *)
Lemma vocab_used fuel (g : grammar T L) ig k : indexed_build fuel g = Ok ig -> k + 2 < vocab_size (ivocab ig) ->
  exists r, In r (rules ig) /\ In (Terminal (Token k)) (irhs r).
Proof.
  unfold indexed_build, build_from_grammar. intros Hb Hk. destruct (combine g (seq 0 (length g))) as [|(root & ri) prs]; [discriminate|].
  match type of Hb with context [foldM ?f ?s ?l] => destruct (foldM f s l) as [(lm & gs)|e|w|]; cbn [bind] in Hb; try discriminate end.
  destruct (map_accumM (index_group lm) vocab_empty (enumerate gs)) as [(v & rss)|e|w|] eqn:Hm; cbn [bind] in Hb; try discriminate.
  match type of Hb with context [verify_connected ?f ?s ?l] => destruct (verify_connected f s l) as [u|e|w|]; cbn [bind] in Hb; try discriminate end.
  injection Hb as <-. cbn [rules ivocab] in *.
  destruct (map_accum_grows _ _ (index_group_grows lm) _ _ _ _ Hm eq_refl) as (_ & G).
  destruct (G k) as [Hx|(rs & Hrs & r & Hr & Ht)]; [unfold vocab_size in Hk; lia|simpl in Hx; lia|].
  exists r. split; auto. apply in_concat. eauto.
Qed.
End Used.

(** ** In a state *)

Section Shifted.
Context {bm : BuildMode} {T L : Type} `{EqDec T} `{EqDec L}.
Variable g : grammar T L.
Variable ig : indexed_grammar T L.
Hypothesis Hix : indexes g ig.
Hypothesis Hval : valid_grammar g.
Variable F : first_table.
Variables (t : lr_table) (ks : list kernel) (acts : nat -> aug nat -> option action) (gts : nat -> nat -> option nat).
Hypothesis Hok : table_ok ig F t ks acts gts.
Let Hwf := ix_wf g ig Hix.

Definition somewhere i p : Prop := exists s K, nth_error ks s = Some K /\ icore ig K i p.

Lemma icore_close K i p l j : icore ig K i p -> nextl ig i p = Some l -> rsym ig j l -> icore ig K j 0.
Proof.
  intros [(q & Hq & <- & <-)|(-> & l0 & Hr & Hc)] Hn Hj; right; split; auto; exists l; split; auto.
  - eapply cl_seed; eauto.
  - eapply cl_step; eauto.
Qed.

Lemma somewhere_next i p X : somewhere i p -> nextn ig i p = Some X -> somewhere i (p + 1).
Proof.
  intros (s & K & HK & Hc) Hn. assert (Hg : exists s' K', nth_error ks s' = Some K' /\ goto_of ig F K X K').
  { destruct X as [a|k].
    - destruct (to_shift_c _ _ _ _ _ _ Hok _ _ _ _ _ HK Hc Hn) as (s' & Hs'). destruct (to_shift _ _ _ _ _ _ Hok _ _ _ _ HK Hs') as ((K' & HK' & Hg) & _). eauto.
    - destruct (to_goto_c _ _ _ _ _ _ Hok _ _ _ _ _ HK Hc Hn) as (s' & Hs'). destruct (to_goto _ _ _ _ _ _ Hok _ _ _ _ HK Hs') as ((K' & HK' & Hg) & _). eauto. }
  destruct Hg as (s' & K' & HK' & Hg & _). exists s', K'. split; auto. left. apply Hg. eauto.
Qed.

Lemma nextn_before i p p' X : p <= p' -> nth_error (rnodes ig i) p' = Some X -> is_epsilon X = false -> exists Y, nextn ig i p = Some Y.
Proof.
  intros Hle Hn He. unfold nextn. destruct (find (fun nd => negb (is_epsilon nd)) (skipn p (rnodes ig i))) as [Y|] eqn:Hf; eauto.
  exfalso. pose proof (find_none _ _ Hf X) as Hx. assert (Hin : In X (skipn p (rnodes ig i))); [|specialize (Hx Hin); cbv beta in Hx; rewrite He in Hx; discriminate Hx]. clear Hx Hf.
  apply nth_error_split in Hn as (l1 & l2 & -> & <-). rewrite skipn_app. apply in_or_app. right.
  replace (p - length l1) with 0 by lia. left. reflexivity.
Qed.

Lemma nextn_own i p X : nth_error (rnodes ig i) p = Some X -> is_epsilon X = false -> nextn ig i p = Some X.
Proof. intros Hn He. unfold nextn. rewrite skipn_S_nth, Hn. simpl. rewrite He. reflexivity. Qed.
Lemma nextl_own i p l : nth_error (rnodes ig i) p = Some (Production l) -> nextl ig i p = Some l.
Proof. intros Hn. unfold nextl. rewrite skipn_S_nth, Hn. reflexivity. Qed.

Lemma somewhere_at i p X : somewhere i 0 -> nth_error (rnodes ig i) p = Some X -> is_epsilon X = false -> somewhere i p.
Proof.
  intros H0' Hn He. assert (Hp : forall p', p' <= p -> somewhere i p').
  { induction p' as [|p' IH]; intros Hle; auto. destruct (nextn_before i p' p X ltac:(lia) Hn He) as (Y & HY).
    rewrite <- Nat.add_1_r. eapply somewhere_next; eauto. apply IH. lia. }
  auto.
Qed.

Lemma somewhere_label l : ireach ig l -> forall j, rsym ig j l -> somewhere j 0.
Proof.
  induction 1 as [|r l Hr IH Hin Hl]; intros j Hj.
  - destruct (to_root _ _ _ _ _ _ Hok) as (K & HK & Hrep & _). exists 0, K. split; auto.
    destruct (wf_root _ Hwf) as (r & mt & Hr & _ & Hm & Hs & He). destruct (wf_meta _ Hwf _ _ Hm) as (_ & _ & Hi).
    destruct Hj as (rj & Hj & Hsj). apply (Hi _ _ Hj) in Hsj. assert (j = 0) as -> by lia. apply Hrep. constructor.
  - apply In_nth_error in Hin as (i & Hi). apply In_nth_error in Hl as (p & Hp).
    assert (Hp' : nth_error (rnodes ig i) p = Some (Production l)) by (unfold rnodes; rewrite Hi; auto).
    destruct (somewhere_at i p _ (IH i (ex_intro _ r (conj Hi eq_refl))) Hp' eq_refl) as (s & K & HK & Hc).
    exists s, K. split; auto. eapply icore_close; eauto. apply nextl_own; auto.
Qed.

(** Every position before a symbol occurs in some state. *)
Lemma somewhere_all i p X : nth_error (rnodes ig i) p = Some X -> is_epsilon X = false -> somewhere i p.
Proof.
  intros Hn He. assert (Hi : exists r, nth_error (rules ig) i = Some r).
  { unfold rnodes in Hn. destruct (nth_error (rules ig) i); eauto. destruct p; discriminate. }
  destruct Hi as (r & Hr). assert (Hl : isymbol r < labels_count ig) by (eapply wf_sym; [apply Hwf|eapply nth_error_In; eauto]).
  eapply somewhere_at; eauto. apply (somewhere_label (isymbol r)); [|exists r; auto].
  destruct (IndexedMain.ilabel_total ig _ Hl) as (l & Hk). apply (ireach_reachable g ig Hix _ _ Hk).
  destruct Hval as (root & rest & _ & _ & _ & Hall). apply Hall. apply (defined_ilabel g ig Hix). eauto.
Qed.

(** Every terminal is shifted in some state. *)
Lemma terminal_shifted r a : In r (rules ig) -> In (Terminal a) (irhs r) -> a <> Epsilon -> exists s s', s < num_states t /\ acts s a = Some (Shift s').
Proof.
  intros Hr Ha Hne. apply In_nth_error in Hr as (i & Hi). apply In_nth_error in Ha as (p & Hp).
  assert (Hp' : nth_error (rnodes ig i) p = Some (Terminal a)) by (unfold rnodes; rewrite Hi; auto).
  assert (He : is_epsilon (T := nat) (L := nat) (Terminal a) = false) by (destruct a; auto; congruence).
  destruct (somewhere_all i p _ Hp' He) as (s & K & HK & Hc). destruct (to_shift_c _ _ _ _ _ _ Hok _ _ _ _ _ HK Hc (nextn_own _ _ _ Hp' He)) as (s' & Hs').
  exists s, s'. split; auto. rewrite (to_states _ _ _ _ _ _ Hok). apply nth_error_Some. congruence.
Qed.

(** ... and different ones lead to different states, none of them the first. *)
Lemma shift_beyond n : (forall k, k < n -> exists r, In r (rules ig) /\ In (Terminal (Token k)) (irhs r)) -> 0 < n ->
  exists s k s', s < num_states t /\ k < n /\ acts s (Token k) = Some (Shift s') /\ n <= s'.
Proof.
  intros Hu Hn.
  assert (Hc : forall n', n' <= n -> exists ss, length ss = n' /\ NoDup ss /\
    forall s', In s' ss -> s' <> 0 /\ exists s k, s < num_states t /\ k < n' /\ acts s (Token k) = Some (Shift s')).
  { induction n' as [|n' IH]; intros Hle; [exists []; repeat split; [constructor|destruct H1..]|].
    destruct (IH ltac:(lia)) as (ss & Hlen & Hnd & Hss). destruct (Hu n' ltac:(lia)) as (r & Hr & Ht).
    destruct (terminal_shifted r (Token n') Hr Ht ltac:(discriminate)) as (s & s' & Hs & Ha). exists (s' :: ss). split; [simpl; lia|]. split.
    - constructor; auto. intros Hin. destruct (Hss _ Hin) as (_ & s0 & k & Hs0 & Hk & Ha0).
      assert (Hx : Terminal (L := nat) (Token n') = Terminal (Token k)) by (apply (iedge_unique ig F t ks acts gts Hok s _ s0 _ s'); auto).
      injection Hx as ->. lia.
    - intros s1 [<-|Hin]; [|destruct (Hss _ Hin) as (H1 & s0 & k & Hs0 & Hk & Ha0); split; auto; exists s0, k; split; auto].
      split; [|exists s, n'; auto]. destruct (iedge_kernel ig F t ks acts gts Hok s (Terminal (Token n')) s' Hs Ha) as (_ & Hx & _). auto. }
  destruct (Hc n (le_n _)) as (ss & Hlen & Hnd & Hss).
  destruct (existsb (fun s' => n <=? s') ss) eqn:He.
  - apply existsb_exists in He as (s' & Hin & Hle). apply Nat.leb_le in Hle. destruct (Hss _ Hin) as (_ & s & k & Hs & Hk & Ha). exists s, k, s'. auto.
  - exfalso. assert (Hincl : incl ss (seq 1 (n - 1))).
    { intros s' Hin. apply in_seq. destruct (Hss _ Hin) as (Hz & _). destruct (Nat.lt_ge_cases s' n); [lia|].
      assert (Hx : existsb (fun s' => n <=? s') ss = true) by (apply existsb_exists; exists s'; split; auto; apply Nat.leb_le; auto). congruence. }
    apply NoDup_incl_length in Hincl; auto. rewrite seq_length in Hincl. lia.
Qed.
End Shifted.

(** ** Symbols and edges *)

Section Symbols.
Context {bm : BuildMode} {T L : Type} `{EqDec T} `{EqDec L}.
Variable g : grammar T L.
Variable ig : indexed_grammar T L.
Variable t : lr_table.
Variables fuel fuel' : nat.
Hypothesis Hig : indexed_build fuel g = Ok ig.
Hypothesis Ht : table_build ig fuel' = Ok t.

(** The vocabulary of a grammar has the tokens of its rules. *)
Theorem grammar_tokens tok : (exists i, token_to_id (ivocab ig) tok = Some i) <-> exists r, In r g /\ In (Terminal (Token tok)) (rhs r).
Proof.
  destruct (build_indexes _ _ _ Hig) as (Hix & _). pose proof (wf_voc _ (ix_wf _ _ Hix)) as Hv. split.
  - intros (i & Hi). apply (token_to_id_spec _ _ _ Hv) in Hi.
    assert (Hlt : i + 2 < vocab_size (ivocab ig)) by (unfold vocab_size; assert (i < length (id_map (ivocab ig))) by (apply nth_error_Some; congruence); lia).
    destruct (vocab_used _ _ _ _ Hig Hlt) as (ir & Hir & Hin). apply In_nth_error in Hir as (j & Hj). destruct (ix_rule_bwd g ig Hix _ _ Hj) as (r & Hr & _ & _ & Hns).
    exists r. split; [eapply nth_error_In; eauto|]. destruct (Forall2_in_r _ _ _ _ Hns Hin) as (nd & Hnd & Hrel). simpl in Hnd.
    destruct nd as [[tok'| |]|]; simpl in Hrel; try tauto. rewrite Hi in Hrel. injection Hrel as <-. auto.
  - intros (r & Hr & Hin). apply In_nth_error in Hr as (i & Hi). destruct (ix_rule_fwd g ig Hix _ _ Hi) as (j & ir & Hj & _ & _ & Hns).
    destruct (Forall2_in_l _ _ _ _ Hns Hin) as (nd & Hnd & Hrel). destruct nd as [[k| |]|]; simpl in Hrel; try tauto. exists k. apply (token_to_id_spec _ _ _ Hv). auto.
Qed.

(** Every symbol of the rules is the label of an edge, and no other is. *)
Theorem symbols_label_edges X : (exists s s', edge ig t s X s') <-> X <> Terminal Epsilon /\ exists r, In r g /\ In X (rhs r).
Proof.
  destruct (build_indexes _ _ _ Hig) as (Hix & Hval). destruct (table_built g ig t fuel fuel' Hig Ht) as (_ & F & ks & acts & gts & HF & _ & Hok). split.
  - intros (s & s' & He). apply (edge_iff g ig Hix F t ks acts gts Hok) in He as (Hs & X' & Hrel & He).
    destruct (proj1 (state_kernel ig F t ks acts gts Hok s) Hs) as (K & HK).
    assert (Hn : exists i p, nextn ig i p = Some X').
    { destruct X' as [a'|k]; simpl in He; [destruct (to_shift _ _ _ _ _ _ Hok _ _ _ _ HK He) as (_ & i & p & _ & Hx)|destruct (to_goto _ _ _ _ _ _ Hok _ _ _ _ HK He) as (_ & i & p & _ & Hx)]; eauto. }
    destruct Hn as (i & p & Hn). unfold nextn in Hn. apply find_some in Hn as (Hin & Hne). split.
    + intros ->. destruct X' as [[| |]|]; simpl in Hrel, Hne; try tauto; discriminate.
    + assert (Hin' : In X' (rnodes ig i)) by (rewrite <- (firstn_skipn p (rnodes ig i)); apply in_or_app; auto).
      unfold rnodes in Hin'. destruct (nth_error (rules ig) i) as [ir|] eqn:Hi; [|destruct Hin'].
      destruct (ix_rule_bwd g ig Hix _ _ Hi) as (r & Hr & _ & _ & Hns). destruct (Forall2_in_r _ _ _ _ Hns Hin') as (nd & Hnd & Hrel').
      exists r. split; [eapply nth_error_In; eauto|]. assert (X = nd) as ->; auto.
      destruct X as [a|l], X' as [a'|k], nd as [b|l']; simpl in Hrel, Hrel'; try tauto; f_equal; [eapply aug_rel_fun; eauto|eapply ilabel_fun; eauto].
  - intros (Hne & r & Hr & Hin). apply In_nth_error in Hr as (i & Hi). destruct (ix_rule_fwd g ig Hix _ _ Hi) as (j & ir & Hj & _ & _ & Hns).
    destruct (Forall2_in_l _ _ _ _ Hns Hin) as (X' & Hnd & Hrel). apply In_nth_error in Hnd as (p & Hp).
    assert (Hp' : nth_error (rnodes ig j) p = Some X') by (unfold rnodes; rewrite Hj; auto).
    assert (He : is_epsilon X' = false). { destruct X as [a|l], X' as [a'|k]; simpl in Hrel; try tauto; auto. destruct a', a; simpl in *; try tauto; auto; congruence. }
    destruct (somewhere_all g ig Hix Hval F t ks acts gts Hok j p X' Hp' He) as (s & K & HK & Hc). exists s.
    assert (Hs : s < num_states t) by (rewrite (to_states _ _ _ _ _ _ Hok); apply nth_error_Some; congruence).
    pose proof (nextn_own ig _ _ _ Hp' He) as Hn.
    assert (Hx : exists s', iedge acts gts s X' s') by (destruct X' as [a'|k]; [eapply to_shift_c|eapply to_goto_c]; eauto).
    destruct Hx as (s' & Hx). exists s'. apply (edge_iff g ig Hix F t ks acts gts Hok). split; auto. eauto.
Qed.
End Symbols.
