(** The order of the rules after the first matters to no notion of the specification. *)
From Coq Require Import Arith Bool String NArith List Lia Permutation FinFun.
From Verif Require Import Base.Prelude Spec.Grammar Spec.Validity Spec.Nullable Spec.Observers Spec.Early Spec.LR1 Model.Error.
From Verif Require Import Model.IndexedGrammar Model.FirstMap Model.LRTable Model.ParseSimulator.
From Verif Require Import Proofs.RecognitionFinal Proofs.LR1Final.
Import ListNotations.

Section Reordered.
Context {T L : Type}.

(** Rule [i] of [g'] is rule [f i] of [g]. *)
Record renames (f : nat -> nat) (g g' : grammar T L) : Prop := {
  rn_zero : f 0 = 0;
  rn_inj : forall i j, f i = f j -> i = j;
  rn_nth : forall i, nth_error g' i = nth_error g (f i);
}.

Lemma reordered_sym (g g' : grammar T L) : reordered g g' -> reordered g' g.
Proof. intros (r & rest & rest' & H1 & H2 & Hp). exists r, rest', rest. split; auto. split; auto. apply Permutation_sym; auto. Qed.

Lemma reordered_in (g g' : grammar T L) r : reordered g g' -> In r g' -> In r g.
Proof. intros (r0 & rest & rest' & -> & -> & Hp) [<-|Hr]; [left; auto|right]. apply (Permutation_in _ (Permutation_sym Hp)). auto. Qed.

Lemma reordered_renames (g g' : grammar T L) : reordered g g' -> exists f, renames f g g'.
Proof.
  intros (r & rest & rest' & -> & -> & Hp). apply Permutation_nth_error in Hp as (_ & f & Hi & Hf).
  exists (fun i => match i with 0 => 0 | S i => S (f i) end). split; [reflexivity| |].
  - intros [|i] [|j] He; try discriminate; auto.
  - intros [|i]; simpl; auto.
Qed.

Section Transfer.
Variable f : nat -> nat.
Variable g g' : grammar T L.
Hypothesis Hrn : renames f g g'.
Hypothesis Hre : reordered g g'.

Lemma body_rn i : body g' i = body g (f i).
Proof. unfold body. rewrite (rn_nth _ _ _ Hrn). auto. Qed.
Lemma next_rn i p : next g' i p = next g (f i) p.
Proof. unfold next. rewrite body_rn. auto. Qed.
Lemma after_rn i p : after g' i p = after g (f i) p.
Proof. unfold after. rewrite body_rn. auto. Qed.

Lemma step_rn ns ns' : step g' ns ns' -> step g ns ns'.
Proof. destruct 1; [apply step_rule; eapply reordered_in; eauto|apply step_epsilon]. Qed.
Lemma steps_rn ns ns' : steps g' ns ns' -> steps g ns ns'.
Proof. induction 1 as [|ns ns' ns'' H1 H2 IH]; [apply steps_refl|eapply steps_step; [apply step_rn|]; eauto]. Qed.
Lemma begins_rn ns a : begins g' ns a -> begins g ns a.
Proof. intros (Ha & ns' & Hs). split; auto. exists ns'. apply steps_rn; auto. Qed.
Lemma vanishes_rn ns : vanishes g' ns -> vanishes g ns.
Proof. apply steps_rn. Qed.

Lemma item_rn γ i p : item g' γ i p -> item g γ (f i) p.
Proof.
  induction 1 as [|γ i p j r Hi IH Hn Hj|γ i p X Hi IH Hn].
  - rewrite (rn_zero _ _ _ Hrn). apply item_root.
  - rewrite next_rn in Hn. rewrite (rn_nth _ _ _ Hrn) in Hj. eapply item_closure; eauto.
  - rewrite next_rn in Hn. apply item_goto; auto.
Qed.

Lemma lookahead_rn γ i p a : lookahead g' γ i p a -> lookahead g γ (f i) p a.
Proof.
  induction 1 as [|γ i p j r b Hi Hn Hj Hb|γ i p a j r Hl IH Hn Hj Hv|γ i p a X Hl IH Hn].
  - rewrite (rn_zero _ _ _ Hrn). apply lookahead_root.
  - apply item_rn in Hi. rewrite next_rn in Hn. rewrite (rn_nth _ _ _ Hrn) in Hj. rewrite after_rn in Hb. eapply lookahead_first; eauto.
    apply begins_rn; auto.
  - rewrite next_rn in Hn. rewrite (rn_nth _ _ _ Hrn) in Hj. rewrite after_rn in Hv. eapply lookahead_follow; eauto. apply vanishes_rn; auto.
  - rewrite next_rn in Hn. apply lookahead_goto; auto.
Qed.

Lemma may_reduce_rn γ i a : may_reduce g' γ i a -> may_reduce g γ (f i) a.
Proof.
  intros (p & Hi & Hn & H0 & Hl). exists p. split; [apply item_rn; auto|]. rewrite <- next_rn. split; [auto|].
  assert (Hz : f i = 0 <-> i = 0).
  { split; [intros He; apply (rn_inj _ _ _ Hrn); rewrite He; symmetry; apply (rn_zero _ _ _ Hrn)|intros ->; apply (rn_zero _ _ _ Hrn)]. }
  split; [rewrite Hz; auto|]. intros Hne. apply lookahead_rn, Hl. tauto.
Qed.

Lemma may_shift_rn γ a : may_shift g' γ a -> may_shift g γ a.
Proof. intros (i & p & Hi & Hn). exists (f i), p. split; [apply item_rn; auto|]. rewrite <- next_rn. auto. Qed.

Lemma conflict_free_rn : conflict_free g -> conflict_free g'.
Proof.
  intros (H1 & H2). split.
  - intros γ i j a Hi Hj. apply (rn_inj _ _ _ Hrn). eapply H1; apply may_reduce_rn; eauto.
  - intros γ i a Hi Hs. eapply H2; [apply may_reduce_rn; eauto|apply may_shift_rn; auto].
Qed.

Lemma derives_rn ns w ts : derives g' ns w ts -> exists ts', derives g ns w ts'.
Proof.
  induction 1 as [|t ns w ts D (ts' & IH)|ns w ts D (ts' & IH)|i r ts1 w1 ns w2 ts2 Hi D1 (ts1' & IH1) D2 (ts2' & IH2)].
  - exists []. constructor.
  - exists (Leaf t :: ts'). constructor; auto.
  - exists ts'. constructor; auto.
  - exists (Node (f i) ts1' :: ts2'). rewrite (rn_nth _ _ _ Hrn) in Hi. econstructor; eauto.
Qed.

Lemma language_rn w : language g' w -> language g w.
Proof.
  intros (t & r & ts & Hr & D & _). apply derives_rn in D as (ts' & D). exists (Node 0 ts'), r, ts'. split; [|split; auto].
  rewrite (rn_nth _ _ _ Hrn), (rn_zero _ _ _ Hrn) in Hr. auto.
Qed.

Lemma reachable_rn l : reachable g l -> reachable g' l.
Proof.
  induction 1 as [r rest He|r l Hr IH Hin Hu].
  - destruct Hre as (r0 & rest0 & rest' & H1 & H2 & _). assert (r0 = r) as -> by congruence. eapply reachable_root. eauto.
  - eapply reachable_use; eauto. eapply reordered_in; [apply reordered_sym; eauto|auto].
Qed.

Lemma defined_rn l : defined g' l -> defined g l.
Proof. intros (r & Hr & Hs). exists r. split; auto. eapply reordered_in; eauto. Qed.

End Transfer.

Lemma valid_reordered (g g' : grammar T L) : reordered g g' -> valid_grammar g -> valid_grammar g'.
Proof.
  intros Hre (root & rest & -> & Hc & Hd & Hr). pose proof Hre as (r & rest0 & rest' & He & -> & Hp). injection He as <- <-.
  exists root, rest'. split; auto. split; [|split].
  - rewrite Forall_forall in *. intros r Hin. apply Hc. apply (Permutation_in _ (Permutation_sym Hp)). auto.
  - intros r l Hin Hu. apply (defined_rn _ _ (reordered_sym _ _ Hre)). eapply Hd; eauto. eapply reordered_in; eauto.
  - intros l Hl. apply (reachable_rn _ _ Hre). apply Hr. eapply defined_rn; eauto.
Qed.

Lemma conflict_free_reordered (g g' : grammar T L) : reordered g g' -> (conflict_free g <-> conflict_free g').
Proof.
  intros Hre. pose proof (reordered_sym _ _ Hre) as Hre'. destruct (reordered_renames _ _ Hre) as (f & Hf), (reordered_renames _ _ Hre') as (f' & Hf').
  split; eapply conflict_free_rn; eauto.
Qed.

Lemma language_reordered (g g' : grammar T L) w : reordered g g' -> (language g w <-> language g' w).
Proof.
  intros Hre. pose proof (reordered_sym _ _ Hre) as Hre'. destruct (reordered_renames _ _ Hre) as (f & Hf), (reordered_renames _ _ Hre') as (f' & Hf').
  split; eapply language_rn; eauto.
Qed.
End Reordered.

Section Order.
Context {bm : BuildMode} {T L : Type} `{EqDec T} `{EqDec L}.

Theorem same_acceptance (g g' : grammar T L) : reordered g g' -> eps_trailing g -> first_complete g -> first_complete g' ->
  (forall r, nth_error g 0 = Some r -> ~ uses r (symbol r)) ->
  exists N, forall fuel, N < fuel -> ((exists p, parser_new fuel g = Ok p) <-> (exists p, parser_new fuel g' = Ok p)).
Proof.
  intros Hre He Hc Hc' Hr. pose proof (reordered_sym _ _ Hre) as Hre'.
  assert (He' : eps_trailing g') by (intros r Hin; apply He; eapply reordered_in; eauto).
  assert (Hr' : forall r, nth_error g' 0 = Some r -> ~ uses r (symbol r)).
  { intros r Hx. apply Hr. destruct Hre as (r0 & rest & rest' & -> & -> & _). auto. }
  destruct (accepted_iff g He Hc Hr) as (N & HN), (accepted_iff g' He' Hc' Hr') as (N' & HN'). exists (N + N'). intros fuel Hf.
  rewrite HN, HN' by lia. rewrite (conflict_free_reordered g g' Hre). split; intros (Hv & Hcf); split; auto; eapply valid_reordered; eauto.
Qed.

Theorem same_verdicts E (g g' : grammar T L) fuel p p' w : reordered g g' -> no_eos g -> eps_trailing g -> first_complete g -> first_complete g' ->
  parser_new fuel g = Ok p -> parser_new fuel g' = Ok p' ->
  exists N b, forall fuel', N < fuel' -> parse_stream (E := E) fuel' p w = Ok b /\ parse_stream (E := E) fuel' p' w = Ok b.
Proof.
  intros Hre Hn He Hc Hc' Hp Hp'.
  assert (He' : eps_trailing g') by (intros r Hin; apply He; eapply reordered_in; eauto).
  assert (Hn' : no_eos g') by (intros r Hin; apply Hn; eapply reordered_in; eauto).
  destruct (recog_exact g _ _ Hp Hn He E w) as (n & b & H1 & H2 & H3), (recog_exact g' _ _ Hp' Hn' He' E w) as (n' & b' & H1' & H2' & H3').
  apply first_complete_closed in Hc, Hc'. assert (b = b').
  { pose proof (language_reordered g g' w Hre) as Hl. destruct b, b'; auto.
    - assert (false = true) by (apply H3'; auto; apply Hl; auto). congruence.
    - assert (false = true) by (apply H3; auto; apply Hl; auto). congruence. }
  subst b'. exists (n + n'), b. intros fuel' Hf. rewrite H1, H1', !(proj2 (Nat.ltb_lt _ _)) by lia. auto.
Qed.
End Order.
