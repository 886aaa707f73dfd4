(** The items of the built table are the textbook ones. *)
From Coq Require Import Arith Bool String NArith List Lia Permutation.
From Verif Require Import Spec.Observers.
From Verif Require Import Base.Prelude Spec.Grammar Spec.Validity Spec.Nullable Model.Error.
From Verif Require Import Model.BitSet Model.FixedMap Model.Vocabulary Model.IndexedGrammar Model.FirstMap.
From Verif Require Import Model.Position Model.Closure Model.LRTable Model.ParseSimulator.
From Verif Require Import Proofs.WP Proofs.BitSetProofs Proofs.FixedMapProofs Proofs.VocabProofs.
From Verif Require Import Proofs.IndexedProofs Proofs.IndexedBuild Proofs.IndexedMain Proofs.FirstProofs.
From Verif Require Import Proofs.ClosureProofs Proofs.ItemSets Proofs.TableProofs Proofs.TableBuild.
From Verif Require Import Proofs.Fuel Proofs.Machine Proofs.ParserFinal Proofs.RecognitionFinal.
From Verif Require Import Spec.LR1.
Import ListNotations.

(** Rewriting of sentential forms. *)
Section Steps.
Context {T L : Type}.
Variable g : grammar T L.
Local Notation step := (step g).
Local Notation steps := (steps g).

Lemma steps_trans a b c : steps a b -> steps b c -> steps a c.
Proof. induction 1; auto. intros. econstructor; eauto. Qed.

Lemma step_ctx pre post a b : step a b -> step (pre ++ a ++ post) (pre ++ b ++ post).
Proof.
  intros [p r q Hr|p q].
  - replace (pre ++ (p ++ Production (symbol r) :: q) ++ post) with ((pre ++ p) ++ Production (symbol r) :: (q ++ post))
      by (rewrite <- !app_assoc; reflexivity).
    replace (pre ++ (p ++ rhs r ++ q) ++ post) with ((pre ++ p) ++ rhs r ++ (q ++ post)) by (rewrite <- !app_assoc; reflexivity).
    constructor; auto.
  - replace (pre ++ (p ++ Terminal Epsilon :: q) ++ post) with ((pre ++ p) ++ Terminal Epsilon :: (q ++ post))
      by (rewrite <- !app_assoc; reflexivity).
    replace (pre ++ (p ++ q) ++ post) with ((pre ++ p) ++ (q ++ post)) by (rewrite <- !app_assoc; reflexivity).
    constructor; auto.
Qed.

Lemma steps_ctx pre post a b : steps a b -> steps (pre ++ a ++ post) (pre ++ b ++ post).
Proof. induction 1; [constructor|]. econstructor; eauto. apply step_ctx; auto. Qed.

Lemma steps_app a a' b b' : steps a a' -> steps b b' -> steps (a ++ b) (a' ++ b').
Proof.
  intros H1 H2. eapply steps_trans.
  - apply (steps_ctx [] b a a' H1).
  - simpl. pose proof (steps_ctx a' [] b b' H2) as Hx. rewrite !app_nil_r in Hx. auto.
Qed.

Lemma steps_rule r : In r g -> steps [Production (symbol r)] (rhs r).
Proof.
  intros Hr. eapply steps_step; [apply (step_rule g [] r [] Hr)|]. simpl. rewrite app_nil_r. constructor.
Qed.
Lemma steps_eps : steps [Terminal Epsilon] [].
Proof. eapply steps_step; [apply (step_epsilon g [] [])|constructor]. Qed.

(** Vanishing. *)
Lemma derives_vanishes ns w ts : derives g ns w ts -> w = [] -> vanishes g ns.
Proof.
  unfold vanishes. induction 1 as [|t ns w ts D IH|ns w ts D IH|i r ts1 w1 ns w2 ts2 Hi D1 IH1 D2 IH2]; intros Hw; try discriminate.
  - constructor.
  - apply (steps_app [Terminal Epsilon] []); auto. apply steps_eps.
  - apply app_eq_nil in Hw as (-> & ->). apply (steps_app [Production (symbol r)] []); auto.
    eapply steps_trans; [apply steps_rule; eapply nth_error_In; eauto|auto].
Qed.

Lemma derives_app2 ns1 ns2 w1 w2 ts1 ts2 : derives g ns1 w1 ts1 -> derives g ns2 w2 ts2 -> derives g (ns1 ++ ns2) (w1 ++ w2) (ts1 ++ ts2).
Proof. intros H1 H2. apply derives_app; auto. Qed.

Lemma step_derives a b : step a b -> forall w ts, derives g b w ts -> exists ts', derives g a w ts'.
Proof.
  intros [pre r post Hr|pre post] w ts D.
  - apply derives_app_inv in D as (w1 & w2 & t1 & t2 & -> & -> & D1 & D2).
    apply derives_app_inv in D2 as (w2' & w3 & t2' & t3 & -> & -> & D2 & D3).
    apply In_nth_error in Hr as (i & Hi). eexists. apply derives_app2; [exact D1|]. econstructor; eauto.
  - apply derives_app_inv in D as (w1 & w2 & t1 & t2 & -> & -> & D1 & D2).
    eexists. apply derives_app2; [exact D1|]. constructor. exact D2.
Qed.

Lemma steps_derives a b : steps a b -> forall w ts, derives g b w ts -> exists ts', derives g a w ts'.
Proof.
  induction 1 as [|a b c Hs Hss IH]; intros w ts D; eauto.
  destruct (IH _ _ D) as (ts' & D'). eapply step_derives; eauto.
Qed.

Lemma vanishes_iff ns : vanishes g ns <-> exists ts, derives g ns [] ts.
Proof.
  split.
  - intros Hv. apply (steps_derives _ _ Hv [] []). constructor.
  - intros (ts & D). eapply derives_vanishes; eauto.
Qed.

(** FIRST, inductively. *)
Inductive fst_of : list (node T L) -> aug T -> Prop :=
| fst_tok a ns : a <> Epsilon -> fst_of (Terminal a :: ns) a
| fst_eps ns a : fst_of ns a -> fst_of (Terminal Epsilon :: ns) a
| fst_null l ns a : vanishes g [Production l] -> fst_of ns a -> fst_of (Production l :: ns) a
| fst_here r ns a : In r g -> fst_of (rhs r) a -> fst_of (Production (symbol r) :: ns) a.

Lemma fst_of_neps ns a : fst_of ns a -> a <> Epsilon.
Proof. induction 1; auto. Qed.

Lemma fst_of_begins ns a : fst_of ns a -> begins g ns a.
Proof.
  intros Hf. split; [eapply fst_of_neps; eauto|].
  induction Hf as [a ns Ha|ns a Hf (ns' & IH)|l ns a Hv Hf (ns' & IH)|r ns a Hr Hf (ns' & IH)].
  - exists ns. constructor.
  - exists ns'. apply (steps_app [Terminal Epsilon] []); auto. apply steps_eps.
  - exists ns'. apply (steps_app [Production l] []); auto.
  - exists (ns' ++ ns). apply (steps_app [Production (symbol r)] (Terminal a :: ns') ns ns); [|constructor].
    eapply steps_trans; [apply steps_rule; auto|auto].
Qed.

Lemma fst_of_app_l ns ns' a : fst_of ns a -> fst_of (ns ++ ns') a.
Proof. induction 1; simpl; [apply fst_tok|apply fst_eps|apply fst_null|apply fst_here]; auto. Qed.

Lemma fst_of_app_r ns ns' a : vanishes g ns -> fst_of ns' a -> fst_of (ns ++ ns') a.
Proof.
  intros Hv Hf. apply vanishes_iff in Hv as (ts & D). remember [] as w eqn:Hw.
  induction D as [|t ns w ts D IH|ns w ts D IH|i r ts1 w1 ns w2 ts2 Hi D1 IH1 D2 IH2]; try discriminate; auto.
  - simpl. constructor. auto.
  - apply app_eq_nil in Hw as (-> & ->). simpl. apply fst_null; auto.
    apply vanishes_iff. exists [Node i ts1]. apply (derives_production g i r ts1 [] [] [] []); auto. constructor.
Qed.

Lemma fst_of_app_inv ns ns' a : fst_of (ns ++ ns') a -> fst_of ns a \/ (vanishes g ns /\ fst_of ns' a).
Proof.
  induction ns as [|nd ns IH]; simpl; intros Hf.
  - right. split; auto. constructor.
  - inversion Hf as [b ns1 Ha|ns1 b Hf'|l ns1 b Hv Hf'|r ns1 b Hr Hf']; subst.
    + left. constructor. auto.
    + destruct (IH Hf') as [|(H1 & H2)]; [left; constructor; auto|right]. split; auto.
      apply (steps_app [Terminal Epsilon] []); auto. apply steps_eps.
    + destruct (IH Hf') as [|(H1 & H2)]; [left; apply fst_null; auto|right]. split; auto.
      apply (steps_app [Production l] []); auto.
    + left. apply fst_here; auto.
Qed.

Lemma step_fst_of a b x : step a b -> fst_of b x -> fst_of a x.
Proof.
  intros [pre r post Hr|pre post] Hf; apply fst_of_app_inv in Hf as [Hf|(Hv & Hf)]; try (apply fst_of_app_l; auto; fail);
    apply fst_of_app_r; auto.
  - apply fst_of_app_inv in Hf as [Hf|(Hv' & Hf)]; [apply fst_here; auto|]. apply fst_null; auto.
    eapply steps_trans; [apply steps_rule; auto|auto].
  - constructor. auto.
Qed.

Lemma begins_iff ns a : begins g ns a <-> fst_of ns a.
Proof.
  split; [|apply fst_of_begins]. intros (Ha & ns' & Hs). remember (Terminal a :: ns') as m eqn:Hm.
  induction Hs; subst; [constructor; auto|]. eapply step_fst_of; eauto.
Qed.

Lemma begins_last ns a b : a <> Epsilon -> (begins g (ns ++ [Terminal a]) b <-> begins g ns b \/ (vanishes g ns /\ b = a)).
Proof.
  intros Ha. rewrite !begins_iff. split.
  - intros Hf. apply fst_of_app_inv in Hf as [|(Hv & Hf)]; auto. right. split; auto. inversion Hf; subst; auto. congruence.
  - intros [Hf|(Hv & ->)]; [apply fst_of_app_l; auto|]. apply fst_of_app_r; auto. constructor; auto.
Qed.

(** In productive grammars every form begins with something or vanishes. *)
Lemma derives_fst_of ns w ts : derives g ns w ts -> match w with [] => vanishes g ns | t :: _ => fst_of ns (Token t) end.
Proof.
  induction 1 as [|t ns w ts D IH|ns w ts D IH|i r ts1 w1 ns w2 ts2 Hi D1 IH1 D2 IH2].
  - constructor.
  - constructor. discriminate.
  - destruct w; [|constructor; auto]. apply (steps_app [Terminal Epsilon] []); auto. apply steps_eps.
  - assert (Hr : In r g) by (eapply nth_error_In; eauto). destruct w1 as [|t w1]; simpl; [|apply fst_here; auto].
    assert (Hv : vanishes g [Production (symbol r)]) by (eapply steps_trans; [apply steps_rule; auto|auto]).
    destruct w2; [|apply fst_null; auto]. apply (steps_app [Production (symbol r)] []); auto.
Qed.
End Steps.

(** The two notions of validity agree on productive grammars. *)
Section Productive.
Context {T L : Type}.
Variable g : grammar T L.
Hypothesis Hprod : productive g.
Hypothesis Hlab : labels_defined g.
Hypothesis Hroot : forall r, nth_error g 0 = Some r -> ~ uses r (symbol r).
Hypothesis Hrest : forall r0 i r, nth_error g 0 = Some r0 -> nth_error g (S i) = Some r -> root_clean (symbol r0) r.

Lemma lr1_lookahead γ i p a : lr1_item g γ i p a -> item g γ i p /\ lookahead g γ i p a /\ a <> Epsilon.
Proof.
  induction 1 as [|γ i p a j r b H (IH1 & IH2 & IH3) Hn Hj Hb|γ i p a X H (IH1 & IH2 & IH3) Hn].
  - split; [constructor|]. split; [constructor|discriminate].
  - split; [econstructor; eauto|]. split; [|apply Hb]. apply begins_last in Hb as [Hb|(Hv & ->)]; auto.
    + eapply lookahead_first; eauto.
    + eapply lookahead_follow; eauto.
  - split; [econstructor; eauto|]. split; [constructor; auto|auto].
Qed.

Lemma body_in i nd : In nd (body g i) -> exists r, In r g /\ In nd (rhs r) /\ nd <> Terminal Epsilon.
Proof.
  unfold body. destruct (nth_error g i) as [r|] eqn:Hi; [|intros []]. intros Hin. apply filter_In in Hin as (Hin & He).
  exists r. split; [eapply nth_error_In; eauto|]. split; auto. intros ->. discriminate.
Qed.

Lemma form_begins ns a : (forall nd, In nd ns -> nd <> Terminal Epsilon /\ exists r, In r g /\ In nd (rhs r)) -> a <> Epsilon ->
  exists b, begins g (ns ++ [Terminal a]) b.
Proof.
  intros Hns Ha. destruct ns as [|nd ns]; simpl.
  - exists a. apply begins_iff. constructor; auto.
  - revert nd Hns. induction ns as [|nd' ns IH]; intros nd Hns.
    all: destruct (Hns nd (or_introl eq_refl)) as (Hne & r & Hr & Hin);
      destruct nd as [b|l]; [exists b; apply begins_iff; constructor; congruence|];
      destruct (Hlab _ _ Hr Hin) as (r' & Hr' & <-);
      destruct (Hprod _ Hr') as (w & ts & D); apply derives_fst_of in D; destruct w as [|t w].
    + exists a. apply begins_iff. apply fst_null; auto. simpl. constructor; auto.
    + exists (Token t). apply begins_iff. apply (fst_of_app_l g [Production (symbol r')]); auto.
    + destruct (IH nd') as (b & Hb); [intros; apply Hns; simpl; auto|]. exists b. apply begins_iff. apply fst_null; auto.
      apply begins_iff. auto.
    + exists (Token t). apply begins_iff. apply (fst_of_app_l g [Production (symbol r')]); auto.
Qed.

Lemma after_ok i p nd : In nd (after g i p) -> nd <> Terminal Epsilon /\ exists r, In r g /\ In nd (rhs r).
Proof. intros Hin. apply in_skipn in Hin. apply body_in in Hin as (r & H1 & H2 & H3). eauto. Qed.

Lemma item_lr1 γ i p : item g γ i p -> exists a, lr1_item g γ i p a.
Proof.
  induction 1 as [|γ i p j r H (a & IH) Hn Hj|γ i p X H (a & IH) Hn].
  - eexists. constructor.
  - destruct (form_begins (after g i p) a) as (b & Hb); [apply after_ok|apply (lr1_lookahead _ _ _ _ IH)|].
    exists b. eapply lr1_closure; eauto.
  - exists a. constructor; auto.
Qed.

Lemma lookahead_lr1 γ i p a : lookahead g γ i p a -> lr1_item g γ i p a.
Proof.
  induction 1 as [|γ i p j r b H Hn Hj Hb|γ i p a j r H IH Hn Hj Hv|γ i p a X H IH Hn].
  - constructor.
  - apply item_lr1 in H as (a & H). eapply lr1_closure; eauto. apply begins_last; [apply (lr1_lookahead _ _ _ _ H)|auto].
  - eapply lr1_closure; eauto. apply begins_last; [apply (lr1_lookahead _ _ _ _ IH)|auto].
  - constructor; auto.
Qed.

(** The root rule. *)
Lemma next_not_root i p (r0 r : rule T L) : nth_error g 0 = Some r0 -> next g i p = Some (Production (symbol r)) -> symbol r <> symbol r0.
Proof.
  intros H0 Hn He. unfold next in Hn. apply nth_error_In in Hn as Hin. unfold body in Hin.
  destruct (nth_error g i) as [r1|] eqn:Hi; [|destruct Hin]. apply filter_In in Hin as (Hin & _). rewrite He in Hin.
  destruct i as [|i].
  - rewrite H0 in Hi. injection Hi as <-. apply (Hroot r0 H0). exact Hin.
  - destruct (Hrest _ _ _ H0 Hi) as (_ & Hx). apply Hx. exact Hin.
Qed.

Lemma item_root_only γ p : item g γ 0 p -> lookahead g γ 0 p EndOfStream.
Proof.
  intros Hc. remember 0 as i eqn:Hi. induction Hc as [|γ i p j r H IH Hn Hj|γ i p X H IH Hn].
  - constructor.
  - subst j. exfalso. eapply next_not_root; eauto.
  - constructor; auto.
Qed.

Lemma lookahead_root_only γ p a : lookahead g γ 0 p a -> a = EndOfStream.
Proof.
  intros Hc. remember 0 as i eqn:Hi. induction Hc as [|γ i p j r b H Hn Hj Hb|γ i p a j r H IH Hn Hj Hv|γ i p a X H IH Hn]; auto.
  - subst j. exfalso. eapply next_not_root; eauto.
  - subst j. exfalso. eapply next_not_root; eauto.
Qed.

Lemma reduces_iff γ i a : reduces g γ i a <-> may_reduce g γ i a.
Proof.
  split.
  - intros (p & H & Hn). apply lr1_lookahead in H as (H1 & H2 & _). exists p. split; auto. split; auto. split; auto.
    intros ->. eapply lookahead_root_only; eauto.
  - intros (p & H & Hn & H0 & H1). exists p. split; auto. apply lookahead_lr1.
    destruct i as [|i]; [rewrite H0 by auto; apply item_root_only; auto|auto].
Qed.

Lemma shifts_iff γ a : shifts g γ a <-> may_shift g γ a.
Proof.
  split.
  - intros (i & p & b & H & Hn). apply lr1_lookahead in H as (H1 & _). exists i, p. auto.
  - intros (i & p & H & Hn). apply item_lr1 in H as (b & H). exists i, p, b. auto.
Qed.

Theorem conflict_free_iff : conflict_free g <-> lr1_grammar g.
Proof.
  unfold conflict_free, lr1_grammar. split; intros (H1 & H2); split.
  - intros γ i j a. rewrite !reduces_iff. apply H1.
  - intros γ i a. rewrite reduces_iff, shifts_iff. apply H2.
  - intros γ i j a. rewrite <- !reduces_iff. apply H1.
  - intros γ i a. rewrite <- reduces_iff, <- shifts_iff. apply H2.
Qed.
End Productive.

(** Trailing epsilon nodes. *)
Section Strip.
Context {T L : Type} `{EqDec T}.
Variable ig : indexed_grammar T L.
Hypothesis Heps : eps_trailing (igram ig).

Definition sbody (j : nat) : list inode := strip (rnodes ig j).

Lemma rnodes_split j : exists es, rnodes ig j = sbody j ++ es /\ Forall (fun nd => nd = Terminal Epsilon) es.
Proof.
  unfold sbody, rnodes. destruct (nth_error (rules ig) j) as [r|] eqn:Hj; [|exists []; auto].
  assert (Hr : In (irule r) (igram ig)) by (apply in_map; eapply nth_error_In; eauto).
  specialize (Heps _ Hr). clear Hr. change (irhs r) with (rhs (irule r)). induction (rhs (irule r)) as [|nd ns IH]; [exists []; auto|].
  simpl. destruct (is_epsilon nd) eqn:He; simpl.
  - assert (nd = Terminal Epsilon) by (destruct nd as [[| |]|]; simpl in He; congruence). subst nd.
    assert (Hall : Forall (fun nd => nd = Terminal Epsilon) ns) by (apply Forall_forall; intros x Hx; apply (Heps [] ns); auto).
    exists (Terminal Epsilon :: ns). split; [|constructor; auto].
    assert (strip ns = []) as ->; [|reflexivity]. clear -Hall. induction Hall; simpl; auto. subst. auto.
  - destruct IH as (es & IH1 & IH2).
    { intros ns1 ns2 n Hns Hin. apply (Heps (nd :: ns1) ns2); auto. simpl. congruence. }
    exists es. split; auto. f_equal. exact IH1.
Qed.

Lemma sbody_neps j nd : In nd (sbody j) -> is_epsilon nd = false.
Proof. intros Hin. apply filter_In in Hin as (_ & Hx). destruct (is_epsilon nd); auto; discriminate. Qed.

Lemma find_all_eps (es : list inode) : Forall (fun nd => nd = Terminal Epsilon) es -> find (fun nd => negb (is_epsilon nd)) es = None.
Proof. induction 1; subst; simpl; auto. Qed.

Lemma Forall_skipn {A} (P : A -> Prop) l p : Forall P l -> Forall P (skipn p l).
Proof. intros Hf. rewrite <- (firstn_skipn p l) in Hf. apply Forall_app in Hf. tauto. Qed.

Lemma skipn_rnodes j p : exists es, skipn p (rnodes ig j) = skipn p (sbody j) ++ es /\ Forall (fun nd => nd = Terminal Epsilon) es.
Proof.
  destruct (rnodes_split j) as (es & -> & He). rewrite skipn_app. eexists. split; [reflexivity|]. apply Forall_skipn; auto.
Qed.

Lemma nextn_sbody j p : nextn ig j p = nth_error (sbody j) p.
Proof.
  unfold nextn. destruct (skipn_rnodes j p) as (es & -> & He). rewrite skipn_S_nth.
  destruct (nth_error (sbody j) p) as [nd|] eqn:Hn; simpl; [|apply find_all_eps; auto].
  apply nth_error_In, sbody_neps in Hn. rewrite Hn. reflexivity.
Qed.

Lemma nextl_sbody j p l : nextl ig j p = Some l <-> nth_error (sbody j) p = Some (Production l).
Proof.
  unfold nextl. destruct (skipn_rnodes j p) as (es & -> & He). rewrite skipn_S_nth.
  destruct (nth_error (sbody j) p) as [[a|l']|] eqn:Hn; simpl; [split; discriminate| |].
  - split; intros Hx; injection Hx as <-; reflexivity.
  - destruct He as [|? ? ->]; simpl; split; discriminate.
Qed.

Lemma ffirst_sbody F j p a : ffirst F (skipn p (rnodes ig j)) a = ffirst F (skipn p (sbody j)) a.
Proof.
  destruct (skipn_rnodes j p) as (es & -> & He). induction (skipn p (sbody j)) as [|[[t| |]|l] ns IH]; simpl; auto.
  - induction He; subst; simpl; auto.
  - rewrite IH. auto.
Qed.

Lemma fnull_sbody F j p : fnull F (skipn p (rnodes ig j)) = fnull F (skipn p (sbody j)).
Proof.
  destruct (skipn_rnodes j p) as (es & -> & He). induction (skipn p (sbody j)) as [|[[t| |]|l] ns IH]; simpl; auto.
  - induction He; subst; simpl; auto.
  - rewrite IH. auto.
Qed.
End Strip.

(** From the grammar to its indexed form and back. *)
Section Transfer.
Context {T L : Type} `{EqDec T} `{EqDec L}.
Variable g : grammar T L.
Variable ig : indexed_grammar T L.
Hypothesis Hix : indexes g ig.
Local Notation nrel := (inode_rel ig).
Local Notation arel := (aug_rel (ivocab ig)).

Lemma arel_fun a b a' : arel a a' -> arel b a' -> a = b.
Proof.
  destruct a, b, a'; simpl; try tauto. intros H1 H2. f_equal. eapply (tok_rel_fun_l ig); eauto.
Qed.
Lemma arel_inj a a' b' : arel a a' -> arel a b' -> a' = b'.
Proof.
  destruct a, a', b'; simpl; try tauto. intros H1 H2. f_equal. eapply (tok_rel_inj g ig Hix); eauto.
Qed.
Lemma nrel_fun x y x' : nrel x x' -> nrel y x' -> x = y.
Proof.
  destruct x, y, x'; simpl; try tauto; intros H1 H2; f_equal; [eapply arel_fun|eapply (ilabel_fun ig)]; eauto.
Qed.
Lemma nrel_inj x x' y' : nrel x x' -> nrel x y' -> x' = y'.
Proof.
  destruct x, x', y'; simpl; try tauto; intros H1 H2; f_equal; [eapply arel_inj|eapply (ilabel_inj g ig Hix)]; eauto.
Qed.
Lemma nrels_inj xs xs' ys' : Forall2 nrel xs xs' -> Forall2 nrel xs ys' -> xs' = ys'.
Proof.
  intros Hf. revert ys'. induction Hf; intros ys' Hf'; inversion Hf'; subst; auto. f_equal; auto. eapply nrel_inj; eauto.
Qed.
Lemma nrels_fun xs ys xs' : Forall2 nrel xs xs' -> Forall2 nrel ys xs' -> xs = ys.
Proof.
  intros Hf. revert ys. induction Hf; intros ys' Hf'; inversion Hf'; subst; auto. f_equal; auto. eapply nrel_fun; eauto.
Qed.
Lemma arel_eps a a' : arel a a' -> (a = Epsilon <-> a' = Epsilon).
Proof. destruct a, a'; simpl; try tauto; intuition discriminate. Qed.

Lemma nrel_eps x x' : nrel x x' -> is_epsilon x = is_epsilon x'.
Proof. destruct x as [[| |]|], x' as [[| |]|]; simpl; tauto. Qed.

Lemma rels_strip ns ns' : Forall2 nrel ns ns' -> Forall2 nrel (filter (fun nd => negb (is_epsilon nd)) ns) (strip ns').
Proof.
  unfold strip. induction 1 as [|x x' ns ns' Hx Hf IH]; simpl; auto. rewrite (nrel_eps _ _ Hx). destruct (is_epsilon x'); simpl; auto.
Qed.

Local Notation rule_of := (rule_of ig).

Lemma rule_of_fun j i i' : rule_of j i -> rule_of j i' -> i = i'.
Proof. intros (r & H1 & <-) (r' & H2 & <-). congruence. Qed.
Lemma rule_of_inj j j' i : rule_of j i -> rule_of j' i -> j = j'.
Proof. intros (r & H1 & H2) (r' & H3 & H4). eapply (ix_orig_inj g ig Hix); eauto. congruence. Qed.
Lemma rule_of_0 : rule_of 0 0.
Proof. destruct (ix_root_rule g ig Hix) as (r & ir & _ & Hir & _ & Ho & _). exists ir. auto. Qed.
Lemma rule_of_total i r : nth_error g i = Some r -> exists j, rule_of j i.
Proof. intros Hi. destruct (ix_rule_fwd g ig Hix _ _ Hi) as (j & ir & Hir & _ & Ho & _). exists j, ir. auto. Qed.

Lemma body_rel j i : rule_of j i -> Forall2 nrel (body g i) (sbody ig j).
Proof.
  intros (ir & Hir & <-). destruct (ix_rule_bwd g ig Hix _ _ Hir) as (r & Hr & _ & _ & Hns).
  unfold body, sbody, rnodes. rewrite Hr, Hir. apply rels_strip. exact Hns.
Qed.

Lemma Forall2_nth_r {A B} (P : A -> B -> Prop) l l' i y : Forall2 P l l' -> nth_error l' i = Some y ->
  exists x, nth_error l i = Some x /\ P x y.
Proof.
  intros Hf. revert i. induction Hf as [|a b l l' Hab Hf IH]; intros [|i] Hi; try discriminate; simpl in *; eauto.
  injection Hi as <-. eauto.
Qed.
Lemma Forall2_skipn {A B} (P : A -> B -> Prop) l l' p : Forall2 P l l' -> Forall2 P (skipn p l) (skipn p l').
Proof. intros Hf. revert p. induction Hf; intros [|p]; simpl; auto. Qed.

(** Labels and rules. *)
Lemma rsym_fwd i r j k : nth_error g i = Some r -> rule_of j i -> ilabel ig k (symbol r) -> rsym ig j k.
Proof.
  intros Hi (ir & Hir & <-) Hk. destruct (ix_rule_bwd g ig Hix _ _ Hir) as (r' & Hr & Hl & _). rewrite Hi in Hr. injection Hr as <-.
  exists ir. split; auto. eapply (ilabel_inj g ig Hix); eauto.
Qed.
Lemma rsym_bwd j k l i : rsym ig j k -> ilabel ig k l -> rule_of j i -> exists r, nth_error g i = Some r /\ symbol r = l.
Proof.
  intros (ir & Hir & <-) Hk (ir' & Hir' & <-). rewrite Hir in Hir'. injection Hir' as <-.
  destruct (ix_rule_bwd g ig Hix _ _ Hir) as (r & Hr & Hl & _). exists r. split; auto. eapply (ilabel_fun ig); eauto.
Qed.

(** Sound and complete FIRST facts. *)
Variable F : first_table.
Hypothesis HF : FInv ig F.

Lemma JNs_vanishes ns' ns : JNs ig F ns' -> Forall2 nrel ns ns' -> vanishes g ns.
Proof.
  intros Hj Hns. destruct (proj2 (JN_derives ig F) _ Hj) as (ts & D).
  destruct (derives_bwd _ _ Hix _ _ _ D _ Hns) as (w & ts' & D' & Hw & _). inversion Hw; subst. apply vanishes_iff. eauto.
Qed.

Lemma fnull_vanishes ns' ns : fnull F ns' = true -> Forall2 nrel ns ns' -> vanishes g ns.
Proof. intros Hn. apply JNs_vanishes. apply fnull_JNs; auto. Qed.

Lemma JF_fst : (forall k a', JF ig F k a' -> forall l, ilabel ig k l -> exists a, arel a a' /\ fst_of g [Production l] a) /\
  (forall ns' a', JFs ig F ns' a' -> forall ns, Forall2 nrel ns ns' -> exists a, arel a a' /\ fst_of g ns a).
Proof.
  apply (JF_mutind ig F (fun k a' _ => forall l, ilabel ig k l -> exists a, arel a a' /\ fst_of g [Production l] a)
    (fun ns' a' _ => forall ns, Forall2 nrel ns ns' -> exists a, arel a a' /\ fst_of g ns a)).
  - intros j ir a' Hj _ _ IH l Hl. destruct (ix_rule_bwd g ig Hix _ _ Hj) as (r & Hr & Hl' & _ & Hns). simpl in *.
    destruct (IH _ Hns) as (a & Ha & Hf). exists a. split; auto. rewrite (ilabel_fun ig _ _ _ Hl Hl'). apply fst_here; auto. eapply nth_error_In; eauto.
  - intros a' ns' Ha ns Hns. inversion Hns as [|x ? ns0 ? Hx Hns0]; subst. destruct x as [a|]; simpl in Hx; [|tauto].
    exists a. split; auto. apply fst_tok. intros ->. apply Ha. apply (arel_eps _ _ Hx). auto.
  - intros ns' a' _ IH ns Hns. inversion Hns as [|x ? ns0 ? Hx Hns0]; subst. destruct (IH _ Hns0) as (a & Ha & Hf).
    exists a. split; auto. destruct x as [[| |]|]; simpl in Hx; try tauto. apply fst_eps; auto.
  - intros k ns' a' Hj _ IH ns Hns. inversion Hns as [|x ? ns0 ? Hx Hns0]; subst. destruct (IH _ Hns0) as (a & Ha & Hf).
    exists a. split; auto. destruct x as [|l]; simpl in Hx; [tauto|]. apply fst_null; auto.
    apply (JNs_vanishes [Production k]); [constructor; auto; constructor|]. constructor; auto.
  - intros k ns' a' _ IH ns Hns. inversion Hns as [|x ? ns0 ? Hx Hns0]; subst. destruct x as [|l]; simpl in Hx; [tauto|].
    destruct (IH _ Hx) as (a & Ha & Hf). exists a. split; auto. apply (fst_of_app_l g [Production l]). auto.
Qed.

Lemma ffirst_begins ns' ns a' : ffirst F ns' a' = true -> a' <> Epsilon -> Forall2 nrel ns ns' -> exists a, arel a a' /\ begins g ns a.
Proof.
  intros Hf Ha Hns. apply (proj1 (ffirst_JFs ig F ns' a' HF Ha)) in Hf. destruct (proj2 JF_fst _ _ Hf _ Hns) as (a & H1 & H2).
  exists a. split; auto. apply begins_iff. auto.
Qed.

Hypothesis HFc : Fclosed ig F.

Lemma vanishes_fnull ns ns' : vanishes g ns -> Forall2 nrel ns ns' -> fnull F ns' = true.
Proof.
  intros Hv Hns. apply vanishes_iff in Hv as (ts & D). destruct (derives_fwd _ _ Hix _ _ _ D _ Hns) as (w' & ts' & D' & Hw & _).
  inversion Hw; subst. eapply derives_fnull; eauto.
Qed.

Lemma begins_ffirst ns a : begins g ns a -> forall ns' a', Forall2 nrel ns ns' -> arel a a' -> ffirst F ns' a' = true.
Proof.
  intros Hb. apply begins_iff in Hb.
  induction Hb as [a ns Ha|ns a Hf IH|l ns a Hv Hf IH|r ns a Hr Hf IH]; intros ns0 a' Hns Har; inversion Hns as [|? x ? ns' Hx Hns']; subst.
  - destruct x as [b|]; simpl in Hx; [|tauto]. rewrite (arel_inj _ _ _ Hx Har).
    assert (a' <> Epsilon) by (intros ->; apply Ha; apply (arel_eps _ _ Har); auto). simpl. destruct a'; try congruence; apply eqb_refl.
  - destruct x as [[| |]|]; simpl in Hx; try tauto. simpl. auto.
  - destruct x as [|k]; simpl in Hx; [tauto|]. simpl. apply orb_true_iff. right. apply andb_true_iff. split; auto.
    pose proof (vanishes_fnull [Production l] [Production k] Hv) as Hn. simpl in Hn. rewrite andb_true_r in Hn.
    apply Hn. constructor; auto.
  - destruct x as [|k]; simpl in Hx; [tauto|]. simpl. apply orb_true_iff. left.
    apply In_nth_error in Hr as (i & Hi). destruct (ix_rule_fwd g ig Hix _ _ Hi) as (j & ir & Hir & Hl & _ & Hns2). simpl in *.
    specialize (IH _ _ Hns2 Har). destruct (HFc ir (nth_error_In _ _ Hir)) as (_ & Hc).
    rewrite (ilabel_inj g ig Hix _ _ _ Hx Hl). apply Hc; auto. intros ->. apply fst_of_neps in Hf. apply Hf. apply (arel_eps _ _ Har). auto.
Qed.
End Transfer.

(** Items. *)
Section Items.
Context {T L : Type} `{EqDec T} `{EqDec L}.
Variable g : grammar T L.
Variable ig : indexed_grammar T L.
Hypothesis Hix : indexes g ig.
Hypothesis Heps : eps_trailing g.
Variable F : first_table.
Hypothesis HF : FInv ig F.
Local Notation nrel := (inode_rel ig).
Local Notation arel := (aug_rel (ivocab ig)).
Local Notation rule_of := (rule_of ig).

Let Hepsi : eps_trailing (igram ig) := eps_trailing_ig _ _ Hix Heps.

Lemma next_fwd j i p X : rule_of j i -> next g i p = Some X -> exists X', nextn ig j p = Some X' /\ nrel X X'.
Proof.
  intros Hr Hn. rewrite nextn_sbody by auto. eapply Forall2_nth_l; eauto. eapply body_rel; eauto.
Qed.
Lemma next_bwd j i p X' : rule_of j i -> nextn ig j p = Some X' -> exists X, next g i p = Some X /\ nrel X X'.
Proof.
  intros Hr Hn. rewrite nextn_sbody in Hn by auto. eapply Forall2_nth_r; eauto. eapply body_rel; eauto.
Qed.
Lemma next_none j i p : rule_of j i -> (next g i p = None <-> nextn ig j p = None).
Proof.
  intros Hr. split; intros Hn.
  - destruct (nextn ig j p) as [X'|] eqn:Hx; auto. destruct (next_bwd _ _ _ _ Hr Hx) as (X & HX & _). congruence.
  - destruct (next g i p) as [X|] eqn:Hx; auto. destruct (next_fwd _ _ _ _ Hr Hx) as (X' & HX & _). congruence.
Qed.
Lemma nextl_next j p l : nextl ig j p = Some l <-> nextn ig j p = Some (Production l).
Proof. rewrite nextl_sbody, nextn_sbody by auto. tauto. Qed.

Lemma after_rel j i p : rule_of j i -> Forall2 nrel (after g i p) (skipn (p + 1) (sbody ig j)).
Proof.
  intros Hr. unfold after. replace (S p) with (p + 1) by lia. apply Forall2_skipn. eapply body_rel; eauto.
Qed.

Lemma core_rule γ j p : core ig γ j p -> exists i, rule_of j i.
Proof.
  intros Hc. apply (core_bound ig (ix_wf _ _ Hix)) in Hc as (Hj & _). apply nth_error_Some in Hj.
  destruct (nth_error (rules ig) j) as [ir|] eqn:Hir; [|congruence]. exists (original_index ir), ir. auto.
Qed.

Lemma item_bwd γ' j p : core ig γ' j p -> exists γ i, Forall2 nrel γ (rev γ') /\ rule_of j i /\ item g γ i p.
Proof.
  induction 1 as [|γ' j p k j' Hc (γ & i & Hγ & Hr & IH) Hl Hs|γ' j p X' Hc (γ & i & Hγ & Hr & IH) Hn].
  - exists [], 0. split; [constructor|]. split; [apply (rule_of_0 g ig Hix)|constructor].
  - apply nextl_next in Hl. destruct (next_bwd _ _ _ _ Hr Hl) as (X & HX & Hrel). destruct X as [|l]; simpl in Hrel; [tauto|].
    pose proof Hs as (ir & Hir & Hsy).
    assert (Hj' : rule_of j' (original_index ir)) by (exists ir; auto).
    destruct (rsym_bwd g ig Hix _ _ _ _ Hs Hrel Hj') as (r & Hr' & <-).
    exists γ, (original_index ir). split; auto. split; auto. eapply item_closure; eauto.
  - destruct (next_bwd _ _ _ _ Hr Hn) as (X & HX & Hrel). exists (γ ++ [X]), i. split; [simpl; apply Forall2_app; auto|].
    split; auto. replace (p + 1) with (S p) by lia. constructor; auto.
Qed.

Lemma item_fwd γ i p : item g γ i p -> exists γ' j, Forall2 nrel γ (rev γ') /\ rule_of j i /\ core ig γ' j p.
Proof.
  induction 1 as [|γ i p i' r Hc (γ' & j & Hγ & Hr & IH) Hn Hi|γ i p X Hc (γ' & j & Hγ & Hr & IH) Hn].
  - exists [], 0. split; [constructor|]. split; [apply (rule_of_0 g ig Hix)|constructor].
  - destruct (next_fwd _ _ _ _ Hr Hn) as (X' & HX & Hrel). destruct X' as [|k]; simpl in Hrel; [tauto|].
    destruct (rule_of_total g ig Hix _ _ Hi) as (j' & Hj').
    exists γ', j'. split; auto. split; auto. eapply core_close; [exact IH|apply nextl_next; exact HX|]. eapply (rsym_fwd g ig); eauto.
  - destruct (next_fwd _ _ _ _ Hr Hn) as (X' & HX & Hrel). exists (X' :: γ'), j. split; [simpl; apply Forall2_app; auto|].
    split; auto. replace (S p) with (p + 1) by lia. constructor; auto.
Qed.

Lemma item_iff γ γ' i j p : Forall2 nrel γ (rev γ') -> rule_of j i -> (item g γ i p <-> core ig γ' j p).
Proof.
  intros Hγ Hr. split; intros Hx.
  - destruct (item_fwd _ _ _ Hx) as (δ & j' & Hδ & Hr' & Hc). rewrite (rule_of_inj g ig Hix _ _ _ Hr Hr').
    pose proof (nrels_inj g ig Hix _ _ _ Hγ Hδ) as He. apply (f_equal (@rev _)) in He. rewrite !rev_involutive in He. subst. auto.
  - destruct (item_bwd _ _ _ Hx) as (δ & i' & Hδ & Hr' & Hc). rewrite (rule_of_fun ig _ _ _ Hr Hr').
    rewrite (nrels_fun ig _ _ _ Hγ Hδ). auto.
Qed.

Lemma look_bwd γ' j p a' : look ig F γ' j p a' -> exists γ i a, Forall2 nrel γ (rev γ') /\ rule_of j i /\ arel a a' /\ lookahead g γ i p a.
Proof.
  induction 1 as [|γ' j p k j' a' Hc Hl Hs Ha Hf|γ' j p k j' a' Hc (γ & i & a & Hγ & Hr & Har & IH) Hl Hs Hf|γ' j p X' a' Hc (γ & i & a & Hγ & Hr & Har & IH) Hn].
  - exists [], 0, EndOfStream. split; [constructor|]. split; [apply (rule_of_0 g ig Hix)|]. split; [exact I|constructor].
  - destruct (item_bwd _ _ _ Hc) as (γ & i & Hγ & Hr & Hit).
    apply nextl_next in Hl. destruct (next_bwd _ _ _ _ Hr Hl) as (X & HX & Hrel). destruct X as [|l]; simpl in Hrel; [tauto|].
    pose proof Hs as (ir & Hir & Hsy).
    assert (Hj' : rule_of j' (original_index ir)) by (exists ir; auto).
    destruct (rsym_bwd g ig Hix _ _ _ _ Hs Hrel Hj') as (r & Hr' & <-).
    rewrite ffirst_sbody in Hf by auto.
    destruct (ffirst_begins g ig Hix F HF _ _ _ Hf Ha (after_rel _ _ p Hr)) as (a & Har & Hb).
    exists γ, (original_index ir), a. split; auto. split; auto. split; auto. eapply lookahead_first; eauto.
  - apply nextl_next in Hl. destruct (next_bwd _ _ _ _ Hr Hl) as (X & HX & Hrel). destruct X as [|l]; simpl in Hrel; [tauto|].
    pose proof Hs as (ir & Hir & Hsy).
    assert (Hj' : rule_of j' (original_index ir)) by (exists ir; auto).
    destruct (rsym_bwd g ig Hix _ _ _ _ Hs Hrel Hj') as (r & Hr' & <-).
    rewrite fnull_sbody in Hf by auto.
    pose proof (fnull_vanishes g ig Hix F HF _ _ Hf (after_rel _ _ p Hr)) as Hv.
    exists γ, (original_index ir), a. split; auto. split; auto. split; auto. eapply lookahead_follow; eauto.
  - destruct (next_bwd _ _ _ _ Hr Hn) as (X & HX & Hrel). exists (γ ++ [X]), i, a. split; [simpl; apply Forall2_app; auto|].
    split; auto. split; auto. replace (p + 1) with (S p) by lia. constructor; auto.
Qed.

Lemma lookahead_of_look γ γ' i j p a a' : Forall2 nrel γ (rev γ') -> rule_of j i -> arel a a' -> look ig F γ' j p a' -> lookahead g γ i p a.
Proof.
  intros Hγ Hr Ha Hx. destruct (look_bwd _ _ _ _ Hx) as (δ & i' & b & Hδ & Hr' & Hb & Hc).
  rewrite (rule_of_fun ig _ _ _ Hr Hr'), (nrels_fun ig _ _ _ Hγ Hδ), (arel_fun ig _ _ _ Ha Hb). auto.
Qed.

Lemma may_reduce_bwd γ' j a' : gcomplete ig F γ' j a' -> forall γ i a, Forall2 nrel γ (rev γ') -> rule_of j i -> arel a a' -> may_reduce g γ i a.
Proof.
  intros (p & Hc & Hn & Hz & Hnz) γ i a Hγ Hr Ha. exists p. split; [eapply item_iff; eauto|]. split; [eapply next_none; eauto|].
  split.
  - intros ->. rewrite (rule_of_inj g ig Hix _ _ _ Hr (rule_of_0 g ig Hix)) in Hz. specialize (Hz eq_refl). subst a'.
    destruct a; simpl in Ha; tauto.
  - intros Hne. eapply lookahead_of_look; eauto. apply Hnz. intros ->. apply Hne.
    eapply (rule_of_fun ig); eauto. apply (rule_of_0 g ig Hix).
Qed.

Lemma may_shift_bwd γ' a' : gshift ig γ' a' -> forall γ a, Forall2 nrel γ (rev γ') -> arel a a' -> may_shift g γ a.
Proof.
  intros (j & p & Hc & Hn) γ a Hγ Ha. destruct (core_rule _ _ _ Hc) as (i & Hr).
  destruct (next_bwd _ _ _ _ Hr Hn) as (X & HX & Hrel). destruct X as [b|]; simpl in Hrel; [|tauto].
  rewrite (arel_fun ig _ _ _ Ha Hrel). exists i, p. split; auto. eapply item_iff; eauto.
Qed.

Hypothesis HFc : Fclosed ig F.

Lemma look_fwd γ i p a : lookahead g γ i p a -> exists γ' j a', Forall2 nrel γ (rev γ') /\ rule_of j i /\ arel a a' /\ look ig F γ' j p a'.
Proof.
  induction 1 as [|γ i p i' r a Hc Hn Hi Hb|γ i p a i' r Hc (γ' & j & a' & Hγ & Hr & Har & IH) Hn Hi Hv|γ i p a X Hc (γ' & j & a' & Hγ & Hr & Har & IH) Hn].
  - exists [], 0, EndOfStream. split; [constructor|]. split; [apply (rule_of_0 g ig Hix)|]. split; [exact I|constructor].
  - destruct (item_fwd _ _ _ Hc) as (γ' & j & Hγ & Hr & Hcore).
    destruct (next_fwd _ _ _ _ Hr Hn) as (X' & HX & Hrel). destruct X' as [|k]; simpl in Hrel; [tauto|].
    destruct (rule_of_total g ig Hix _ _ Hi) as (j' & Hj').
    assert (Har : exists a', arel a a').
    { clear -Hb Hix. apply begins_iff in Hb. remember (after g i p) as ns eqn:Hns.
      assert (Hsub : forall nd, In nd ns -> exists r, In r g /\ In nd (rhs r)).
      { intros nd Hnd. subst ns. apply in_skipn in Hnd. apply body_in in Hnd as (r & ? & ? & _). eauto. }
      clear Hns. induction Hb as [a ns Ha|ns a Hf IH|l ns a Hv Hf IH|r ns a Hr Hf IH].
      - destruct (Hsub (Terminal a) (or_introl eq_refl)) as (r & Hr & Hin). apply In_nth_error in Hr as (i0 & Hr).
        destruct (ix_rule_fwd g ig Hix _ _ Hr) as (j & ir & _ & _ & _ & Hns). simpl in Hns.
        destruct (Forall2_in_l _ _ _ _ Hns Hin) as ([a'|] & _ & Hx); simpl in Hx; [eauto|tauto].
      - apply IH. intros nd Hnd. apply Hsub. simpl; auto.
      - apply IH. intros nd Hnd. apply Hsub. simpl; auto.
      - apply IH. intros nd Hnd. eauto. }
    destruct Har as (a' & Har). exists γ', j', a'. split; auto. split; auto. split; auto.
    eapply look_first; [exact Hcore|apply nextl_next; exact HX|eapply (rsym_fwd g ig); eauto| |].
    + intros ->. destruct Hb as (Hb & _). apply Hb. apply (arel_eps ig _ _ Har). auto.
    + rewrite ffirst_sbody by auto. eapply (begins_ffirst g ig Hix F HFc); eauto. apply after_rel; auto.
  - destruct (next_fwd _ _ _ _ Hr Hn) as (X' & HX & Hrel). destruct X' as [|k]; simpl in Hrel; [tauto|].
    destruct (rule_of_total g ig Hix _ _ Hi) as (j' & Hj').
    exists γ', j', a'. split; auto. split; auto. split; auto.
    eapply look_follow; [exact IH|apply nextl_next; exact HX|eapply (rsym_fwd g ig); eauto|].
    rewrite fnull_sbody by auto. eapply (vanishes_fnull g ig Hix F HFc); eauto. apply after_rel; auto.
  - destruct (next_fwd _ _ _ _ Hr Hn) as (X' & HX & Hrel). exists (X' :: γ'), j, a'. split; [simpl; apply Forall2_app; auto|].
    split; auto. split; auto. replace (S p) with (p + 1) by lia. constructor; auto.
Qed.

Lemma lookahead_iff γ γ' i j p a a' : Forall2 nrel γ (rev γ') -> rule_of j i -> arel a a' -> (lookahead g γ i p a <-> look ig F γ' j p a').
Proof.
  intros Hγ Hr Ha. split; [|eapply lookahead_of_look; eauto]. intros Hx.
  destruct (look_fwd _ _ _ _ Hx) as (δ & j' & b & Hδ & Hr' & Hb & Hc).
  rewrite (rule_of_inj g ig Hix _ _ _ Hr Hr'), (arel_inj g ig Hix _ _ _ Ha Hb).
  pose proof (nrels_inj g ig Hix _ _ _ Hγ Hδ) as He. apply (f_equal (@rev _)) in He. rewrite !rev_involutive in He. subst. auto.
Qed.

Lemma may_reduce_fwd γ i a : may_reduce g γ i a -> exists γ' j a', Forall2 nrel γ (rev γ') /\ rule_of j i /\ arel a a' /\ gcomplete ig F γ' j a'.
Proof.
  intros (p & Hit & Hn & Hz & Hnz). destruct (item_fwd _ _ _ Hit) as (γ' & j & Hγ & Hr & Hc).
  destruct (Nat.eq_dec i 0) as [->|Hne].
  - specialize (Hz eq_refl). subst a. exists γ', j, EndOfStream. split; auto. split; auto. split; [exact I|].
    exists p. split; auto. split; [eapply next_none; eauto|]. split; auto. intros Hj. exfalso. apply Hj.
    apply (rule_of_inj g ig Hix _ _ _ Hr (rule_of_0 g ig Hix)).
  - specialize (Hnz Hne). destruct (look_fwd _ _ _ _ Hnz) as (δ & j' & a' & Hδ & Hr' & Ha & Hlk).
    exists δ, j', a'. split; auto. split; auto. split; auto. exists p. split; [eapply look_core; eauto|].
    split; [eapply next_none; eauto|]. split; auto. intros ->. exfalso. apply Hne. apply (rule_of_fun ig _ _ _ Hr' (rule_of_0 g ig Hix)).
Qed.

Lemma may_shift_fwd γ a : may_shift g γ a -> exists γ' a', Forall2 nrel γ (rev γ') /\ arel a a' /\ gshift ig γ' a'.
Proof.
  intros (i & p & Hit & Hn). destruct (item_fwd _ _ _ Hit) as (γ' & j & Hγ & Hr & Hc).
  destruct (next_fwd _ _ _ _ Hr Hn) as (X' & HX & Hrel). destruct X' as [a'|]; simpl in Hrel; [|tauto].
  exists γ', a'. split; auto. split; auto. exists j, p. auto.
Qed.
End Items.

(** A finished table has a state for every viable prefix, hence no conflicts. *)
Section States.
Context {T L : Type} `{EqDec T} `{EqDec L}.
Variable ig : indexed_grammar T L.
Hypothesis Hwf : wf_ig ig.
Variable F : first_table.
Variables (t : lr_table) (ks : list kernel) (acts : nat -> aug nat -> option action) (gts : nat -> nat -> option nat).
Hypothesis Hok : table_ok ig F t ks acts gts.

Lemma core_cons X γ i p : core ig (X :: γ) i p -> exists i' p', core ig γ i' p' /\ nextn ig i' p' = Some X.
Proof.
  intros Hc. remember (X :: γ) as δ eqn:Hδ. induction Hc as [|δ i p l j Hc IH Hl Hr|δ i p Y Hc IH Hn]; [discriminate|auto|].
  injection Hδ as -> ->. eauto.
Qed.

Lemma state_of γ : (exists i p, core ig γ i p) -> exists s K, nth_error ks s = Some K /\ rep ig F K γ.
Proof.
  induction γ as [|X γ IH]; intros (i & p & Hc).
  - destruct (to_root _ _ _ _ _ _ Hok) as (K & HK & Hr). eauto.
  - destruct (core_cons _ _ _ _ Hc) as (i' & p' & Hc' & Hn). destruct IH as (s & K & HK & Hr); [eauto|].
    pose proof (proj1 Hr) as R1. apply R1 in Hc'. destruct X as [a|l].
    + destruct (to_shift_c _ _ _ _ _ _ Hok _ _ _ _ _ HK Hc' Hn) as (s' & Hs').
      destruct (to_shift _ _ _ _ _ _ Hok _ _ _ _ HK Hs') as ((K' & HK' & Hg) & _). exists s', K'. split; auto.
      eapply rep_step; eauto.
    + destruct (to_goto_c _ _ _ _ _ _ Hok _ _ _ _ _ HK Hc' Hn) as (s' & Hs').
      destruct (to_goto _ _ _ _ _ _ Hok _ _ _ _ HK Hs') as ((K' & HK' & Hg) & _). exists s', K'. split; auto.
      eapply rep_step; eauto.
Qed.

Lemma gcomplete_act γ s K j a : nth_error ks s = Some K -> rep ig F K γ -> gcomplete ig F γ j a ->
  acts s a = Some (if j =? 0 then Accept else Reduce j).
Proof.
  intros HK (R1 & R2) (p & Hc & Hn & Hz & Hnz). destruct (Nat.eqb_spec j 0) as [->|Hne].
  - rewrite (Hz eq_refl). eapply (to_accept_c _ _ _ _ _ _ Hok); eauto. apply R1; auto.
  - eapply (to_reduce_c _ _ _ _ _ _ Hok); eauto. apply R2. auto.
Qed.

Lemma table_no_conflict γ j a : gcomplete ig F γ j a -> (forall j', gcomplete ig F γ j' a -> j = j') /\ ~ gshift ig γ a.
Proof.
  intros Hg. destruct (state_of γ) as (s & K & HK & Hr); [destruct Hg as (p & Hc & _); eauto|].
  pose proof (gcomplete_act _ _ _ _ _ HK Hr Hg) as Ha. split.
  - intros j' Hg'. pose proof (gcomplete_act _ _ _ _ _ HK Hr Hg') as Ha'. rewrite Ha in Ha'.
    destruct (Nat.eqb_spec j 0), (Nat.eqb_spec j' 0); congruence.
  - intros (i & p & Hc & Hn). apply (proj1 Hr) in Hc. destruct (to_shift_c _ _ _ _ _ _ Hok _ _ _ _ _ HK Hc Hn) as (s' & Hs').
    rewrite Ha in Hs'. destruct (j =? 0); discriminate.
Qed.
End States.
