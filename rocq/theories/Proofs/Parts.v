(** Parts of grammars without conflicts have none. *)
From Coq Require Import Arith List Permutation Lia.
From Verif Require Import Base.Prelude Spec.Grammar Spec.Validity Spec.Nullable Spec.Observers Spec.LR1 Spec.Redundant Spec.Parts Model.Error.
From Verif Require Import Model.IndexedGrammar Model.FirstMap Model.LRTable Model.ParseSimulator.
From Verif Require Import Proofs.LR1Proofs Proofs.LR1Final Proofs.Redundant Proofs.RecognitionFinal.
Import ListNotations.

Section Body.
Context {T L : Type}.
Lemma body_eq (g g' : grammar T L) i j r : nth_error g i = Some r -> nth_error g' j = Some r -> body g i = body g' j.
Proof. intros H1 H2. unfold body. now rewrite H1, H2. Qed.
Lemma next_some (g : grammar T L) i p X : next g i p = Some X -> exists r, nth_error g i = Some r.
Proof. unfold next, body. destruct (nth_error g i); eauto. destruct p; discriminate. Qed.
Lemma next_eq (g g' : grammar T L) i j r p : nth_error g i = Some r -> nth_error g' j = Some r -> next g i p = next g' j p.
Proof. intros H1 H2. unfold next. now rewrite (body_eq g g' i j r). Qed.
Lemma after_eq (g g' : grammar T L) i j r p : nth_error g i = Some r -> nth_error g' j = Some r -> after g i p = after g' j p.
Proof. intros H1 H2. unfold after. now rewrite (body_eq g g' i j r). Qed.
Lemma item_in (g : grammar T L) γ i p : nth_error g 0 <> None -> item g γ i p -> exists r, nth_error g i = Some r.
Proof. intros H. induction 1; eauto. destruct (nth_error g 0); [eauto|easy]. Qed.
Lemma lookahead_in (g : grammar T L) γ i p a : nth_error g 0 <> None -> lookahead g γ i p a -> exists r, nth_error g i = Some r.
Proof. intros H. induction 1; eauto. destruct (nth_error g 0); [eauto|easy]. Qed.
End Body.

(** ** Fewer rules *)
Section Fewer.
Context {T L : Type}.
Variables g g' : grammar T L.
Variable f : nat -> nat.
Hypothesis H0 : nth_error g' 0 <> None.
Hypothesis Hf0 : f 0 = 0.
Hypothesis Hinj : forall i j, f i = f j -> i = j.
Hypothesis Hf : forall i r, nth_error g' i = Some r -> nth_error g (f i) = Some r.

Lemma fewer_step ns ns' : step g' ns ns' -> step g ns ns'.
Proof. destruct 1 as [pre r post Hr|]; constructor. apply In_nth_error in Hr as (i & Hi). eapply nth_error_In; eauto. Qed.
Lemma fewer_steps ns ns' : steps g' ns ns' -> steps g ns ns'.
Proof. induction 1; econstructor; eauto using fewer_step. Qed.
Lemma fewer_begins ns a : begins g' ns a -> begins g ns a.
Proof. intros (H & ns' & Hs). split; auto. exists ns'. now apply fewer_steps. Qed.

Lemma fewer_item γ i p : item g' γ i p -> item g γ (f i) p.
Proof.
  induction 1 as [|γ i p j r Hi IH Hn Hj|γ i p X Hi IH Hn]; [rewrite Hf0; constructor|..]; destruct (item_in _ _ _ _ H0 Hi) as (r' & Hr');
    rewrite (next_eq g' g i (f i) r') in Hn by auto.
  - eapply item_closure; eauto.
  - now constructor.
Qed.
Lemma fewer_lookahead γ i p a : lookahead g' γ i p a -> lookahead g γ (f i) p a.
Proof.
  induction 1 as [|γ i p j r b Hi Hn Hj Hb|γ i p a j r Hi IH Hn Hj Hv|γ i p a X Hi IH Hn]; [rewrite Hf0; constructor|..].
  1: destruct (item_in _ _ _ _ H0 Hi) as (r' & Hr'). 2,3: destruct (lookahead_in _ _ _ _ _ H0 Hi) as (r' & Hr').
  all: rewrite (next_eq g' g i (f i) r') in Hn by auto.
  - rewrite (after_eq g' g i (f i) r') in Hb by auto. eapply lookahead_first; eauto using fewer_item, fewer_begins.
  - rewrite (after_eq g' g i (f i) r') in Hv by auto. eapply lookahead_follow; eauto. now apply fewer_steps.
  - now constructor.
Qed.
Lemma fewer_reduce γ i a : may_reduce g' γ i a -> may_reduce g γ (f i) a.
Proof.
  intros (p & H1 & H2 & H3 & H4). destruct (item_in _ _ _ _ H0 H1) as (r' & Hr'). exists p. split; [now apply fewer_item|].
  rewrite <- (next_eq g' g i (f i) r') by auto. split; auto. split.
  - intros E. apply H3, Hinj. congruence.
  - intros E. apply fewer_lookahead, H4. congruence.
Qed.
Lemma fewer_shift γ a : may_shift g' γ a -> may_shift g γ a.
Proof.
  intros (i & p & H1 & H2). destruct (item_in _ _ _ _ H0 H1) as (r' & Hr'). exists (f i), p. split; [now apply fewer_item|].
  rewrite <- (next_eq g' g i (f i) r') by auto. exact H2.
Qed.
Lemma fewer_free : conflict_free g -> conflict_free g'.
Proof.
  intros (F1 & F2). split.
  - intros γ i j a Hi Hj. apply Hinj. eapply F1; apply fewer_reduce; eauto.
  - intros γ i a Hi Hs. eapply F2; [apply fewer_reduce|apply fewer_shift]; eauto.
Qed.
End Fewer.

(** ** Another root *)
Section Root.
Context {T L : Type}.
Variables g g' : grammar T L.
Variable s l : L.
Variable rest' : grammar T L.
Variable f : nat -> nat.
Hypothesis Hg' : g' = mk_rule s [Production l] :: rest'.
Hypothesis Hclean : Forall (root_clean s) rest'.
Hypothesis Hsl : s <> l.
Hypothesis Hinj : forall i j, f i = f j -> i = j.
Hypothesis Hf : forall i r, nth_error rest' i = Some r -> nth_error g (f i) = Some r.
Hypothesis Hno : no_eos g.
(** The rules of [l] are looked for after [γ0], with [b0] following. *)
Variable γ0 : list (node T L).
Variable b0 : aug T.
Hypothesis Hentry : forall j r, nth_error g j = Some r -> symbol r = l -> item g γ0 j 0 /\ lookahead g γ0 j 0 b0.
Hypothesis Hroot0 : forall γ p a, lookahead g γ 0 p a -> a = EndOfStream.
Hypothesis Hself : ~ derives_itself g.
Hypothesis Hfree : conflict_free g.

Lemma rest_in r : In r rest' -> In r g.
Proof. intros H. apply In_nth_error in H as (i & Hi). eapply nth_error_In; eauto. Qed.
Lemma rest_clean r : In r rest' -> root_clean s r.
Proof. rewrite Forall_forall in Hclean. auto. Qed.
Lemma g'_S i : nth_error g' (S i) = nth_error rest' i.
Proof. now rewrite Hg'. Qed.

(** What has no [s] and no end of stream. *)
Definition plain (ns : list (node T L)) : Prop := ~ In (Production s) ns /\ ~ In (Terminal EndOfStream) ns.
Lemma plain_rhs r : In r rest' -> plain (rhs r).
Proof. intros H. split; [apply (rest_clean r H)|]. apply (Hno r). now apply rest_in. Qed.
Lemma plain_app a b : plain (a ++ b) <-> plain a /\ plain b.
Proof. unfold plain. rewrite !in_app_iff. tauto. Qed.
Lemma plain_skip n a : plain a -> plain (skipn n a).
Proof. rewrite <- (firstn_skipn n a) at 1. rewrite plain_app. tauto. Qed.
Lemma plain_body i : plain (body g' (S i)).
Proof.
  unfold body. rewrite g'_S. destruct (nth_error rest' i) as [r|] eqn:E; [|split; intros []].
  apply nth_error_In in E. destruct (plain_rhs r E) as (H1 & H2). split; intros Hin; apply filter_In in Hin as (Hin & _); auto.
Qed.
Lemma plain_after i p : plain (after g' (S i) p).
Proof. apply plain_skip, plain_body. Qed.

Lemma root_step ns ns' : step g' ns ns' -> plain ns -> step g ns ns' /\ plain ns'.
Proof.
  destruct 1 as [pre r post Hr|pre post]; intros Hp.
  - rewrite Hg' in Hr. destruct Hr as [<-|Hr]; [exfalso; apply (proj1 Hp); cbn; apply in_or_app; right; now left|].
    split; [constructor; now apply rest_in|]. rewrite plain_app in Hp. destruct Hp as (H1 & H2). change (Production (symbol r) :: post) with ([Production (symbol r)] ++ post) in H2.
    rewrite plain_app in H2. rewrite !plain_app. pose proof (plain_rhs r Hr). tauto.
  - split; [constructor|]. rewrite plain_app in *. change (Terminal Epsilon :: post) with ([Terminal Epsilon] ++ post) in Hp. rewrite plain_app in Hp. tauto.
Qed.
Lemma root_steps ns ns' : steps g' ns ns' -> plain ns -> steps g ns ns' /\ plain ns'.
Proof.
  induction 1 as [ns|ns n1 n2 H1 H2 IH]; intros Hp; [split; auto; constructor|].
  destruct (root_step _ _ H1 Hp) as (H3 & H4). destruct (IH H4) as (H5 & H6). split; auto. econstructor; eauto.
Qed.
Lemma root_begins ns a : begins g' ns a -> plain ns -> begins g ns a /\ a <> EndOfStream.
Proof.
  intros (H & ns' & Hs) Hp. destruct (root_steps _ _ Hs Hp) as (Hs' & _ & Hp'). split; [split; eauto|]. intros ->. apply Hp'. now left.
Qed.

Lemma next_0 p X : next g' 0 p = Some X -> p = 0 /\ X = Production l.
Proof. rewrite Hg'. destruct p as [|[|p]]; cbn; [|discriminate..]. now intros [= <-]. Qed.
Lemma next_S i p X : next g' (S i) p = Some X -> next g (f i) p = Some X /\ exists r, nth_error g' (S i) = Some r /\ nth_error g (f i) = Some r.
Proof.
  intros H. destruct (next_some _ _ _ _ H) as (r & Hr). pose proof Hr as Hr2. rewrite g'_S in Hr2. apply Hf in Hr2.
  rewrite (next_eq g' g (S i) (f i) r) in H by auto. eauto.
Qed.
Lemma not_s i p j r : next g' i p = Some (Production (symbol r)) -> nth_error g' j = Some r -> exists j', j = S j' /\ nth_error g (f j') = Some r /\ (i = 0 -> symbol r = l).
Proof.
  intros Hn Hj. destruct j as [|j].
  - exfalso. assert (E : symbol r = s) by (rewrite Hg' in Hj; now injection Hj as <-). rewrite E in Hn. destruct i as [|i].
    + apply next_0 in Hn as (_ & Hn). congruence.
    + apply nth_error_In in Hn. now apply plain_body in Hn.
  - exists j. rewrite g'_S in Hj. split; auto. split; auto. intros ->. apply next_0 in Hn as (_ & Hn). congruence.
Qed.

Lemma root_only γ i p : item g' γ i p -> i = 0 -> γ = [] /\ p = 0 \/ γ = [Production l] /\ p = 1.
Proof.
  induction 1 as [|γ i p j r Hi IH Hn Hj|γ i p X Hi IH Hn]; intros Ei; auto.
  - subst j. destruct (not_s _ _ _ _ Hn Hj) as (j' & E & _). discriminate.
  - subst i. apply next_0 in Hn as (-> & ->). destruct (IH eq_refl) as [(-> & _)|(_ & E)]; [auto|discriminate].
Qed.
Lemma root_0 γ p : item g' γ 0 p -> γ = [] /\ p = 0 \/ γ = [Production l] /\ p = 1.
Proof. intros H. eapply root_only; eauto. Qed.

Lemma root_item γ i p : item g' γ i p -> match i with 0 => True | S i => item g (γ0 ++ γ) (f i) p end.
Proof.
  induction 1 as [|γ i p j r Hi IH Hn Hj|γ i p X Hi IH Hn]; [exact I|..].
  - destruct (not_s _ _ _ _ Hn Hj) as (j' & -> & Hj' & Hl). destruct i as [|i].
    + apply next_0 in Hn as (-> & _). destruct (root_0 _ _ Hi) as [(-> & _)|(_ & E)]; [|discriminate]. rewrite app_nil_r. apply (Hentry _ _ Hj' (Hl eq_refl)).
    + apply next_S in Hn as (Hn & _). eapply item_closure; eauto.
  - destruct i as [|i]; [exact I|]. apply next_S in Hn as (Hn & _). rewrite app_assoc. now constructor.
Qed.

Lemma root_item_look γ i p a : lookahead g' γ i p a -> item g' γ i p.
Proof. induction 1; [constructor|eapply item_closure; eauto..|now constructor]. Qed.

Definition seen_as (a : aug T) : aug T := match a with EndOfStream => b0 | _ => a end.
Lemma seen_same a : a <> EndOfStream -> seen_as a = a.
Proof. now destruct a. Qed.

Lemma root_look_only γ i p a : lookahead g' γ i p a -> i = 0 -> a = EndOfStream.
Proof.
  induction 1 as [|γ i p j r b Hi Hn Hj Hb|γ i p a j r Hi IH Hn Hj Hv|γ i p a X Hi IH Hn]; intros Ei; auto; subst j.
  all: destruct (not_s _ _ _ _ Hn Hj) as (j' & E & _); discriminate.
Qed.
Lemma root_look_0 γ p a : lookahead g' γ 0 p a -> a = EndOfStream.
Proof. intros H. eapply root_look_only; eauto. Qed.

Lemma root_look γ i p a : lookahead g' γ i p a -> match i with 0 => True | S i => lookahead g (γ0 ++ γ) (f i) p (seen_as a) end.
Proof.
  induction 1 as [|γ i p j r b Hi Hn Hj Hb|γ i p a j r Hi IH Hn Hj Hv|γ i p a X Hi IH Hn]; [exact I|..].
  - destruct (not_s _ _ _ _ Hn Hj) as (j' & -> & Hj' & Hl). destruct i as [|i].
    + apply next_0 in Hn as (-> & _). exfalso. unfold after in Hb. rewrite Hg' in Hb. cbn in Hb. destruct Hb as (_ & ns & Hs). inversion Hs as [|? ? ? Hst]. inversion Hst; destruct pre; discriminate.
    + destruct (root_begins _ _ Hb (plain_after i p)) as (Hb' & He). rewrite (seen_same _ He). apply next_S in Hn as (Hn & r1 & Hr1 & Hr2).
      rewrite (after_eq g' g (S i) (f i) r1) in Hb' by auto. eapply lookahead_first; eauto. exact (root_item _ _ _ Hi).
  - destruct (not_s _ _ _ _ Hn Hj) as (j' & -> & Hj' & Hl). destruct i as [|i].
    + apply next_0 in Hn as (-> & _). rewrite (root_look_0 _ _ _ Hi). cbn [seen_as]. apply root_item_look, root_0 in Hi as [(-> & _)|(_ & E)]; [|discriminate].
      rewrite app_nil_r. apply (Hentry _ _ Hj' (Hl eq_refl)).
    + destruct (root_steps _ _ Hv (plain_after i p)) as (Hv' & _). apply next_S in Hn as (Hn & r1 & Hr1 & Hr2). rewrite (after_eq g' g (S i) (f i) r1) in Hv' by auto.
      eapply lookahead_follow; eauto.
  - destruct i as [|i]; [exact I|]. apply next_S in Hn as (Hn & _). rewrite app_assoc. now constructor.
Qed.

Lemma strip_steps (ns : list (node T L)) : steps g ns (filter (fun nd => negb (is_epsilon nd)) ns).
Proof.
  induction ns as [|nd ns IH]; [constructor|]. cbn [filter]. destruct nd as [[t| |]|x]; cbn [is_epsilon negb].
  - apply (steps_app g [Terminal (Token t)] [Terminal (Token t)]); [constructor|auto].
  - eapply steps_step; [apply (step_epsilon g [])|auto].
  - apply (steps_app g [Terminal EndOfStream] [Terminal EndOfStream]); [constructor|auto].
  - apply (steps_app g [Production x] [Production x]); [constructor|auto].
Qed.

Lemma body_steps i r : nth_error g i = Some r -> steps g (rhs r) (body g i).
Proof. intros H. unfold body. rewrite H. apply strip_steps. Qed.

Lemma next_skip (h : grammar T L) i p X : next h i p = Some X -> skipn p (body h i) = X :: after h i p.
Proof.
  unfold next, after. generalize (body h i). intros ns. revert p. induction ns as [|nd ns IH]; intros [|p] E; cbn in *; try discriminate; [now injection E as ->|auto].
Qed.

(** What follows up to the end is gone. *)
Lemma to_the_end γ i p a : lookahead g' γ i p a -> a = EndOfStream ->
  match i with 0 => True | S i => exists r, In r g /\ symbol r = l /\ steps g (rhs r) (γ ++ skipn p (body g (f i))) end.
Proof.
  induction 1 as [|γ i p j r b Hi Hn Hj Hb|γ i p a j r Hi IH Hn Hj Hv|γ i p a X Hi IH Hn]; intros Ea; [exact I|..].
  - exfalso. destruct i as [|i].
    + apply next_0 in Hn as (-> & _). unfold after in Hb. rewrite Hg' in Hb. cbn in Hb. destruct Hb as (_ & ns & Hs). inversion Hs as [|? ? ? Hst]. inversion Hst; destruct pre; discriminate.
    + now destruct (root_begins _ _ Hb (plain_after i p)).
  - destruct (not_s _ _ _ _ Hn Hj) as (j' & -> & Hj' & Hl). destruct i as [|i].
    + apply next_0 in Hn as (-> & _). apply root_item_look, root_0 in Hi as [(-> & _)|(_ & E)]; [|discriminate].
      exists r. split; [eapply nth_error_In; eauto|]. split; [auto|]. apply (body_steps _ _ Hj').
    + destruct (IH Ea) as (r0 & H1 & H2 & H3). exists r0. split; auto. split; auto.
      destruct (root_steps _ _ Hv (plain_after i p)) as (Hv' & _). apply next_S in Hn as (Hn & r1 & Hr1 & Hr2). rewrite (after_eq g' g (S i) (f i) r1) in Hv' by auto.
      rewrite (next_skip _ _ _ _ Hn) in H3. eapply steps_trans; [exact H3|]. cbn [skipn]. apply steps_app; [constructor|].
      rewrite <- (app_nil_r (body g (f j'))). apply (steps_app g [Production (symbol r)]); [|exact Hv'].
      eapply steps_trans; [apply steps_rule; eapply nth_error_In; eauto|apply (body_steps _ _ Hj')].
  - destruct i as [|i]; [exact I|]. destruct (IH Ea) as (r0 & H1 & H2 & H3). exists r0. split; auto. split; auto.
    apply next_S in Hn as (Hn & _). rewrite (next_skip _ _ _ _ Hn) in H3. rewrite <- app_assoc. exact H3.
Qed.

Lemma next_none_S i p r : nth_error g' (S i) = Some r -> next g' (S i) p = None -> next g (f i) p = None.
Proof. intros H Hn. rewrite <- (next_eq g' g (S i) (f i) r); auto. apply Hf. now rewrite g'_S in H. Qed.

Lemma item_rule γ i p : item g' γ i p -> exists r, nth_error g' i = Some r.
Proof. apply item_in. rewrite Hg'. discriminate. Qed.

Lemma root_reduce γ i a : may_reduce g' γ (S i) a -> may_reduce g (γ0 ++ γ) (f i) (seen_as a).
Proof.
  intros (p & H1 & H2 & _ & H4). destruct (item_rule _ _ _ H1) as (r & Hr). exists p. split; [exact (root_item _ _ _ H1)|]. split; [eapply next_none_S; eauto|].
  assert (Hl : lookahead g (γ0 ++ γ) (f i) p (seen_as a)) by (apply (root_look _ (S i)); now apply H4). split; auto.
  intros E. rewrite E in Hl. eapply Hroot0; eauto.
Qed.

Lemma no_accept_conflict γ i : may_reduce g' γ 0 EndOfStream -> may_reduce g' γ (S i) EndOfStream -> False.
Proof.
  intros (p & H1 & H2 & _) (q & H3 & H4 & _ & H5). destruct (root_0 _ _ H1) as [(-> & ->)|(-> & ->)].
  - rewrite Hg' in H2. discriminate.
  - destruct (to_the_end _ _ _ _ (H5 ltac:(discriminate)) eq_refl) as (r & Hr & Hs & Hst). apply Hself. exists r. split; auto. rewrite Hs.
    destruct (item_rule _ _ _ H3) as (r1 & Hr1). pose proof (next_none_S _ _ _ Hr1 H4) as Hn. unfold next in Hn. apply nth_error_None in Hn.
    rewrite skipn_all2 in Hst by exact Hn. exact Hst.
Qed.

Lemma root_free_of : conflict_free g'.
Proof.
  destruct Hfree as (F1 & F2). split.
  - intros γ [|i] [|j] a Hi Hj; auto.
    + exfalso. assert (a = EndOfStream) as -> by (destruct Hi as (p & _ & _ & H & _); auto). eapply no_accept_conflict; eauto.
    + exfalso. assert (a = EndOfStream) as -> by (destruct Hj as (p & _ & _ & H & _); auto). eapply no_accept_conflict; eauto.
    + f_equal. apply Hinj. eapply F1; apply root_reduce; eauto.
  - intros γ i a Hi (j & p & Hj & Hn). destruct j as [|j]; [apply next_0 in Hn as (_ & Hn); discriminate|].
    assert (Ha : a <> EndOfStream). { intros ->. apply nth_error_In in Hn. now apply plain_body in Hn. }
    destruct i as [|i]; [destruct Hi as (q & _ & _ & H & _); now destruct (Ha (H eq_refl))|].
    apply (F2 (γ0 ++ γ) (f i) a); [rewrite <- (seen_same a Ha); now apply root_reduce|].
    exists (f j), p. split; [exact (root_item _ _ _ Hj)|]. now apply next_S in Hn as (Hn & _).
Qed.
End Root.

(** The rules of a label can be looked for somewhere. *)
Section Entry.
Context {T L : Type}.
Variable g : grammar T L.
Hypothesis Hv : valid_grammar g.
Hypothesis Hp : productive g.

Lemma entry l : reachable g l ->
  exists γ0 b0, forall j r, nth_error g j = Some r -> symbol r = l -> item g γ0 j 0 /\ lookahead g γ0 j 0 b0.
Proof.
  intros Hr. destruct Hv as (root & rest & Eg & Hc & Hl & Hreach).
  induction Hr as [r0 rest0 E|r l Hr IH Hin Hu].
  - exists [], EndOfStream. intros j r Hj Hs. assert (j = 0) as ->; [|split; constructor].
    destruct j as [|j]; auto. exfalso. rewrite E in Eg. injection Eg as -> ->. subst g. cbn in Hj. apply nth_error_In in Hj.
    rewrite Forall_forall in Hc. destruct (Hc r Hj) as (Hx & _). auto.
  - apply In_nth_error in Hin as (i & Hi). destruct IH as (γ1 & b1 & IH). destruct (IH _ _ Hi eq_refl) as (I0 & L0).
    assert (Hb : In (Production l) (body g i)) by (unfold body; rewrite Hi; apply filter_In; now split).
    apply In_nth_error in Hb as (p & Hn). 
    assert (Hq : forall q, q <= p -> item g (γ1 ++ firstn q (body g i)) i q /\ lookahead g (γ1 ++ firstn q (body g i)) i q b1).
    { induction q as [|q IHq]; intros Hq; [cbn [firstn]; rewrite app_nil_r; auto|]. destruct (IHq ltac:(lia)) as (I1 & L1).
      assert (Hx : exists X, next g i q = Some X). { unfold next. destruct (nth_error (body g i) q) eqn:E; eauto. apply nth_error_None in E.
        assert (p < length (body g i)) by (apply nth_error_Some; congruence). lia. }
      destruct Hx as (X & Hx). assert (Ef : firstn (S q) (body g i) = firstn q (body g i) ++ [X]).
      { clear - Hx. unfold next in Hx. revert q Hx. induction (body g i) as [|y ys IH]; intros [|q] Hx; try discriminate; [now injection Hx as ->|]. cbn in *. now rewrite (IH q). }
      rewrite Ef, app_assoc. split; now constructor. }
    destruct (Hq p (le_n _)) as (I1 & L1). set (γ := γ1 ++ firstn p (body g i)) in *.
    assert (Hb1 : b1 <> Epsilon) by (apply lookahead_lr1 in L1; auto; now apply lr1_lookahead in L1).
    destruct (form_begins g Hp Hl (after g i p) b1 (after_ok g i p) Hb1) as (b & Hb). exists γ, b. intros j r' Hj <-. split; [eapply item_closure; eauto|].
    apply begins_last in Hb as [Hb|(Hvan & ->)]; auto; [eapply lookahead_first; eauto|eapply lookahead_follow; eauto].
Qed.
End Entry.

(** ** Parsers for parts *)
Section Accepted.
Context {bm : BuildMode} {T L : Type} `{EqDec T} `{EqDec L}.

Lemma perm_index {A} (l l' : list A) dropped : Permutation l (l' ++ dropped) ->
  exists f : nat -> nat, (forall i j, f i = f j -> i = j) /\ forall i x, nth_error l' i = Some x -> nth_error l (f i) = Some x.
Proof.
  intros Hp. apply Permutation_nth_error in Hp as (_ & f & Hi & Hf). exists f. split; [exact Hi|]. intros i x Hx. rewrite <- Hf.
  rewrite nth_error_app1; auto. apply nth_error_Some. congruence.
Qed.

Lemma fewer_conflict_free (g g' : grammar T L) : fewer_rules g' g -> conflict_free g -> conflict_free g'.
Proof.
  intros (root & rest & rest' & dropped & -> & -> & Hp) Hc. destruct (perm_index _ _ _ Hp) as (f & Hi & Hf).
  apply (fewer_free (root :: rest) (root :: rest') (fun i => match i with 0 => 0 | S i => S (f i) end)); auto; try discriminate.
  - intros [|i] [|j]; try discriminate; auto.
  - intros [|i] r; cbn; auto.
Qed.

Lemma fewer_in (g g' : grammar T L) r : fewer_rules g' g -> In r g' -> In r g.
Proof.
  intros (root & rest & rest' & dropped & -> & -> & Hp) [->|Hr]; [now left|]. right. eapply Permutation_in; [symmetry; exact Hp|]. apply in_or_app. auto.
Qed.
Lemma fewer_root (g g' : grammar T L) : fewer_rules g' g -> nth_error g' 0 = nth_error g 0.
Proof. now intros (root & rest & rest' & dropped & -> & -> & Hp). Qed.

Lemma fewer_accepted fuel (g g' : grammar T L) p : eps_trailing g -> first_complete g -> parser_new fuel g = Ok p ->
  fewer_rules g' g -> valid_grammar g' -> (forall r, nth_error g' 0 = Some r -> ~ uses r (symbol r)) ->
  exists N, forall fuel, N < fuel -> exists p', parser_new fuel g' = Ok p'.
Proof.
  intros He Hc Hp Hf Hv Hu. apply conflict_free_builds; auto.
  - intros r Hr. apply He. eapply fewer_in; eauto.
  - eapply fewer_conflict_free; eauto. eapply built_conflict_free; eauto.
Qed.

Lemma for_accepted fuel (g g' : grammar T L) p l : no_eos g -> eps_trailing g -> first_complete g -> productive g -> parser_new fuel g = Ok p ->
  (forall r, nth_error g 0 = Some r -> ~ uses r (symbol r)) ->
  rules_for l g' g -> valid_grammar g' -> (forall r, nth_error g' 0 = Some r -> ~ uses r (symbol r)) ->
  exists N, forall fuel, N < fuel -> exists p', parser_new fuel g' = Ok p'.
Proof.
  intros Hn He Hc Hp Ho Hu (s & rest' & dropped & -> & Hperm) Hv Hu'. destruct (built_conflict_free _ _ _ He Hc Ho) as (Hvg & Hfree).
  assert (Hin : forall r, In r rest' -> In r g) by (intros r Hr; eapply Permutation_in; [symmetry; exact Hperm|]; apply in_or_app; auto).
  assert (Hsl : s <> l) by (intros ->; apply (Hu' _ eq_refl); now left).
  apply conflict_free_builds; auto.
  - intros r [<-|Hr]; [|apply He; auto]. intros [|x [|y pre]] post n E; discriminate E.
  - destruct (perm_index _ _ _ Hperm) as (f & Hi & Hf). pose proof Hvg as (root & rest & Eg & Hcl & Hl & Hreach).
    pose proof Hv as (root' & rest'' & Eg' & Hcl' & Hl' & _). injection Eg' as <- <-.
    assert (Hd : reachable g l).
    { destruct (Hl' (mk_rule s [Production l]) l) as (r & [<-|Hr] & Hs); [now left|now left|now destruct (Hsl Hs)|]. apply Hreach. exists r. auto. }
    destruct (entry g Hvg Hp l Hd) as (γ0 & b0 & Hent).
    apply (root_free_of g (mk_rule s [Production l] :: rest') s l rest' f eq_refl Hcl' Hsl Hi Hf Hn γ0 b0 Hent); auto.
    + intros γ q a Hla. eapply lookahead_root_only; [..|exact Hla]; auto. now apply valid_rest.
    + intros Hd'. exact (redundant_rejected g fuel p Hn He Hc Hp (or_intror (or_introl Hd')) Ho).
Qed.

(** What a parser for fewer rules accepts the other does, too. *)
Lemma fewer_derives (g g' : grammar T L) : fewer_rules g' g -> forall ns w ts, derives g' ns w ts -> exists ts', derives g ns w ts'.
Proof.
  intros Hf. induction 1 as [|t ns w ts D (ts' & IH)|ns w ts D (ts' & IH)|i r ts1 w1 ns w2 ts2 Hr D1 (t1 & IH1) D2 (t2 & IH2)];
    [eexists; constructor; eauto..|]. apply nth_error_In in Hr. apply (fewer_in g) in Hr; auto. apply In_nth_error in Hr as (j & Hj).
  eexists. econstructor; eauto.
Qed.
Lemma fewer_language (g g' : grammar T L) w : fewer_rules g' g -> language g' w -> language g w.
Proof.
  intros Hf (t & r & ts & H1 & D & _). destruct (fewer_derives _ _ Hf _ _ _ D) as (ts' & D').
  exists (Node 0 ts'), r, ts'. rewrite <- (fewer_root g g' Hf). auto.
Qed.
Lemma fewer_sentences E (g g' : grammar T L) fuel fuel' fuel2 p p' w : no_eos g -> eps_trailing g -> first_complete g -> parser_new fuel g = Ok p ->
  fewer_rules g' g -> parser_new fuel' g' = Ok p' -> parse_stream (E := E) fuel2 p' w = Ok true ->
  exists N, forall fuel3, N < fuel3 -> parse_stream (E := E) fuel3 p w = Ok true.
Proof.
  intros Hn He Hc Hp Hf Hp' Hs. eapply recog_complete_f; eauto. eapply fewer_language; eauto.
  eapply recog_sound; eauto; intros r Hr; [apply Hn|apply He]; eapply fewer_in; eauto.
Qed.

Lemma for_derives (g : grammar T L) s l rest' dropped : Permutation g (rest' ++ dropped) -> Forall (root_clean s) rest' ->
  forall ns w ts, derives (mk_rule s [Production l] :: rest') ns w ts -> ~ In (Production s) ns -> exists ts', derives g ns w ts'.
Proof.
  intros Hperm Hc. rewrite Forall_forall in Hc. induction 1 as [|t ns w ts D IH|ns w ts D IH|i r ts1 w1 ns w2 ts2 Hr D1 IH1 D2 IH2]; intros Hs.
  - eexists. constructor.
  - destruct IH as (ts' & IH); [intros Hx; apply Hs; now right|]. eexists. constructor. eauto.
  - destruct IH as (ts' & IH); [intros Hx; apply Hs; now right|]. eexists. constructor. eauto.
  - destruct i as [|i]; [injection Hr as <-; exfalso; apply Hs; now left|]. cbn in Hr. apply nth_error_In in Hr.
    destruct IH1 as (t1 & IH1); [apply (Hc r Hr)|]. destruct IH2 as (t2 & IH2); [intros Hx; apply Hs; now right|].
    assert (Hg : In r g) by (eapply Permutation_in; [symmetry; exact Hperm|]; apply in_or_app; auto). apply In_nth_error in Hg as (j & Hj).
    eexists. econstructor; eauto.
Qed.
Lemma for_sentences E (g g' : grammar T L) l fuel' fuel2 p' w : no_eos g -> eps_trailing g -> rules_for l g' g -> parser_new fuel' g' = Ok p' ->
  (forall r, nth_error g' 0 = Some r -> ~ uses r (symbol r)) ->
  parse_stream (E := E) fuel2 p' w = Ok true -> exists ts, derives g [Production l] w ts.
Proof.
  intros Hn He (s & rest' & dropped & -> & Hperm) Hp' Hu Hs.
  assert (Hin : forall r, In r rest' -> In r g) by (intros r Hr; eapply Permutation_in; [symmetry; exact Hperm|]; apply in_or_app; auto).
  apply (recog_sound (mk_rule s [Production l] :: rest') fuel') in Hs; auto.
  - destruct Hs as (t & r & ts & Hr & D & _). injection Hr as <-.
    assert (Hv : valid_grammar (mk_rule s [Production l] :: rest')).
    { unfold parser_new in Hp'. destruct (indexed_build fuel' _) as [ig| | |] eqn:I; try discriminate. now apply build_indexes in I. }
    destruct Hv as (r1 & rs & E1 & Hc & _). injection E1 as <- <-. eapply for_derives; eauto.
    intros [E1|[]]. apply (Hu _ eq_refl). cbn. now left.
  - intros r [<-|Hr]; [intros [E1|[]]; discriminate E1|apply Hn; auto].
  - intros r [<-|Hr]; [|apply He; auto]. intros [|x [|y pre]] post n E1; discriminate E1.
Qed.
End Accepted.
