(** A grammar between tokens has conflicts exactly if the grammar has. *)
From Coq Require Import Arith List Lia.
From Verif Require Import Base.Prelude Spec.Grammar Spec.Validity Spec.Observers Spec.LR1 Spec.Frame Model.Error.
From Verif Require Import Model.IndexedGrammar Model.FirstMap Model.LRTable Model.ParseSimulator.
From Verif Require Import Proofs.LR1Proofs Proofs.LR1Final Proofs.RecognitionFinal Proofs.Parts.
Import ListNotations.

Lemma eos_dec {T} (a : aug T) : {a = EndOfStream} + {a <> EndOfStream}.
Proof. destruct a; [right|right|left]; easy. Qed.

Section Frame.
Context {T L : Type}.
Variable root : rule T L.
Variable rest : grammar T L.
Variable s : L.
Variables u v : list T.
Notation g := (root :: rest).
Notation l := (symbol root).
Notation tk := (fun t => @Terminal T L (Token t)).
Notation tu := (map tk u).
Notation tv := (map tk v).
Notation B := (tu ++ Production l :: tv).
Notation g' := (mk_rule s B :: g).
Hypothesis Hs : new_label s g.
Hypothesis Hclean : Forall (root_clean l) rest.
Hypothesis Hself : ~ uses root l.
Hypothesis Hno : no_eos g.

Lemma root_unused r : In r g -> ~ uses r l.
Proof. intros [<-|Hr]; auto. rewrite Forall_forall in Hclean. apply (Hclean r Hr). Qed.
Lemma s_not_l : s <> l.
Proof. destruct (Hs root (or_introl eq_refl)) as (Hx & _). auto. Qed.

Lemma keep_tokens (w : list T) : filter (fun nd => negb (is_epsilon nd)) (map tk w) = map tk w.
Proof. induction w as [|t w IH]; cbn; [|rewrite IH]; reflexivity. Qed.
Lemma body_0 : body g' 0 = B.
Proof. unfold body. cbn [nth_error rhs]. rewrite filter_app. cbn [filter is_epsilon negb]. now rewrite !keep_tokens. Qed.
Lemma body_S i : body g' (S i) = body g i.
Proof. reflexivity. Qed.
Lemma next_S i p : next g' (S i) p = next g i p.
Proof. reflexivity. Qed.
Lemma after_S i p : after g' (S i) p = after g i p.
Proof. reflexivity. Qed.

(** Nodes of the grammar. *)
Lemma body_in (h : grammar T L) i X : In X (body h i) -> exists r, In r h /\ In X (rhs r).
Proof.
  unfold body. destruct (nth_error h i) as [r|] eqn:E; [|intros []]. intros H. apply filter_In in H as (H & _). exists r. split; auto. eapply nth_error_In; eauto.
Qed.
Lemma next_in (h : grammar T L) i p X : next h i p = Some X -> exists r, In r h /\ In X (rhs r).
Proof. intros H. apply nth_error_In in H. eapply body_in; eauto. Qed.
Lemma item_nodes (h : grammar T L) γ i p : item h γ i p -> forall X, In X γ -> exists r, In r h /\ In X (rhs r).
Proof.
  induction 1 as [|γ i p j r Hi IH Hn Hj|γ i p X Hi IH Hn]; intros Y HY; [destruct HY|auto|].
  apply in_app_iff in HY as [HY|[<-|[]]]; auto. eapply next_in; eauto.
Qed.
Lemma no_l γ i p : item g γ i p -> ~ In (Production l) γ.
Proof. intros H Hin. destruct (item_nodes _ _ _ _ H _ Hin) as (r & Hr & Hu). exact (root_unused r Hr Hu). Qed.

(** Forms in which a node that the rules do not have does not occur. *)
Lemma step_without (h : grammar T L) X ns ns' : (forall r, In r h -> ~ In X (rhs r)) -> step h ns ns' -> ~ In X ns -> ~ In X ns'.
Proof.
  intros Hx. destruct 1 as [pre r post Hr|pre post]; rewrite !in_app_iff; cbn [In]; specialize (Hx); [specialize (Hx r Hr)|]; tauto.
Qed.
Lemma steps_without (h : grammar T L) X ns ns' : (forall r, In r h -> ~ In X (rhs r)) -> steps h ns ns' -> ~ In X ns -> ~ In X ns'.
Proof. intros Hx. induction 1; eauto using step_without. Qed.
Lemma after_in (h : grammar T L) i p X : In X (after h i p) -> In X (body h i).
Proof. unfold after. intros H. rewrite <- (firstn_skipn (S p) (body h i)). apply in_or_app. auto. Qed.
Lemma begins_without (h : grammar T L) a i p : (forall r, In r h -> ~ In (Terminal a) (rhs r)) -> ~ begins h (after h i p) a.
Proof.
  intros Hx (_ & ns & Hst). apply (steps_without h (Terminal a) _ _ Hx) in Hst; [apply Hst; now left|].
  intros Hin. apply after_in, body_in in Hin as (r & Hr & Hin). exact (Hx r Hr Hin).
Qed.

Lemma step_back ns ns' : step g' ns ns' -> ~ In (Production s) ns -> step g ns ns' /\ ~ In (Production s) ns'.
Proof.
  intros H Hn. assert (Hst : step g ns ns').
  { destruct H as [pre r post [<-|Hr]|pre post]; [exfalso; apply Hn; apply in_or_app; right; now left|now constructor|constructor]. }
  split; auto. eapply step_without; [|exact Hst|exact Hn]. intros r Hr. apply (Hs r Hr).
Qed.
Lemma steps_back ns ns' : steps g' ns ns' -> ~ In (Production s) ns -> steps g ns ns'.
Proof.
  induction 1 as [|ns n1 n2 H1 H2 IH]; intros Hn; [constructor|]. destruct (step_back _ _ H1 Hn) as (H3 & H4). econstructor; eauto.
Qed.
Lemma steps_on ns ns' : steps g ns ns' -> steps g' ns ns'.
Proof. induction 1 as [|ns n1 n2 H1 H2 IH]; [constructor|]. econstructor; [|exact IH]. destruct H1; constructor; now try right. Qed.
Lemma after_no_s i p : ~ In (Production s) (after g i p).
Proof. intros H. apply after_in, body_in in H as (r & Hr & H). now apply (Hs r Hr). Qed.

Lemma tokens_step (h : grammar T L) (w : list T) ns : ~ step h (map tk w) ns.
Proof.
  intros H. inversion H as [pre r post Hr E|pre post E]; clear H; assert (Hin : In (Production (symbol r)) (map tk w) \/ In (Terminal Epsilon) (map tk w)) || assert (Hin : In (Production l) (map tk w) \/ In (@Terminal T L Epsilon) (map tk w));
    try (rewrite <- E; rewrite !in_app_iff; cbn [In]; tauto);
    destruct Hin as [Hin|Hin]; apply in_map_iff in Hin as (t & Ht & _); discriminate.
Qed.
Lemma tokens_steps (h : grammar T L) (w : list T) ns : steps h (map tk w) ns -> ns = map tk w.
Proof. inversion 1 as [|? ? ? Hst]; auto. now apply tokens_step in Hst. Qed.

(** What follows what [g] is about. *)
Definition closing : aug T := match v with [] => EndOfStream | t :: _ => Token t end.
Definition seen (a : aug T) : aug T := match a with EndOfStream => closing | _ => a end.
Lemma closing_cases : v = [] /\ closing = EndOfStream \/ exists t v', v = t :: v' /\ closing = Token t.
Proof. unfold closing. destruct v as [|t v']; eauto. Qed.
Lemma seen_other a : a <> EndOfStream -> seen a = a.
Proof. now destruct a. Qed.

Lemma next_0_production p X : next g' 0 p = Some (Production X) -> p = length u /\ X = l.
Proof.
  unfold next. rewrite body_0. intros H. destruct (Nat.lt_trichotomy p (length u)) as [Hp|[Hp|Hp]].
  - rewrite nth_error_app1 in H by now rewrite map_length. apply nth_error_In, in_map_iff in H as (t & Ht & _). discriminate.
  - rewrite nth_error_app2 in H by (rewrite map_length; lia). rewrite map_length in H. subst p. rewrite Nat.sub_diag in H. now injection H.
  - rewrite nth_error_app2 in H by (rewrite map_length; lia). rewrite map_length in H. destruct (p - length u) as [|q] eqn:E; [lia|].
    cbn [nth_error] in H. apply nth_error_In, in_map_iff in H as (t & Ht & _). discriminate.
Qed.
Lemma after_0 : after g' 0 (length u) = tv.
Proof.
  unfold after. rewrite body_0. replace (S (length u)) with (length tu + 1) by (rewrite map_length; lia).
  rewrite skipn_app, skipn_all2 by lia. replace (length tu + 1 - length tu) with 1 by lia. reflexivity.
Qed.
Lemma first_u : firstn (length u) B = tu.
Proof. rewrite firstn_app, map_length, Nat.sub_diag. cbn [firstn]. rewrite app_nil_r. apply firstn_all2. rewrite map_length. lia. Qed.
Lemma firstn_next (ns : list (node T L)) p X : nth_error ns p = Some X -> firstn (S p) ns = firstn p ns ++ [X].
Proof. revert p. induction ns as [|y ns IH]; intros [|p] E; try discriminate; [now injection E as ->|]. cbn in *. now rewrite (IH p). Qed.

(** The rule that is looked for next. *)
Lemma goes_to i p j r : next g' i p = Some (Production (symbol r)) -> nth_error g' j = Some r ->
  match i with 0 => p = length u /\ j = 1 /\ r = root | S _ => exists j', j = S j' /\ nth_error g j' = Some r end.
Proof.
  intros Hn Hj. destruct i as [|i].
  - apply next_0_production in Hn as (-> & E). split; auto. destruct j as [|[|j]]; cbn in Hj.
    + injection Hj as <-. cbn in E. now destruct (s_not_l E).
    + injection Hj as <-. auto.
    + exfalso. apply nth_error_In in Hj. rewrite Forall_forall in Hclean. exact (proj1 (Hclean r Hj) E).
  - rewrite next_S in Hn. destruct j as [|j]; [|eauto]. exfalso. injection Hj as <-. apply next_in in Hn as (r & Hr & Hin). now apply (Hs r Hr).
Qed.

Lemma frame_item δ i p : item g' δ i p ->
  match i with 0 => δ = firstn p B | S i => exists γ, δ = tu ++ γ /\ item g γ i p end.
Proof.
  induction 1 as [|γ i p j r Hi IH Hn Hj|γ i p X Hi IH Hn]; [reflexivity|..].
  - pose proof (goes_to _ _ _ _ Hn Hj) as Hg. destruct i as [|i].
    + destruct Hg as (-> & -> & ->). exists []. rewrite IH, first_u, app_nil_r. split; [auto|constructor].
    + destruct Hg as (j' & -> & Hj'). destruct IH as (γ' & -> & IH). exists γ'. split; auto. eapply item_closure; eauto.
  - destruct i as [|i].
    + unfold next in Hn. rewrite body_0 in Hn. now rewrite (firstn_next _ _ _ Hn), IH.
    + destruct IH as (γ' & -> & IH). exists (γ' ++ [X]). rewrite app_assoc. split; auto. now constructor.
Qed.

Lemma frame_look δ i p a : lookahead g' δ i p a ->
  match i with 0 => a = EndOfStream | S i => exists γ b, δ = tu ++ γ /\ lookahead g γ i p b /\ a = seen b end.
Proof.
  induction 1 as [|γ i p j r b Hi Hn Hj Hb|γ i p a j r Hi IH Hn Hj Hv|γ i p a X Hi IH Hn]; [reflexivity|..].
  - pose proof (goes_to _ _ _ _ Hn Hj) as Hg. destruct i as [|i].
    + destruct Hg as (-> & -> & ->). exists [], EndOfStream. apply frame_item in Hi. rewrite Hi, first_u, app_nil_r.
      split; auto. split; [constructor|]. rewrite after_0 in Hb. destruct Hb as (_ & ns & Hst). apply tokens_steps in Hst.
      unfold seen, closing. destruct v as [|t v']; [discriminate|]. now injection Hst as ->.
    + destruct Hg as (j' & -> & Hj'). destruct (frame_item _ _ _ Hi) as (γ' & -> & Hi'). exists γ', b. split; auto.
      rewrite after_S in Hb. assert (Hb' : begins g (after g i p) b) by (destruct Hb as (H1 & ns & H2); split; auto; exists ns; apply steps_back; auto; apply after_no_s).
      split; [eapply lookahead_first; eauto|]. symmetry. apply seen_other. intros ->. revert Hb'. apply begins_without. exact Hno.
  - pose proof (goes_to _ _ _ _ Hn Hj) as Hg. destruct i as [|i].
    + destruct Hg as (-> & -> & ->). exists [], EndOfStream. apply root_item_look in Hi. apply frame_item in Hi. rewrite Hi, first_u, app_nil_r.
      split; auto. split; [constructor|]. rewrite after_0 in Hv. apply tokens_steps in Hv. unfold seen, closing. destruct v; [auto|discriminate].
    + destruct Hg as (j' & -> & Hj'). destruct IH as (γ' & b & -> & IH & ->). exists γ', b. split; auto. split; auto.
      eapply lookahead_follow; eauto. apply steps_back; auto. apply after_no_s.
  - destruct i as [|i]; [exact IH|]. destruct IH as (γ' & b & -> & IH & ->). exists (γ' ++ [X]), b. rewrite app_assoc. split; auto. split; auto. now constructor.
Qed.

Lemma root_free_0 : forall r, nth_error g 0 = Some r -> ~ uses r (symbol r).
Proof. intros r H0. injection H0 as <-. exact Hself. Qed.
Lemma clean_0 : forall r0 i r, nth_error g 0 = Some r0 -> nth_error g (S i) = Some r -> root_clean (symbol r0) r.
Proof. intros r0 i r H0 Hr. injection H0 as <-. cbn in Hr. apply nth_error_In in Hr. rewrite Forall_forall in Hclean. auto. Qed.
Lemma look_root γ p a : lookahead g γ 0 p a -> a = EndOfStream.
Proof.
  intros H. eapply lookahead_root_only; [exact root_free_0|exact clean_0|exact H].
Qed.

Lemma frame_reduce δ i a : may_reduce g' δ (S i) a -> exists γ b, δ = tu ++ γ /\ may_reduce g γ i b /\ a = seen b.
Proof.
  intros (p & H1 & H2 & _ & H4). destruct (frame_item _ _ _ H1) as (γ & -> & H1'). destruct (frame_look _ _ _ _ (H4 ltac:(discriminate))) as (γ' & b & E & Hl & ->).
  apply app_inv_head in E as <-. exists γ, b. split; auto. split; auto. exists p. rewrite next_S in H2. repeat split; auto.
  intros ->. eapply look_root; eauto.
Qed.
Lemma frame_shift δ a : may_shift g' δ a ->
  (exists p, δ = firstn p B /\ next g' 0 p = Some (Terminal a)) \/ exists γ, δ = tu ++ γ /\ may_shift g γ a.
Proof.
  intros (i & p & H1 & H2). apply frame_item in H1. destruct i as [|i]; [left; eauto|]. right. destruct H1 as (γ & -> & H1). exists γ. split; auto. exists i, p. auto.
Qed.

(** Past what [g] is about, its rules are of no use. *)
Lemma past_l γ i p q : tu ++ γ = firstn q B -> length u < q -> item g γ i p -> False.
Proof.
  intros E Hq Hi. rewrite firstn_app, map_length, (firstn_all2 tu) in E by (rewrite map_length; lia). apply app_inv_head in E.
  destruct (q - length u) as [|k] eqn:Ek; [lia|]. apply (no_l _ _ _ Hi). rewrite E. now left.
Qed.

(** And back. *)
Lemma opened q : q <= length u -> item g' (firstn q B) 0 q /\ lookahead g' (firstn q B) 0 q EndOfStream.
Proof.
  induction q as [|q IH]; intros Hq; [split; constructor|]. destruct (IH ltac:(lia)) as (I1 & L1).
  destruct (nth_error B q) as [X|] eqn:E; [|apply nth_error_None in E; rewrite app_length, map_length in E; lia].
  rewrite (firstn_next _ _ _ E). assert (Hn : next g' 0 q = Some X) by (unfold next; now rewrite body_0). split; now constructor.
Qed.
Lemma at_l : next g' 0 (length u) = Some (Production l).
Proof. unfold next. rewrite body_0, nth_error_app2, map_length, Nat.sub_diag by (rewrite map_length; lia). reflexivity. Qed.
Lemma begins_on ns a : begins g ns a -> begins g' ns a.
Proof. intros (H1 & ns' & H2). split; auto. exists ns'. now apply steps_on. Qed.
Lemma into_item γ i p : item g γ i p -> item g' (tu ++ γ) (S i) p.
Proof.
  destruct (opened (length u) (le_n _)) as (I1 & _). rewrite first_u in I1.
  induction 1 as [|γ i p j r Hi IH Hn Hj|γ i p X Hi IH Hn].
  - rewrite app_nil_r. eapply item_closure; [exact I1|exact at_l|reflexivity].
  - eapply item_closure; eauto.
  - rewrite app_assoc. now constructor.
Qed.
Lemma into_look γ i p a : lookahead g γ i p a -> lookahead g' (tu ++ γ) (S i) p (seen a).
Proof.
  destruct (opened (length u) (le_n _)) as (I1 & L1). rewrite first_u in I1, L1.
  induction 1 as [|γ i p j r b Hi Hn Hj Hb|γ i p a j r Hi IH Hn Hj Hv|γ i p a X Hi IH Hn].
  - rewrite app_nil_r. cbn [seen]. destruct closing_cases as [(Ev & ->)|(t & v' & Ev & ->)].
    + eapply lookahead_follow; [exact L1|exact at_l|reflexivity|]. rewrite after_0, Ev. constructor.
    + eapply lookahead_first; [exact I1|exact at_l|reflexivity|]. rewrite after_0, Ev. split; [discriminate|]. eexists. constructor.
  - rewrite seen_other by (intros ->; revert Hb; apply begins_without; exact Hno).
    eapply lookahead_first; [apply into_item; eauto|eauto|exact Hj|]. now apply begins_on.
  - eapply lookahead_follow; [exact IH|eauto|exact Hj|]. now apply steps_on.
  - rewrite app_assoc. now constructor.
Qed.
Lemma into_reduce γ i a : may_reduce g γ i a -> may_reduce g' (tu ++ γ) (S i) (seen a).
Proof.
  intros (p & H1 & H2 & H3 & H4). exists p. split; [now apply into_item|]. split; [exact H2|]. split; [discriminate|]. intros _. apply into_look.
  destruct i as [|i]; [|now apply H4]. rewrite (H3 eq_refl). eapply item_root_only; [exact root_free_0|exact clean_0|exact H1].
Qed.
Lemma unframed_free : conflict_free g' -> conflict_free g.
Proof.
  intros (F1 & F2). split.
  - intros γ i j a Hi Hj. apply into_reduce in Hi, Hj. specialize (F1 _ _ _ _ Hi Hj). congruence.
  - intros γ i a Hi (j & p & Hj & Hn). apply (F2 (tu ++ γ) (S i) a).
    + rewrite <- (seen_other a); [now apply into_reduce|]. intros ->. apply next_in in Hn as (r & Hr & Hin). exact (Hno r Hr Hin).
    + exists (S j), p. split; [now apply into_item|exact Hn].
Qed.

(** ** What is derived *)
Lemma frame_derives ns w ts : derives g' ns w ts -> ~ In (Production s) ns -> exists ts', derives g ns w ts'.
Proof.
  induction 1 as [|t ns w ts D IH|ns w ts D IH|i r ts1 w1 ns w2 ts2 Hr D1 IH1 D2 IH2]; intros Hn.
  - eexists. constructor.
  - destruct IH as (ts' & IH); [intros Hx; apply Hn; now right|]. eexists. constructor. eauto.
  - destruct IH as (ts' & IH); [intros Hx; apply Hn; now right|]. eexists. constructor. eauto.
  - destruct i as [|i]; [injection Hr as <-; exfalso; apply Hn; now left|]. cbn [nth_error] in Hr.
    destruct IH1 as (t1 & IH1); [apply nth_error_In in Hr; apply (Hs r Hr)|]. destruct IH2 as (t2 & IH2); [intros Hx; apply Hn; now right|].
    eexists. econstructor; eauto.
Qed.
Lemma into_derives ns w ts : derives g ns w ts -> exists ts', derives g' ns w ts'.
Proof.
  induction 1 as [|t ns w ts D (ts' & IH)|ns w ts D (ts' & IH)|i r ts1 w1 ns w2 ts2 Hr D1 (t1 & IH1) D2 (t2 & IH2)]; [eexists; constructor; eauto..|].
  eexists. apply (derives_production g' (S i)); eauto.
Qed.
Lemma tokens_derive (h : grammar T L) (x : list T) ns w ts : derives h (map tk x ++ ns) w ts -> exists w' ts', w = x ++ w' /\ derives h ns w' ts'.
Proof.
  revert w ts. induction x as [|t x IH]; intros w ts D; [exists w, ts; auto|]. cbn in D. inversion D as [|? ? w1 ts1 D1| |]; subst. destruct (IH _ _ D1) as (w' & ts' & -> & Hd). exists w', ts'. auto.
Qed.
Lemma derive_tokens (h : grammar T L) (x : list T) ns w ts : derives h ns w ts -> exists ts', derives h (map tk x ++ ns) (x ++ w) ts'.
Proof. intros D. induction x as [|t x (ts' & IH)]; [eauto|]. eexists. cbn. constructor. eauto. Qed.

Lemma production_derives (h : grammar T L) x ns w ts : derives h (Production x :: ns) w ts ->
  exists i r ts1 w1 w2 ts2, nth_error h i = Some r /\ symbol r = x /\ derives h (rhs r) w1 ts1 /\ derives h ns w2 ts2 /\ w = w1 ++ w2.
Proof. intros D. inversion D; subst. repeat eexists; eauto. Qed.
Lemma nil_derives (h : grammar T L) w ts : derives h [] w ts -> w = [].
Proof. intros D. now inversion D. Qed.

Lemma framed_language w' : language g' w' <-> exists w, w' = u ++ w ++ v /\ language g w.
Proof.
  split.
  - intros (t & r & ts & Hr & D & _). injection Hr as <-. cbn [rhs] in D. apply tokens_derive in D as (w1 & ts1 & -> & D).
    apply production_derives in D as (i & r & ts2 & w2 & w3 & ts3 & Hr & E & D1 & D2 & ->). exists w2.
    assert (w3 = v) as ->. { rewrite <- (app_nil_r tv) in D2. apply tokens_derive in D2 as (w4 & ts4 & -> & D3). apply nil_derives in D3 as ->. apply app_nil_r. }
    split; auto. destruct i as [|[|i]]; cbn in Hr.
    + exfalso. injection Hr as <-. exact (s_not_l E).
    + injection Hr as <-. destruct (frame_derives _ _ _ D1) as (ts' & D'); [apply (Hs root (or_introl eq_refl))|]. exists (Node 0 ts'), root, ts'. auto.
    + exfalso. apply nth_error_In in Hr. rewrite Forall_forall in Hclean. destruct (Hclean r Hr) as (Hx & _). congruence.
  - intros (w & -> & t & r & ts & Hr & D & _). injection Hr as <-. apply into_derives in D as (ts' & D).
    assert (D2 : exists ts2, derives g' tv v ts2).
    { destruct (derive_tokens g' v [] [] [] (derives_nil _)) as (ts2 & D2). rewrite !app_nil_r in D2. eauto. }
    destruct D2 as (ts2 & D2). destruct (derive_tokens g' u _ _ _ (derives_production g' 1 root _ _ _ _ _ eq_refl D D2)) as (ts3 & D3).
    exists (Node 0 ts3). exists (mk_rule s B), ts3. auto.
Qed.

Lemma framed_valid : valid_grammar g -> valid_grammar g'.
Proof.
  intros (r1 & rest1 & Eg & Hc & Hl & Hr). injection Eg as <- <-. exists (mk_rule s B), g. split; auto. split; [|split].
  - apply Forall_forall. exact Hs.
  - intros r x [<-|Hin] Hu.
    + cbn in Hu. unfold uses in Hu. cbn in Hu. apply in_app_iff in Hu as [Hu|[Hu|Hu]]; [apply in_map_iff in Hu as (t & Ht & _); discriminate| |apply in_map_iff in Hu as (t & Ht & _); discriminate].
      injection Hu as <-. exists root. split; auto. right. now left.
    + destruct (Hl r x Hin Hu) as (r2 & H2 & E2). exists r2. split; auto. now right.
  - assert (Hl' : reachable g' l).
    { apply (reachable_use g' (mk_rule s B)); [eapply reachable_root; reflexivity|now left|]. unfold uses. cbn. apply in_or_app. right. now left. }
    assert (Hx : forall x, reachable g x -> reachable g' x).
    { induction 1 as [r2 rest2 E2|r2 x Hr2 IH Hin Hu]; [injection E2 as <- <-; exact Hl'|]. eapply reachable_use; eauto. now right. }
    intros x (r & [<-|Hin] & <-); [eapply reachable_root; reflexivity|]. apply Hx, Hr. exists r. auto.
Qed.
Lemma unframed_valid : valid_grammar g' -> valid_grammar g.
Proof.
  intros (r1 & rest1 & Eg & Hc & Hl & Hr). injection Eg as <- <-. exists root, rest. split; auto. split; [exact Hclean|]. split.
  - intros r x Hin Hu. destruct (Hl r x (or_intror Hin) Hu) as (r2 & [<-|H2] & E2); [|exists r2; auto]. exfalso. cbn in E2. subst x. now apply (Hs r Hin).
  - assert (Hx : forall x, reachable g' x -> x = s \/ reachable g x).
    { induction 1 as [r2 rest2 E2|r2 x Hr2 IH [<-|Hin] Hu]; [injection E2 as <- <-; now left| |].
      - right. unfold uses in Hu. cbn in Hu. apply in_app_iff in Hu as [Hu|[Hu|Hu]]; [apply in_map_iff in Hu as (t & Ht & _); discriminate| |apply in_map_iff in Hu as (t & Ht & _); discriminate].
        injection Hu as <-. eapply reachable_root; reflexivity.
      - right. destruct IH as [IH|IH]; [|eapply reachable_use; eauto]. exfalso. exact (proj1 (Hs r2 Hin) IH). }
    intros x (r & Hin & <-). destruct (Hx (symbol r)) as [E|]; auto; [apply Hr; exists r; split; auto; now right|]. exfalso. exact (proj1 (Hs r Hin) E).
Qed.

Hypothesis Hnew : closed_by_new v g.

Lemma lookahead_used γ i p t : lookahead g γ i p (Token t) -> ~ new_token t g.
Proof.
  intros H Ht. remember (Token t) as a eqn:Ea. induction H as [|γ i p j r b Hi Hn Hj Hb|γ i p a j r Hi IH Hn Hj Hv|γ i p a X Hi IH Hn]; try discriminate; auto.
  subst b. revert Hb. apply begins_without. exact Ht.
Qed.
Lemma reduce_look γ i a : may_reduce g γ i a -> a = EndOfStream \/ exists p, lookahead g γ i p a.
Proof. intros (p & _ & _ & H3 & H4). destruct i as [|i]; [left; auto|right; exists p; apply H4; discriminate]. Qed.
Lemma seen_inj γ i j a b : may_reduce g γ i a -> may_reduce g γ j b -> seen a = seen b -> a = b.
Proof.
  assert (Hx : forall i a, may_reduce g γ i a -> a <> EndOfStream -> closing = a -> False).
  { clear i j a b. intros i a Ha Hne Ec. apply reduce_look in Ha as [Ha|(p & Ha)]; auto. revert Ec Ha. unfold closing. destruct v as [|t v'] eqn:Ev; [congruence|].
    intros <- Ha. apply (lookahead_used _ _ _ _ Ha). apply Hnew. reflexivity. }
  intros Ha Hb E. destruct (eos_dec a) as [->|Na]; destruct (eos_dec b) as [->|Nb]; auto.
  - rewrite (seen_other b) in E by auto. cbn in E. destruct (Hx _ _ Hb Nb E).
  - rewrite (seen_other a) in E by auto. cbn in E. symmetry in E. destruct (Hx _ _ Ha Na E).
  - rewrite !seen_other in E by auto. exact E.
Qed.

Lemma accept_place δ a : may_reduce g' δ 0 a -> a = EndOfStream /\ exists p, length u < p /\ δ = firstn p B.
Proof.
  intros (p & H1 & H2 & H3 & _). split; auto. exists p. apply frame_item in H1. split; auto. unfold next in H2. rewrite body_0 in H2. apply nth_error_None in H2.
  rewrite app_length, map_length in H2. cbn in H2. lia.
Qed.

Lemma framed_free : conflict_free g -> conflict_free g'.
Proof.
  intros (F1 & F2).
  assert (Hacc : forall δ i a, may_reduce g' δ 0 a -> may_reduce g' δ (S i) a -> False).
  { intros δ i a H0 Hi. apply accept_place in H0 as (-> & q & Hq & E). destruct (frame_reduce _ _ _ Hi) as (γ & b & -> & (p & Hit & _) & _). exact (past_l _ _ _ _ E Hq Hit). }
  split.
  - intros δ [|i] [|j] a Hi Hj; auto; try (exfalso; now eauto). apply frame_reduce in Hi as (γ & a1 & -> & Hi & E1). apply frame_reduce in Hj as (γ' & a2 & E & Hj & E2).
    apply app_inv_head in E as <-. rewrite E1 in E2. pose proof (seen_inj _ _ _ _ _ Hi Hj E2) as <-. f_equal. eauto.
  - intros δ i a Hi Hsh.
    assert (Ha : a <> EndOfStream).
    { intros ->. destruct Hsh as (j & p & _ & Hn). apply next_in in Hn as (r & [<-|Hr] & Hin); [|exact (Hno r Hr Hin)]. cbn in Hin.
      apply in_app_iff in Hin as [Hin|[Hin|Hin]]; [|discriminate|]; apply in_map_iff in Hin as (t & Ht & _); discriminate. }
    destruct i as [|i]; [apply accept_place in Hi; tauto|]. apply frame_reduce in Hi as (γ & b & -> & Hi & E).
    apply frame_shift in Hsh as [(q & Eq & Hn)|(γ' & E' & Hsh)].
    + destruct Hi as (p & Hit & _). destruct (Nat.lt_trichotomy q (length u)) as [Hq|[Hq|Hq]]; [|subst q|exact (past_l _ _ _ _ Eq Hq Hit)].
      * apply (f_equal (@length _)) in Eq. rewrite app_length, firstn_length, map_length in Eq. lia.
      * unfold next in Hn. rewrite body_0, nth_error_app2, map_length, Nat.sub_diag in Hn by (rewrite map_length; lia). discriminate.
    + apply app_inv_head in E' as <-. destruct (eos_dec b) as [->|Nb].
      * cbn in E. destruct Hsh as (j & p & _ & Hn). apply next_in in Hn as (r & Hr & Hin). revert E Ha Hin. unfold closing. destruct v as [|t v'] eqn:Ev; [congruence|].
        intros -> _ Hin. assert (Hx : new_token t g) by (apply Hnew; reflexivity). exact (Hx r Hr Hin).
      * rewrite seen_other in E by auto. subst b. exact (F2 _ _ _ Hi Hsh).
Qed.
End Frame.

Section Parsers.
Context {bm : BuildMode} {T L : Type} `{EqDec T} `{EqDec L}.

Lemma frame_eps (g g' : grammar T L) s u v : framed s u v g' g -> eps_trailing g -> eps_trailing g'.
Proof.
  intros (root & rest & -> & ->) He r [<-|Hr]; [|now apply He]. cbn [rhs]. intros n1 n2 n E _. exfalso.
  assert (Hin : In (Terminal Epsilon) (map (fun t => @Terminal T L (Token t)) u ++ Production (symbol root) :: map (fun t => Terminal (Token t)) v)) by (rewrite E; apply in_or_app; right; now left).
  apply in_app_iff in Hin as [Hin|[Hin|Hin]]; [|discriminate|]; apply in_map_iff in Hin as (t & Ht & _); discriminate.
Qed.
Lemma frame_eos (g g' : grammar T L) s u v : framed s u v g' g -> no_eos g -> no_eos g'.
Proof.
  intros (root & rest & -> & ->) He r [<-|Hr]; [|now apply He]. cbn [rhs]. intros Hin.
  apply in_app_iff in Hin as [Hin|[Hin|Hin]]; [|discriminate|]; apply in_map_iff in Hin as (t & Ht & _); discriminate.
Qed.
Lemma frame_root (g g' : grammar T L) s u v : framed s u v g' g -> new_label s g -> forall r, nth_error g' 0 = Some r -> ~ uses r (symbol r).
Proof.
  intros (root & rest & -> & ->) Hs r Hr Hin. injection Hr as <-. unfold uses in Hin. cbn in Hin.
  apply in_app_iff in Hin as [Hin|[Hin|Hin]]; [apply in_map_iff in Hin as (t & Ht & _); discriminate| |apply in_map_iff in Hin as (t & Ht & _); discriminate].
  injection Hin as Hin. exact (proj1 (Hs root (or_introl eq_refl)) Hin).
Qed.
Lemma accepted_valid fuel (g : grammar T L) p : parser_new fuel g = Ok p -> valid_grammar g.
Proof. intros Hp. unfold parser_new in Hp. destruct (indexed_build fuel _) as [ig| | |] eqn:I; try discriminate. now apply build_indexes in I. Qed.

Lemma framed_accepted fuel (g g' : grammar T L) p s u v : no_eos g -> eps_trailing g -> first_complete g -> (forall r, nth_error g 0 = Some r -> ~ uses r (symbol r)) ->
  parser_new fuel g = Ok p -> framed s u v g' g -> new_label s g -> closed_by_new v g ->
  exists N, forall fuel', N < fuel' -> exists p', parser_new fuel' g' = Ok p'.
Proof.
  intros Hn He Hc Hu Hp Hf Hs Hv. pose proof (frame_eps _ _ _ _ _ Hf He) as He'. pose proof (frame_root _ _ _ _ _ Hf Hs) as Hu'.
  destruct (built_conflict_free _ _ _ He Hc Hp) as (Hvg & Hfree). destruct Hf as (root & rest & -> & ->). pose proof Hvg as (r1 & rest1 & Eg & Hcl & _). injection Eg as <- <-.
  apply conflict_free_builds; auto; [apply framed_valid; auto|apply framed_free; auto].
Qed.
Lemma unframed_accepted fuel' (g g' : grammar T L) p' s u v : no_eos g -> eps_trailing g -> first_complete g' ->
  (forall root rest, g = root :: rest -> ~ uses root (symbol root) /\ Forall (root_clean (symbol root)) rest) ->
  framed s u v g' g -> new_label s g -> parser_new fuel' g' = Ok p' ->
  exists N, forall fuel, N < fuel -> exists p, parser_new fuel g = Ok p.
Proof.
  intros Hn He Hc Hu Hf Hs Hp. pose proof (frame_eps _ _ _ _ _ Hf He) as He'.
  destruct (built_conflict_free _ _ _ He' Hc Hp) as (Hvg & Hfree). destruct Hf as (root & rest & -> & ->). destruct (Hu _ _ eq_refl) as (Hself & Hcl).
  apply conflict_free_builds; auto; [eapply unframed_valid; eauto| |eapply unframed_free; eauto]. intros r Hr. injection Hr as <-. exact Hself.
Qed.

Lemma framed_word E (g g' : grammar T L) s u v fuel fuel' fuel2 p p' w' : no_eos g -> eps_trailing g -> first_complete g ->
  parser_new fuel g = Ok p -> framed s u v g' g -> new_label s g -> parser_new fuel' g' = Ok p' -> parse_stream (E := E) fuel2 p' w' = Ok true ->
  exists w, w' = u ++ w ++ v /\ exists N, forall fuel3, N < fuel3 -> parse_stream (E := E) fuel3 p w = Ok true.
Proof.
  intros Hn He Hc Hp Hf Hs Hp' Hw. apply (recog_sound g' fuel') in Hw; eauto using frame_eps, frame_eos. pose proof (accepted_valid _ _ _ Hp) as Hvg.
  destruct Hf as (root & rest & -> & ->). pose proof Hvg as (r1 & rest1 & Eg & Hcl & _). injection Eg as <- <-. apply framed_language in Hw as (w & -> & Hw); auto.
  exists w. split; auto. eapply recog_complete_f; eauto.
Qed.
Lemma unframed_word E (g g' : grammar T L) s u v fuel fuel' fuel2 p p' w : no_eos g -> eps_trailing g -> first_complete g' ->
  parser_new fuel g = Ok p -> framed s u v g' g -> new_label s g -> parser_new fuel' g' = Ok p' -> parse_stream (E := E) fuel2 p w = Ok true ->
  exists N, forall fuel3, N < fuel3 -> parse_stream (E := E) fuel3 p' (u ++ w ++ v) = Ok true.
Proof.
  intros Hn He Hc Hp Hf Hs Hp' Hw. apply (recog_sound g fuel) in Hw; auto. pose proof (accepted_valid _ _ _ Hp) as Hvg.
  assert (Hw2 : language g' (u ++ w ++ v)).
  { destruct Hf as (root & rest & -> & ->). pose proof Hvg as (r1 & rest1 & Eg & Hcl & _). injection Eg as <- <-. apply framed_language; eauto. }
  eapply (recog_complete_f E g'); eauto using frame_eps, frame_eos.
Qed.
End Parsers.
