(** Derivations cut off after the last token of a node: the machine has reduced
    to that node when it has read what is before the cut (C63). *)
From Coq Require Import Arith Bool String NArith List Lia Permutation.
From Verif Require Import Base.Prelude Spec.Grammar Spec.Validity Spec.Nullable Spec.Observers Spec.States Model.Error.
From Verif Require Import Model.BitSet Model.FixedMap Model.Vocabulary Model.IndexedGrammar Model.FirstMap.
From Verif Require Import Model.Position Model.Closure Model.LRTable Model.StateMap Model.ParseSimulator.
From Verif Require Import Model.TokenTree Model.Terminal Model.Constructor Model.CodeGen Model.Runtime Spec.Values.
From Verif Require Import Proofs.WP Proofs.BitSetProofs Proofs.FixedMapProofs Proofs.VocabProofs.
From Verif Require Import Proofs.IndexedProofs Proofs.IndexedBuild Proofs.IndexedMain Proofs.FirstProofs.
From Verif Require Import Proofs.ClosureProofs Proofs.ItemSets Proofs.TableProofs Proofs.TableBuild.
From Verif Require Import Proofs.Fuel Proofs.Machine Proofs.ParserFinal Proofs.RecognitionFinal Proofs.IndexedFinal Proofs.LR1Proofs Proofs.LR1Final Proofs.StatesFinal Proofs.TableFinal Proofs.StateMapFinal Proofs.GenTable Proofs.ConstructorProofs Proofs.GenCode Proofs.GenRun Proofs.GenPath Proofs.GenFinal Proofs.GenLang.
Import ListNotations.

(** [cut G ns w v L j ts]: [ns] derives [w ++ v]; [w] ends with the last token of a
    node by rule [j] with the trees [ts], and [L] are the trees before that node. *)
Inductive cut {T L} (G : grammar T L) : list (node T L) -> list T -> list T -> list (tree T) -> nat -> list (tree T) -> Prop :=
| cut_here j r w ts ns v tv : nth_error G j = Some r -> derives G (rhs r) w ts -> derives G ns v tv ->
    cut G (Production (symbol r) :: ns) w v [] j ts
| cut_in j' r w v ls j ts ns v2 tv : nth_error G j' = Some r -> cut G (rhs r) w v ls j ts -> derives G ns v2 tv ->
    cut G (Production (symbol r) :: ns) w (v ++ v2) ls j ts
| cut_token t ns w v ls j ts : cut G ns w v ls j ts -> cut G (Terminal (Token t) :: ns) (t :: w) v (Leaf t :: ls) j ts
| cut_epsilon ns w v ls j ts : cut G ns w v ls j ts -> cut G (Terminal Epsilon :: ns) w v ls j ts
| cut_after i r ts1 w1 ns w v ls j ts : nth_error G i = Some r -> derives G (rhs r) w1 ts1 -> cut G ns w v ls j ts ->
    cut G (Production (symbol r) :: ns) (w1 ++ w) v (Node i ts1 :: ls) j ts.

Lemma cut_prefix {T L} (G : grammar T L) ns1 w1 t1 : derives G ns1 w1 t1 -> forall ns w v ls j ts, cut G ns w v ls j ts -> cut G (ns1 ++ ns) (w1 ++ w) v (t1 ++ ls) j ts.
Proof.
  induction 1 as [|t ns1 w1 ts1 D IH|ns1 w1 ts1 D IH|i r tsa wa ns1 wb tsb Hi D1 IH1 D2 IH2]; intros ns w v ls j ts Hc; cbn [app]; auto.
  - apply cut_token; auto.
  - apply cut_epsilon; auto.
  - rewrite <- app_assoc. apply cut_after; auto.
Qed.

Lemma cut_not_eps {T L} (G : grammar T L) ns w v ls j ts : cut G ns w v ls j ts -> Forall (fun n => n = Terminal Epsilon) ns -> False.
Proof. induction 1; intros Hf; inversion Hf; subst; try discriminate; auto. Qed.

Lemma cut_derives {T L} (G : grammar T L) ns w v ls j ts : cut G ns w v ls j ts -> exists tn, derives G ns (w ++ v) tn.
Proof.
  induction 1 as [j r w ts ns v tv Hj D1 D2|i r w v ls j ts ns v2 tv Hi _ (tn & IH) D2|t ns w v ls j ts _ (tn & IH)|ns w v ls j ts _ (tn & IH)|i r ts1 w1 ns w v ls j ts Hi D1 _ (tn & IH)].
  - eexists. econstructor; eauto.
  - rewrite app_assoc. eexists. econstructor; eauto.
  - eexists. simpl. constructor; eauto.
  - eexists. constructor; eauto.
  - rewrite <- app_assoc. eexists. econstructor; eauto.
Qed.

(** Indexed grammars. *)
Section Index.
Context {T L : Type} `{EqDec T}.
Variable g : grammar T L.
Variable ig : indexed_grammar T L.
Hypothesis Hix : indexes g ig.
Local Notation nrel := (inode_rel ig).

Lemma cut_bwd ns' w' v' ls' j' ts' : cut (igram ig) ns' w' v' ls' j' ts' -> forall ns, Forall2 nrel ns ns' ->
  exists w v ls j ts, cut g ns w v ls j ts /\ Forall2 (tok_rel ig) w w' /\ Forall2 (tok_rel ig) v v' /\ Forall2 (tree_rel ig) ls ls' /\
    tree_rel ig (Node j ts) (Node j' ts').
Proof.
  induction 1 as [j r w ts ns v tv Hj D1 D2|i r w v ls j ts ns v2 tv Hi _ IH D2|t ns w v ls j ts _ IH|ns w v ls j ts _ IH|i r ts1 w1 ns w v ls j ts Hi D1 _ IH]; intros ns0 Hns; inversion Hns as [|n ? ns1 ? Hn Hns1]; subst.
  - apply igram_nth in Hj as (ir & Hir & <-). destruct n as [a|l]; simpl in Hn; [destruct a; simpl in Hn; tauto|].
    destruct (ix_rule_bwd g ig Hix _ _ Hir) as (r & Hr & Hl & _ & Hrel). simpl in *. assert (l = symbol r) as -> by (eapply (ilabel_fun ig); eauto).
    destruct (derives_bwd g ig Hix _ _ _ D1 _ Hrel) as (w1 & t1 & E1 & W1 & T1). destruct (derives_bwd g ig Hix _ _ _ D2 _ Hns1) as (w2 & t2 & E2 & W2 & _).
    exists w1, w2, [], (original_index ir), t1. split; [econstructor; eauto|]. repeat split; auto. econstructor; eauto.
  - apply igram_nth in Hi as (ir & Hir & <-). destruct n as [a|l]; simpl in Hn; [destruct a; simpl in Hn; tauto|].
    destruct (ix_rule_bwd g ig Hix _ _ Hir) as (r & Hr & Hl & _ & Hrel). simpl in *. assert (l = symbol r) as -> by (eapply (ilabel_fun ig); eauto).
    destruct (IH _ Hrel) as (w1 & v1 & ls1 & j1 & ts1 & C1 & W1 & V1 & L1 & J1). destruct (derives_bwd g ig Hix _ _ _ D2 _ Hns1) as (w2 & t2 & E2 & W2 & _).
    exists w1, (v1 ++ w2), ls1, j1, ts1. split; [econstructor; eauto|]. repeat split; auto. apply Forall2_app; auto.
  - destruct n as [[u| |]|l]; simpl in Hn; try tauto. destruct (IH _ Hns1) as (w1 & v1 & ls1 & j1 & ts1 & C1 & W1 & V1 & L1 & J1).
    exists (u :: w1), v1, (Leaf u :: ls1), j1, ts1. split; [constructor; auto|]. repeat split; auto. constructor; auto. constructor; auto.
  - destruct n as [[u| |]|l]; simpl in Hn; try tauto. destruct (IH _ Hns1) as (w1 & v1 & ls1 & j1 & ts1 & C1 & W1 & V1 & L1 & J1).
    exists w1, v1, ls1, j1, ts1. split; [constructor; auto|]. auto.
  - apply igram_nth in Hi as (ir & Hir & <-). destruct n as [a|l]; simpl in Hn; [destruct a; simpl in Hn; tauto|].
    destruct (ix_rule_bwd g ig Hix _ _ Hir) as (r & Hr & Hl & _ & Hrel). simpl in *. assert (l = symbol r) as -> by (eapply (ilabel_fun ig); eauto).
    destruct (derives_bwd g ig Hix _ _ _ D1 _ Hrel) as (w2 & t1 & E1 & W1 & T1). destruct (IH _ Hns1) as (w3 & v3 & ls3 & j3 & ts3 & C3 & W3 & V3 & L3 & J3).
    exists (w2 ++ w3), v3, (Node (original_index ir) t1 :: ls3), j3, ts3. split; [econstructor; eauto|]. repeat split; auto; [apply Forall2_app; auto|]. constructor; auto. econstructor; eauto.
Qed.

Lemma cut_fwd ns w v ls j ts : cut g ns w v ls j ts -> forall ns', Forall2 nrel ns ns' ->
  exists w' v' ls' j' ts', cut (igram ig) ns' w' v' ls' j' ts' /\ Forall2 (tok_rel ig) w w' /\ Forall2 (tok_rel ig) v v' /\ Forall2 (tree_rel ig) ls ls' /\
    tree_rel ig (Node j ts) (Node j' ts').
Proof.
  induction 1 as [j r w ts ns v tv Hj D1 D2|i r w v ls j ts ns v2 tv Hi _ IH D2|t ns w v ls j ts _ IH|ns w v ls j ts _ IH|i r ts1 w1 ns w v ls j ts Hi D1 _ IH]; intros ns0 Hns; inversion Hns as [|? n ? ns1 Hn Hns1]; subst.
  - destruct n as [a|l]; simpl in Hn; [tauto|]. destruct (ix_rule_fwd g ig Hix _ _ Hj) as (j' & ir & Hir & Hl & Ho & Hrel). simpl in *.
    assert (isymbol ir = l) by (eapply (ilabel_inj g ig Hix); eauto). subst l.
    destruct (derives_fwd g ig Hix _ _ _ D1 _ Hrel) as (w1 & t1 & E1 & W1 & T1). destruct (derives_fwd g ig Hix _ _ _ D2 _ Hns1) as (w2 & t2 & E2 & W2 & _).
    exists w1, w2, [], j', t1. split; [eapply (cut_here (igram ig) j' (irule ir)); eauto; apply igram_nth; eauto|]. repeat split; auto. rewrite <- Ho. econstructor; eauto.
  - destruct n as [a|l]; simpl in Hn; [tauto|]. destruct (ix_rule_fwd g ig Hix _ _ Hi) as (j' & ir & Hir & Hl & Ho & Hrel). simpl in *.
    assert (isymbol ir = l) by (eapply (ilabel_inj g ig Hix); eauto). subst l.
    destruct (IH _ Hrel) as (w1 & v1 & ls1 & j1 & ts1 & C1 & W1 & V1 & L1 & J1). destruct (derives_fwd g ig Hix _ _ _ D2 _ Hns1) as (w2 & t2 & E2 & W2 & _).
    exists w1, (v1 ++ w2), ls1, j1, ts1. split; [eapply (cut_in (igram ig) j' (irule ir)); eauto; apply igram_nth; eauto|]. repeat split; auto. apply Forall2_app; auto.
  - destruct n as [[u| |]|l]; simpl in Hn; try tauto. destruct (IH _ Hns1) as (w1 & v1 & ls1 & j1 & ts1 & C1 & W1 & V1 & L1 & J1).
    exists (u :: w1), v1, (Leaf u :: ls1), j1, ts1. split; [constructor; auto|]. repeat split; auto. constructor; auto. constructor; auto.
  - destruct n as [[u| |]|l]; simpl in Hn; try tauto. destruct (IH _ Hns1) as (w1 & v1 & ls1 & j1 & ts1 & C1 & W1 & V1 & L1 & J1).
    exists w1, v1, ls1, j1, ts1. split; [constructor; auto|]. auto.
  - destruct n as [a|l]; simpl in Hn; [tauto|]. destruct (ix_rule_fwd g ig Hix _ _ Hi) as (j' & ir & Hir & Hl & Ho & Hrel). simpl in *.
    assert (isymbol ir = l) by (eapply (ilabel_inj g ig Hix); eauto). subst l.
    destruct (derives_fwd g ig Hix _ _ _ D1 _ Hrel) as (w2 & t1 & E1 & W1 & T1). destruct (IH _ Hns1) as (w3 & v3 & ls3 & j3 & ts3 & C3 & W3 & V3 & L3 & J3).
    exists (w2 ++ w3), v3, (Node j' t1 :: ls3), j3, ts3. split; [eapply (cut_after (igram ig) j' (irule ir)); eauto; apply igram_nth; eauto|]. repeat split; auto; [apply Forall2_app; auto|].
    constructor; auto. rewrite <- Ho. econstructor; eauto.
Qed.
End Index.

(** The machine. *)
Section Machine.
Context {T L : Type} `{EqDec T}.
Variable g : indexed_grammar T L.
Hypothesis Hwf : wf_ig g.
Hypothesis Heos : no_eos (igram g).
Hypothesis Heps : eps_trailing (igram g).
Variable F : first_table.
Hypothesis HF : FInv g F.
Variable t : lr_table.
Variable ks : list kernel.
Variable acts : nat -> aug nat -> option action.
Variable gts : nat -> nat -> option nat.
Hypothesis Hok : table_ok g F t ks acts gts.
Local Notation rnodes := (rnodes g).
Local Notation core := (core g).
Local Notation look := (look g F).
Local Notation vstk := (vstk acts gts).
Local Notation msteps := (msteps g acts gts).
Local Notation G := (igram g).

Section Complete.
Hypothesis Hcl : Fclosed g F.

Lemma cut_sim ns w v ls j ts : cut G ns w v ls j ts -> forall stk i p z, vstk stk -> core (syms stk) i p -> skipn p (rnodes i) = ns ->
  look (syms stk) i p (la z) ->
  exists pushes s r, nth_error (rules g) j = Some r /\ msteps (stk, w ++ v ++ z) ((s, Production (isymbol r), Node j ts) :: pushes ++ stk, v ++ z) /\ trees pushes = rev ls.
Proof.
  assert (Hnz : forall stk i p ir ns j w1 ts1, vstk stk -> core (syms stk) i p -> skipn p (rnodes i) = Production (isymbol ir) :: ns -> nth_error (rules g) j = Some ir ->
      derives G (irhs ir) w1 ts1 -> j <> 0).
  { intros stk i p ir ns0 j0 w1 ts1 Hv Hc Hs Hir D ->. assert (Hnn : nextn g i p = Some (Production (isymbol ir))) by (apply (nextn_iff g Heps); eauto).
    assert (Hrs : rsym g 0 (isymbol ir)) by (exists ir; auto).
    assert (Hd : In (Production 0) (rnodes 0)) by (eapply (Machine.next_not_root g Hwf acts gts stk i p); eauto; apply nextl_iff; eauto).
    apply (derives_no0 g Hwf _ _ _ Hd D). rewrite <- (igram_rnodes _ _ _ Hir). auto. }
  assert (Hlook : forall stk i p ir ns j w2 t2 z, core (syms stk) i p -> look (syms stk) i p (la z) -> skipn p (rnodes i) = Production (isymbol ir) :: ns -> nth_error (rules g) j = Some ir ->
      derives G ns w2 t2 -> look (syms stk) j 0 (la (w2 ++ z))).
  { intros stk i p ir ns0 j0 w2 t2 z Hc Hlk Hs Hir D. assert (Hnl : nextl g i p = Some (isymbol ir)) by (apply nextl_iff; eauto).
    assert (Hrs : rsym g j0 (isymbol ir)) by (exists ir; auto). assert (Hsk := skipn_S g _ _ _ _ Hs). destruct w2 as [|y w2]; simpl.
    - eapply look_follow; eauto. rewrite Hsk. eapply derives_fnull; eauto.
    - eapply look_first; eauto; [discriminate|]. rewrite Hsk. eapply derives_ffirst; eauto. }
  assert (Hred : forall stk i p ir ns j w1 ts1 z, vstk stk -> core (syms stk) i p -> look (syms stk) j 0 (la z) -> skipn p (rnodes i) = Production (isymbol ir) :: ns -> nth_error (rules g) j = Some ir ->
      derives G (irhs ir) w1 ts1 -> exists s, msteps (stk, w1 ++ z) ((s, Production (isymbol ir), Node j ts1) :: stk, z) /\ vstk ((s, Production (isymbol ir), Node j ts1) :: stk)).
  { intros stk i p ir ns0 j0 w1 ts1 z Hv Hc Hlj Hs Hir D. pose proof (Hnz _ _ _ _ _ _ _ _ Hv Hc Hs Hir D) as Hj.
    assert (Hnl : nextl g i p = Some (isymbol ir)) by (apply nextl_iff; eauto). assert (Hrs : rsym g j0 (isymbol ir)) by (exists ir; auto).
    destruct (derives_sim g Hwf Heps F t ks acts gts Hok Hcl _ _ _ D stk j0 0 z) as (po & Hst & Hvp & Hsy & Htr); auto.
    { eapply core_close; eauto. }
    { rewrite skipn_O. apply igram_rnodes; auto. }
    destruct (do_reduce g Hwf Heps F t ks acts gts Hok stk po j0 ir (la z) i p) as (s & Hr & Hv2); auto.
    rewrite Htr, rev_involutive in Hr, Hv2. exists s. split; auto. eapply msteps_trans; [exact Hst|]. apply msteps_one. apply m_reduce. exact Hr. }
  induction 1 as [j r w ts ns v tv Hj D1 D2|j' r w v ls j ts ns v2 tv Hi Hcut IH D2|x ns w v ls j ts _ IH|ns w v ls j ts Hcut _|i0 r ts1 w1 ns w v ls j ts Hi D1 Hcut IH]; intros stk i p z Hv Hc Hs Hlk.
  - apply igram_nth in Hj as (ir & Hir & <-). change (symbol (irule ir)) with (isymbol ir) in *. change (rhs (irule ir)) with (irhs ir) in *.
    pose proof (Hlook _ _ _ _ _ _ _ _ _ Hc Hlk Hs Hir D2) as Hlj. destruct (Hred _ _ _ _ _ _ _ _ _ Hv Hc Hlj Hs Hir D1) as (s & Hm & _). exists [], s, ir. auto.
  - apply igram_nth in Hi as (ir & Hir & <-). change (symbol (irule ir)) with (isymbol ir) in *. change (rhs (irule ir)) with (irhs ir) in *.
    pose proof (Hlook _ _ _ _ _ _ _ _ _ Hc Hlk Hs Hir D2) as Hlj. rewrite <- app_assoc. apply (IH stk j' 0 (v2 ++ z)); auto.
    + eapply core_close; [exact Hc|apply nextl_iff; eauto|]. exists ir. auto.
    + rewrite skipn_O. apply igram_rnodes; auto.
  - assert (Hn : nextn g i p = Some (Terminal (Token x))) by (apply (nextn_iff g Heps); eauto).
    destruct (act_shift_c g F t ks acts gts Hok _ _ _ _ Hv Hc Hn) as (s & Ha). set (e := (s, Terminal (Token x), Leaf x) : entry).
    destruct (IH (e :: stk) i (p + 1) z) as (pushes & s' & r & Hr & Hm & Ht).
    { apply vs_shift; auto. }
    { simpl. apply core_adv; auto. }
    { eapply skipn_S; eauto. }
    { simpl. apply look_adv; auto. }
    exists (pushes ++ [e]), s', r. split; auto. rewrite <- app_assoc. split; [eapply ms_step; [apply m_shift; eauto|]; auto|].
    etransitivity; [apply trees_app|]. rewrite Ht. reflexivity.
  - exfalso. apply (eps_skipn g Heps) in Hs. eapply cut_not_eps; eauto.
  - apply igram_nth in Hi as (ir & Hir & <-). change (symbol (irule ir)) with (isymbol ir) in *. change (rhs (irule ir)) with (irhs ir) in *.
    assert (Hsk := skipn_S g _ _ _ _ Hs). assert (Hnn : nextn g i p = Some (Production (isymbol ir))) by (apply (nextn_iff g Heps); eauto).
    destruct (cut_derives _ _ _ _ _ _ _ Hcut) as (tn & Dn). pose proof (Hlook _ _ _ _ _ _ _ _ z Hc Hlk Hs Hir Dn) as Hlj. rewrite <- app_assoc in Hlj.
    destruct (Hred _ _ _ _ _ _ _ _ _ Hv Hc Hlj Hs Hir D1) as (s & Hm & Hv'). set (e := (s, Production (isymbol ir), Node i0 ts1) : entry) in *.
    destruct (IH (e :: stk) i (p + 1) z) as (pushes & s' & r & Hr & Hm' & Ht); auto.
    { simpl. apply core_adv; auto. }
    { simpl. apply look_adv; auto. }
    exists (pushes ++ [e]), s', r. split; auto. rewrite <- !app_assoc. split; [eapply msteps_trans; [exact Hm|exact Hm']|].
    etransitivity; [apply trees_app|]. rewrite Ht. reflexivity.
Qed.
End Complete.

(** What is read up to a point depends on one more token only. *)
Lemma msteps_len c c' : msteps c c' -> length (snd c') <= length (snd c).
Proof.
  induction 1 as [c|c c1 c2 Hs _ IH]; auto. destruct Hs; simpl in *; lia.
Qed.

Lemma la_short (w : list nat) : la (firstn 1 w) = la w.
Proof. destruct w; reflexivity. Qed.

Lemma msteps_short c c' : msteps c c' -> forall s y v s', c = (s, y ++ v) -> c' = (s', v) -> msteps (s, y ++ firstn 1 v) (s', firstn 1 v).
Proof.
  induction 1 as [c|c c1 c2 Hs Hm IH]; intros s y v s' H1 H2.
  - subst c. injection H2 as -> Hy. assert (y = []) as ->. { apply (f_equal (@length nat)) in Hy. rewrite app_length in Hy. destruct y; auto. simpl in Hy. lia. } apply ms_refl.
  - subst c2. pose proof (msteps_len _ _ Hm) as Hl. simpl in Hl. inversion Hs as [stk x w s1 Ha|stk w stk' Hr]; subst.
    + injection H0 as -> Hw. destruct y as [|y0 y]; simpl in Hw.
      * subst v. simpl in Hl. lia.
      * injection Hw as <- ->. simpl. eapply ms_step; [apply m_shift; eauto|]. eapply IH; eauto.
    + injection H0 as -> ->. eapply ms_step; [|eapply IH; eauto]. apply m_reduce. replace (la (y ++ firstn 1 v)) with (la (y ++ v)); auto. destruct y; simpl; auto. symmetry. apply la_short.
Qed.

(** Soundness. *)
Lemma look_suffix γ i p a : look γ i p a -> exists δ, γ = rev (strip (firstn p (rnodes i))) ++ δ /\ look δ i 0 a.
Proof.
  induction 1 as [|γ i p l j a Hc Hl Hr Ha Hf|γ i p l j a Hk IH Hl Hr Hf|γ i p X a Hk IH Hn].
  - exists []. split; auto. apply look_init.
  - exists γ. split; auto. eapply look_first; eauto.
  - exists γ. split; auto. eapply look_follow; eauto.
  - destruct IH as (δ & -> & IH). exists δ. split; auto. apply (nextn_iff g Heps) in Hn as (ns & Hs & He).
    destruct (core_suffix g Heps _ _ _ (look_core _ _ _ _ _ _ Hk)) as (_ & _ & _ & _ & Hle).
    assert (Hf : firstn (p + 1) (rnodes i) = firstn p (rnodes i) ++ [X]).
    { rewrite <- (firstn_skipn p (rnodes i)) at 1. rewrite Hs.
      assert (Hp : length (firstn p (rnodes i)) = p) by (apply firstn_length_le; auto).
      rewrite firstn_app, Hp. replace (p + 1 - p) with 1 by lia. rewrite firstn_all2 by lia. reflexivity. }
    rewrite Hf. unfold strip in *. rewrite filter_app. simpl. rewrite He. simpl. rewrite rev_app_distr. reflexivity.
Qed.

Lemma look_complete γ i p a : look γ i p a -> nextn g i p = None -> exists δ, γ = rev (strip (rnodes i)) ++ δ /\ look δ i 0 a.
Proof.
  intros Hk Hn. destruct (look_suffix _ _ _ _ Hk) as (δ & -> & H0). exists δ. split; auto. f_equal. f_equal.
  apply (nextn_none g) in Hn. apply strip_firstn. auto.
Qed.

Section Sound.
Hypothesis Hform : forall i ns δ, rnodes i = ns ++ δ -> exists w ts, derives G δ w ts.

Lemma JN_form : (forall l, JN g F l -> exists ts, derives G [Production l] [] ts) /\ (forall ns, JNs g F ns -> exists ts, derives G ns [] ts).
Proof.
  apply JN_mutind.
  - intros j r Hr _ _ (ts & D). exists [Node j ts]. change (@nil nat) with ((@nil nat) ++ []). change (isymbol r) with (symbol (irule r)).
    econstructor; [apply igram_nth; eauto|exact D|constructor].
  - exists []. constructor.
  - intros ns _ (ts & D). exists ts. constructor. auto.
  - intros l ns _ (t1 & D1) _ (t2 & D2). exists (t1 ++ t2). exact (derives_app _ [Production l] _ _ _ _ _ D1 D2).
Qed.

Lemma JF_form : (forall l a, JF g F l a -> exists x w ts, a = Token x /\ derives G [Production l] (x :: w) ts) /\
  (forall ns a, JFs g F ns a -> forall i ns0, rnodes i = ns0 ++ ns -> exists x w ts, a = Token x /\ derives G ns (x :: w) ts).
Proof.
  apply (JF_mutind g F (fun l a _ => exists x w ts, a = Token x /\ derives G [Production l] (x :: w) ts)
    (fun ns a _ => forall i ns0, rnodes i = ns0 ++ ns -> exists x w ts, a = Token x /\ derives G ns (x :: w) ts)).
  - intros j r a Hr _ _ IH. destruct (IH j []) as (x & w & ts & -> & D); [apply igram_rnodes; auto|].
    exists x, w, [Node j ts]. split; auto. rewrite <- (app_nil_r (x :: w)). change (isymbol r) with (symbol (irule r)).
    econstructor; [apply igram_nth; eauto|exact D|constructor].
  - intros a ns Ha i ns0 Hi. destruct a as [x| |]; [|congruence|].
    + destruct (Hform i (ns0 ++ [Terminal (Token x)]) ns) as (w & ts & D); [rewrite <- app_assoc; auto|]. exists x, w, (Leaf x :: ts). split; auto. constructor. auto.
    + exfalso. apply (no_eos_rnodes g Heos i). rewrite Hi. apply in_or_app. simpl. auto.
  - intros ns a _ IH i ns0 Hi. destruct (IH i (ns0 ++ [Terminal Epsilon])) as (x & w & ts & -> & D); [rewrite <- app_assoc; auto|].
    exists x, w, ts. split; auto. constructor. auto.
  - intros l ns a Hl _ IH i ns0 Hi. destruct (IH i (ns0 ++ [Production l])) as (x & w & ts & -> & D); [rewrite <- app_assoc; auto|].
    destruct (proj1 JN_form _ Hl) as (t1 & D1). exists x, w, (t1 ++ ts). split; auto. exact (derives_app _ [Production l] _ _ _ _ _ D1 D).
  - intros l ns a _ (x & w & ts & -> & D) i ns0 Hi. destruct (Hform i (ns0 ++ [Production l]) ns) as (w2 & t2 & D2); [rewrite <- app_assoc; auto|].
    exists x, (w ++ w2), (ts ++ t2). split; auto. exact (derives_app _ [Production l] _ _ _ _ _ D D2).
Qed.

Lemma rest_split i p X ns : skipn p (rnodes i) = X :: ns -> rnodes i = (firstn p (rnodes i) ++ [X]) ++ ns.
Proof. intros Hs. rewrite <- app_assoc. simpl. rewrite <- Hs. symmetry. apply firstn_skipn. Qed.

Lemma core_cut γ i p : core γ i p -> forall wg tg, derives G (rev γ) wg tg -> forall w v ls j ts, cut G (skipn p (rnodes i)) w v ls j ts ->
  exists v', cut G (rnodes 0) (wg ++ w) (v ++ v') (tg ++ ls) j ts.
Proof.
  induction 1 as [|γ i p l j0 _ IH Hl Hr|γ i p X _ IH Hn]; intros wg tg D w v ls j ts Hcut.
  - inversion D; subst. exists []. rewrite app_nil_r. exact Hcut.
  - apply (nextl_iff g) in Hl as (ns & Hs). destruct (Hform i _ ns (rest_split _ _ _ _ Hs)) as (w2 & t2 & D2). destruct Hr as (r & Hr & <-).
    destruct (IH _ _ D w (v ++ w2) ls j ts) as (v' & Hc).
    { rewrite Hs. change (isymbol r) with (symbol (irule r)). eapply cut_in; [apply igram_nth; eauto| |exact D2]. rewrite skipn_O, (igram_rnodes _ _ _ Hr) in Hcut. exact Hcut. }
    exists (w2 ++ v'). rewrite app_assoc. exact Hc.
  - apply (nextn_iff g Heps) in Hn as (ns & Hs & He). simpl in D. destruct (derives_app_inv _ _ _ _ _ D) as (w1 & w2 & t1 & t2 & -> & -> & D1 & D2).
    rewrite (skipn_S g _ _ _ _ Hs) in Hcut. destruct (IH _ _ D1 (w2 ++ w) v (t2 ++ ls) j ts) as (v' & Hc).
    { rewrite Hs. exact (cut_prefix G [X] _ _ D2 _ _ _ _ _ _ Hcut). }
    exists v'. rewrite <- !app_assoc. exact Hc.
Qed.

Lemma look_cut γ i p a : look γ i p a -> forall wg tg, derives G (rev γ) wg tg -> forall w v ls j ts, cut G (skipn p (rnodes i)) w v ls j ts ->
  exists v', la v' = a /\ cut G (rnodes 0) (wg ++ w) (v ++ v') (tg ++ ls) j ts.
Proof.
  induction 1 as [|γ i p l j0 a Hc Hl Hr Ha Hf|γ i p l j0 a _ IH Hl Hr Hf|γ i p X a _ IH Hn]; intros wg tg D w v ls j ts Hcut.
  - inversion D; subst. exists []. split; auto. rewrite app_nil_r. exact Hcut.
  - apply (nextl_iff g) in Hl as (ns & Hs). rewrite (skipn_S g _ _ _ _ Hs) in Hf. apply (proj1 (ffirst_JFs g F ns a HF Ha)) in Hf.
    destruct (proj2 JF_form _ _ Hf i _ (rest_split _ _ _ _ Hs)) as (x & w2 & t2 & -> & D2). destruct Hr as (r & Hr & <-).
    destruct (core_cut _ _ _ Hc _ _ D w (v ++ x :: w2) ls j ts) as (v' & Hc').
    { rewrite Hs. change (isymbol r) with (symbol (irule r)). eapply cut_in; [apply igram_nth; eauto| |exact D2]. rewrite skipn_O, (igram_rnodes _ _ _ Hr) in Hcut. exact Hcut. }
    exists (x :: w2 ++ v'). split; auto. rewrite <- app_assoc in Hc'. exact Hc'.
  - apply (nextl_iff g) in Hl as (ns & Hs). rewrite (skipn_S g _ _ _ _ Hs) in Hf. apply (fnull_JNs g F ns HF) in Hf. destruct (proj2 JN_form _ Hf) as (t2 & D2). destruct Hr as (r & Hr & <-).
    destruct (IH _ _ D w (v ++ []) ls j ts) as (v' & Hla & Hc').
    { rewrite Hs. change (isymbol r) with (symbol (irule r)). eapply cut_in; [apply igram_nth; eauto| |exact D2]. rewrite skipn_O, (igram_rnodes _ _ _ Hr) in Hcut. exact Hcut. }
    exists v'. split; auto. rewrite app_nil_r in Hc'. exact Hc'.
  - apply (nextn_iff g Heps) in Hn as (ns & Hs & He). simpl in D. destruct (derives_app_inv _ _ _ _ _ D) as (w1 & w2 & t1 & t2 & -> & -> & D1 & D2).
    rewrite (skipn_S g _ _ _ _ Hs) in Hcut. destruct (IH _ _ D1 (w2 ++ w) v (t2 ++ ls) j ts) as (v' & Hla & Hc).
    { rewrite Hs. exact (cut_prefix G [X] _ _ D2 _ _ _ _ _ _ Hcut). }
    exists v'. split; auto. rewrite <- !app_assoc. exact Hc.
Qed.

(** A complete item: what is on the stack begins a sentence, with this node. *)
Lemma reduce_cut γ j a wg tg w ts : look γ j 0 a -> j <> 0 -> derives G (rev γ) wg tg -> derives G (rnodes j) w ts ->
  exists v, la v = a /\ cut G (rnodes 0) (wg ++ w) v tg j ts.
Proof.
  intros Hk Hj Dg D. inversion Hk as [|γ0 i p l j0 a0 Hc Hl Hr Ha Hf|γ0 i p l j0 a0 Hk' Hl Hr Hf|γ0 i p X a0 Hk' Hn]; subst; [congruence| | |lia].
  - apply (nextl_iff g) in Hl as (ns & Hs). rewrite (skipn_S g _ _ _ _ Hs) in Hf. apply (proj1 (ffirst_JFs g F ns a HF Ha)) in Hf.
    destruct (proj2 JF_form _ _ Hf i _ (rest_split _ _ _ _ Hs)) as (x & w2 & t2 & -> & D2). destruct Hr as (r & Hr & <-).
    destruct (core_cut _ _ _ Hc _ _ Dg w (x :: w2) [] j ts) as (v' & Hc').
    { rewrite Hs. change (isymbol r) with (symbol (irule r)). eapply cut_here; [apply igram_nth; eauto| |exact D2]. rewrite (igram_rnodes _ _ _ Hr) in D. exact D. }
    rewrite app_nil_r in Hc'. exists (x :: w2 ++ v'). auto.
  - apply (nextl_iff g) in Hl as (ns & Hs). rewrite (skipn_S g _ _ _ _ Hs) in Hf. apply (fnull_JNs g F ns HF) in Hf. destruct (proj2 JN_form _ Hf) as (t2 & D2). destruct Hr as (r & Hr & <-).
    destruct (look_cut _ _ _ _ Hk' _ _ Dg w [] [] j ts) as (v' & Hla & Hc').
    { rewrite Hs. change (isymbol r) with (symbol (irule r)). eapply cut_here; [apply igram_nth; eauto| |exact D2]. rewrite (igram_rnodes _ _ _ Hr) in D. exact D. }
    rewrite app_nil_r in Hc'. exists v'. auto.
Qed.
End Sound.
End Machine.
