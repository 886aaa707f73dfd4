(** Constructors that fail, with and without parse trees (C63). *)
From Coq Require Import Arith Bool String NArith List Lia Permutation.
From Verif Require Import Base.Prelude Spec.Grammar Spec.Validity Spec.Nullable Spec.Observers Spec.States Model.Error.
From Verif Require Import Model.BitSet Model.FixedMap Model.Vocabulary Model.IndexedGrammar Model.FirstMap.
From Verif Require Import Model.Position Model.Closure Model.LRTable Model.StateMap Model.ParseSimulator.
From Verif Require Import Model.TokenTree Model.Terminal Model.Constructor Model.CodeGen Model.Runtime Spec.Values.
From Verif Require Import Proofs.WP Proofs.BitSetProofs Proofs.FixedMapProofs Proofs.VocabProofs.
From Verif Require Import Proofs.IndexedProofs Proofs.IndexedBuild Proofs.IndexedMain Proofs.FirstProofs.
From Verif Require Import Proofs.ClosureProofs Proofs.ItemSets Proofs.TableProofs Proofs.TableBuild.
From Verif Require Import Proofs.Fuel Proofs.Machine Proofs.MixedRuns Proofs.ParserFinal Proofs.RecognitionFinal Proofs.IndexedFinal Proofs.LR1Proofs Proofs.LR1Final Proofs.StatesFinal Proofs.TableFinal Proofs.StateMapFinal Proofs.GenTable Proofs.ConstructorProofs Proofs.GenCode Proofs.GenRun Proofs.GenPath Proofs.GenFinal Proofs.GenEnds Proofs.GenLang Proofs.GenMain Spec.Causes Proofs.Causes.
From Verif Require Import Spec.EmittedCode Spec.Meaning Proofs.Meaning Proofs.Cuts.
Import ListNotations.

Scheme label_fails_mut := Minimality for label_fails Sort Prop with nodes_fail_mut := Minimality for nodes_fail Sort Prop.
Combined Scheme label_fails_ind2 from label_fails_mut, nodes_fail_mut.

Section Trees.
Variable R : rust.
Variable gi : grammar_info.
Local Notation g := (source (gi_rules gi)).
Local Notation good_leaves := (good_leaves R gi).
Local Notation toks_of ds := (map snd (flat_map leaves ds)).
Local Notation value_list ds := (snd (in_order R (map (Values.eval R gi) ds))).

(** The trees [dl] have values, and so have the [cs], but rule [i] fails on those. *)
Definition fails_on (dl : list (dtree R)) (i : nat) (cs : list (dtree R)) (u : UErr R) : Prop :=
  (exists vl, value_list dl = inl vl) /\ exists vs, value_list cs = inl vs /\ rule_value R gi i (combine (indices_of gi i) vs) = inr u.

Lemma good_app a b : good_leaves a -> good_leaves b -> good_leaves (a ++ b).
Proof. intros H1 H2 s k Hin. rewrite flat_map_app in Hin. apply in_app_or in Hin as [Hin|Hin]; auto. Qed.

Lemma fails_trees :
  (forall l ts rest u, label_fails R gi l ts rest u -> forall ns rest' trees, derives g (map to_lr_node ns) rest' trees -> exists dl i cs,
     cut g (map to_lr_node (PNProduction l :: ns)) (map fst (flat_map leaves (dl ++ cs))) (rest ++ rest') (map (tmap fst) dl) i (map (tmap fst) cs) /\
     toks_of (dl ++ cs) = ts /\ good_leaves (dl ++ cs) /\ fails_on dl i cs u) /\
  (forall ns ts rest u, nodes_fail R gi ns ts rest u -> exists dl i cs,
     cut g (map to_lr_node ns) (map fst (flat_map leaves (dl ++ cs))) rest (map (tmap fst) dl) i (map (tmap fst) cs) /\
     toks_of (dl ++ cs) = ts /\ good_leaves (dl ++ cs) /\ fails_on dl i cs u).
Proof.
  apply label_fails_ind2.
  - intros i r ts vs u Hi Hm Hr ns rest' trees Hd. destruct (proj2 (meaning_trees R gi) _ _ _ Hm) as (ds & Hds & Hl & Hg & Hv).
    exists [], i, ds. cbn [app map]. repeat split; auto.
    + exact (cut_here g i (to_lr_production_rule r) _ _ _ _ _ (source_nth gi i r Hi) Hds Hd).
    + exists []. reflexivity.
    + exists vs. split; auto. rewrite (indices_eq gi i r Hi). exact Hr.
  - intros i r ts rest u Hi _ (dl & j & cs & Hc & Hl & Hg & Hf) ns rest' trees Hd. exists dl, j, cs. repeat split; auto; try apply Hf.
    exact (cut_in g i (to_lr_production_rule r) _ _ _ _ _ _ _ _ (source_nth gi i r Hi) Hc Hd).
  - intros l ts rest ns rest' trees u _ IH Hd. exact (IH ns rest' trees Hd).
  - intros s k ns ts rest u Hm _ (dl & j & cs & Hc & Hl & Hg & (vl & Hvl) & Hf). exists (Leaf (s, k) :: dl), j, cs.
    cbn [map flat_map leaves app tmap to_lr_node fst snd]. repeat split.
    + now apply cut_token.
    + now rewrite Hl.
    + apply good_cons; [|exact Hg]. intros s' k' [H|[]]. injection H as <- <-. exact Hm.
    + eexists. apply in_order_cons; [reflexivity|exact Hvl].
    + exact Hf.
  - intros l ts v ns ts' rest u Hm _ (dl & j & cs & Hc & Hl & Hg & (vl & Hvl) & Hf).
    destruct (proj1 (meaning_trees R gi) _ _ _ Hm) as (i & r & ds1 & Hi & Hn & Hd1 & Hl1 & Hg1 & Hv1). subst l.
    exists (Node i ds1 :: dl), j, cs. cbn [map flat_map leaves app tmap to_lr_node]. rewrite !map_app. repeat split.
    + exact (cut_after g i (to_lr_production_rule r) _ _ _ _ _ _ _ _ (source_nth gi i r Hi) Hd1 Hc).
    + now rewrite Hl1, Hl.
    + apply good_cons; [|exact Hg]. intros s k Hin. cbn [flat_map leaves] in Hin. rewrite app_nil_r in Hin. now apply Hg1.
    + eexists. apply in_order_cons; [exact Hv1|exact Hvl].
    + exact Hf.
  - intros ns ts rest u _ (dl & j & cs & Hc & H). exists dl, j, cs. split; [|exact H]. cbn [map to_lr_node]. now apply cut_epsilon.
Qed.

Lemma trees_fail ns w v ls i ts : cut g ns w v ls i ts -> forall pns dl cs u, ns = map to_lr_node pns -> ls = map (tmap fst) dl -> ts = map (tmap fst) cs ->
  good_leaves (dl ++ cs) -> fails_on dl i cs u -> nodes_fail R gi pns (toks_of (dl ++ cs)) v u.
Proof.
  induction 1 as [j r w ts ns v tv Hj D1 D2|j' r w v ls j ts ns v2 tv Hi _ IH D2|x ns w v ls j ts _ IH|ns w v ls j ts _ IH|i0 r ts1 w1 ns w v ls j ts Hi D1 _ IH];
    intros pns dl cs u Hns Hls Hts Hg Hf; (destruct pns as [|n pns]; [discriminate|]); injection Hns as Hn Hns; destruct n as [l|s|]; try discriminate; injection Hn as Hn || clear Hn.
  - symmetry in Hls. apply map_eq_nil in Hls. subst dl. destruct Hf as (_ & vs & Hv & Hr). apply source_inv in Hj as (pr & Hj & ->). cbn [symbol to_lr_production_rule] in Hn. subst l.
    change v with ([] ++ v). rewrite Hns in D2. eapply nf_here; [|exact D2]. cbn [app] in *. rewrite (indices_eq gi j pr Hj) in Hr.
    eapply lf_rule; eauto. exact (trees_mean R gi _ _ _ D1 (pr_nodes pr) cs vs eq_refl Hts Hg Hv).
  - apply source_inv in Hi as (pr & Hi & ->). cbn [symbol to_lr_production_rule] in Hn. subst l. rewrite Hns in D2.
    eapply nf_here; [|exact D2]. eapply lf_nodes; [exact Hi|]. apply IH; auto.
  - subst s. destruct dl as [|d dl]; [discriminate|]. injection Hls as Hd Hls. destruct d as [[s k]|]; [|discriminate]. cbn in Hd. injection Hd as ->.
    cbn [app flat_map leaves map snd]. destruct Hf as ((vl & Hvl) & Hf). cbn [map] in Hvl. apply in_order_inv in Hvl as (v0 & vl' & _ & _ & Hvl). apply nf_symbol.
    + apply Hg. cbn. auto.
    + apply IH; auto; [eapply good_tail; exact Hg|]. split; eauto.
  - apply nf_nothing. apply IH; auto.
  - destruct dl as [|d dl]; [discriminate|]. injection Hls as Hd Hls. destruct d as [[s' k]|j1 ds1]; [discriminate|]. cbn in Hd. injection Hd as <- Hd.
    apply source_inv in Hi as (pr & Hi & ->). cbn [symbol to_lr_production_rule] in Hn. subst l.
    destruct Hf as ((vl & Hvl) & Hf). cbn [map] in Hvl. apply in_order_inv in Hvl as (v0 & vl' & _ & Hv0 & Hvl).
    apply eval_node_inv in Hv0 as (vs1 & H1 & H3). rewrite (indices_eq gi _ pr Hi) in H3.
    cbn [app flat_map leaves]. rewrite map_app. eapply nf_label.
    + eapply means_rule; [exact Hi| |exact H3]. refine (trees_mean R gi _ _ _ D1 (pr_nodes pr) ds1 vs1 eq_refl Hd _ H1).
      intros s k Hin. apply (good_head R gi _ _ Hg). cbn [flat_map leaves]. now rewrite app_nil_r.
    + apply IH; auto; [eapply good_tail; exact Hg|]. split; eauto.
Qed.
End Trees.

Section Run.
Context {bm : BuildMode} {E : Type}.
Variable literal_ok : string -> bool.
Variable R : rust.
Variable gi : grammar_info.
Variable F : first_table.
Variable ks : list kernel.
Variable acts : nat -> aug nat -> option action.
Variable gts : nat -> nat -> option nat.
Hypothesis Hsu : setup gi F ks acts gts.
Variable prog : program.
Hypothesis Hprog : program_ok literal_ok gi acts gts prog.
Hypothesis Hdef : defaults_bound (gi_rules gi).
Context {SErr : Type}.
Variable into : SErr -> UErr R.
Local Notation g := (source (gi_rules gi)).
Local Notation ig := (gi_grammar gi).
Local Notation t := (gi_table gi).
Local Notation vstk := (vstk acts gts).
Local Notation istack := (istack R).
Local Notation bare := (bare R).
Local Notation toks := (toks R).
Local Notation forest := (forest R).
Local Notation kstep := (kstep literal_ok R gi acts gts).
Local Notation kpath := (kpath literal_ok R gi acts gts).
Local Notation kmoves := (kmoves literal_ok R gi acts gts).
Local Notation item_ok := (item_ok literal_ok R gi).
Local Notation fails := (fails R gi).
Local Notation run ts fuel := (parse_fallible (E := E) R into (of_list ts) fuel prog).
Let Hix := su_ix _ _ _ _ _ Hsu.
Let Heps := su_eps _ _ _ _ _ Hsu.
Let Heos := su_eos _ _ _ _ _ Hsu.
Let HF := su_first _ _ _ _ _ Hsu.
Let Hok := su_ok _ _ _ _ _ Hsu.
Let Hwf := ix_wf _ _ Hix.

(** The trees over tokens and those of the machine. *)
Definition same_tree (x : item R) : Prop := tree_rel ig (tmap fst (snd x)) (etree (fst x)).

Lemma same_forest popped : Forall same_tree popped -> Forall2 (tree_rel ig) (map (tmap fst) (forest popped)) (rev (trees (bare popped))).
Proof.
  unfold GenRun.forest, GenRun.bare, trees. rewrite map_rev. intros Hf. induction Hf as [|x l Hx _ IH]; simpl; [constructor|]. apply Forall2_app; auto.
Qed.

Lemma kstep_same stk o stk' : kstep stk o stk' -> Forall same_tree stk -> Forall same_tree stk'.
Proof.
  intros [k sy i s' H1 H2 H3|o' a a' j r popped rest s' H1 H2 H3 H4 -> H6 H7] Hf.
  - constructor; auto. red. simpl. constructor. exact H1.
  - apply Forall_app in Hf as (F1 & F2). constructor; auto. red. cbn. econstructor; eauto. apply same_forest. auto.
Qed.

Lemma kpath_same a b c d : kpath a b c d -> Forall same_tree a -> Forall same_tree c.
Proof. induction 1; auto. intros. apply IHkpath. eapply kstep_same; eauto. Qed.

Lemma kpath_grows a b c d : kpath a b c d -> length (toks a) <= length (toks c).
Proof.
  induction 1 as [|stk rem stk1 rem1 stk' rem' Hk _ _ IH]; auto. destruct (kstep_toks _ _ _ _ _ _ _ _ Hk) as [He|(k & _ & He)]; rewrite He in IH; rewrite ?app_length in IH; lia.
Qed.

Lemma kpath_more a b c d : kpath a b c d -> forall y, (d = [] -> y = []) -> kpath a (b ++ y) c (d ++ y).
Proof.
  induction 1 as [stk rem|stk rem stk1 rem1 stk' rem' Hk Ht Hp IH]; intros y Hy; [constructor|].
  apply kp_step with (stk1 := stk1) (rem1 := rem1 ++ y); [|rewrite !app_assoc, Ht; reflexivity|apply IH; auto]. destruct rem as [|k rem]; [|exact Hk]. rewrite Hy; auto.
  pose proof (kpath_toks _ _ _ _ _ _ _ _ _ Hp) as Hpt. pose proof (kpath_grows _ _ _ _ Hp) as Hg. rewrite app_nil_r in Ht.
  apply (f_equal (@length _)) in Hpt, Ht. rewrite !app_length in *. destruct rem'; auto. simpl in *.
  destruct (kstep_toks _ _ _ _ _ _ _ _ Hk) as [He|(k & He & _)]; [rewrite He in *; lia|discriminate].
Qed.

Lemma follow_fails input stk rem stk' rem' log u : kpath stk rem stk' rem' -> fails stk' log u ->
  (forall m, length (toks stk) <= m -> input m = option_map inl (nth_error (toks stk ++ rem) m)) ->
  (forall stk o, next_is R input stk o -> single R gi acts stk o) ->
  forall st, rel literal_ok R gi acts gts input st stk ->
  exists N st', (forall fuel, N < fuel -> while_loop fuel (loop_step (E := E) R into input prog) st = Ok (st', inr (UserError R u))) /\
    s_calls R (st_stream R st') <= S (length (toks stk')).
Proof.
  intros Hp Hfl Hin Hs.
  induction Hp as [stk rem|stk rem stk1 rem1 stk' rem' Hk Ht Hp IH]; intros st Hr.
  - exfalso. destruct (rel_values literal_ok R gi acts gts input _ _ Hr) as (vs & Hv). unfold GenPath.fails in Hfl. congruence.
  - assert (Hn : next_is R input stk (hd_error rem)).
    { red. rewrite Hin by lia. rewrite nth_error_app2 by lia. rewrite Nat.sub_diag. destruct rem; reflexivity. }
    assert (Hlen : length (toks stk) <= length (toks stk1)).
    { destruct (kstep_toks _ _ _ _ _ _ _ _ Hk) as [->|(k & _ & ->)]; rewrite ?app_length; lia. }
    destruct (step_exec (E := E) literal_ok R gi F ks acts gts Hsu prog Hprog Hdef into input _ _ Hr) as [(s1 & k1 & E1 & M1 & R1)|(s1 & r1 & E1 & M1 & S1)].
    + assert (k1 = stk1) as ->.
      { destruct M1 as (o & x & rest & v & A1 & A2 & A3 & _). unfold GenRun.next_is in *. rewrite Hn in A1. apply option_inl_inj in A1. subst o. eapply kstep_fun; [exact Hsu|apply Hs; exact Hn|exact A3|exact Hk]. }
      destruct (IH Hfl) with (st := s1) as (N & st' & HN & Hcl); auto.
      { intros m Hm. rewrite <- Ht. apply Hin. lia. }
      exists (S N), st'. split; [|exact Hcl]. intros [|fuel] Hf; [lia|]. simpl. rewrite E1. cbn [bind]. apply HN. lia.
    + exists 0, s1. split.
      2:{ rewrite S1, (rl_stream _ _ _ _ _ _ _ _ Hr). cbn [s_calls]. pose proof (kpath_grows _ _ _ _ Hp). lia. }
      intros [|fuel] Hf; [lia|]. simpl. rewrite E1. cbn [bind]. f_equal. f_equal.
      destruct M1 as [e' B1|k' ty' B1 B2 B3 B4|o' x' rest' e' log' B1 B2 B3 B4|log' res' B1 B2 B3|o' B1 B2 B3]; unfold GenRun.next_is in *; rewrite Hn in B1.
      * destruct (hd_error rem); discriminate.
      * apply (option_inl_inj _ (Some k')) in B1. exfalso. eapply single_no_overlap; [apply (Hs stk (Some k')); unfold GenRun.next_is; rewrite Hn, B1; reflexivity|eassumption].
      * apply option_inl_inj in B1. subst o'. assert (He : stk1 = x' :: rest') by (eapply kstep_fun; [exact Hsu|apply Hs; exact Hn|exact Hk|exact B3]). subst stk1.
        assert (Hfx : exists lg, fails (x' :: rest') lg e').
        { unfold GenPath.fails. rewrite forest_cons, map_app, in_order_app.
          assert (Hrest : exists lg vs, in_order R (map (eval R gi) (forest rest')) = (lg, inl vs)).
          { destruct (rel_values literal_ok R gi acts gts input _ _ Hr) as (vs & Hv). inversion B3; subst; eauto.
            rewrite forest_app, map_app, in_order_app in Hv. destruct (in_order R (map (eval R gi) (forest rest'))) as [l1 [v1|e1]]; [|discriminate]. eauto. }
          destruct Hrest as (lg & vs & ->). cbn [map in_order]. rewrite B4. eauto. }
        destruct Hfx as (lg & Hfx). pose proof (fails_path _ _ _ _ _ _ _ _ _ _ _ Hp Hfx) as Hy. unfold GenPath.fails in *. congruence.
      * apply (option_inl_inj _ None) in B1. rewrite B1 in Hk. exfalso. eapply kaccept_no_step; eauto.
      * apply option_inl_inj in B1. subst o'. exfalso. eapply kstep_not_blocked; eauto.
Qed.

Lemma root_rule r : nth_error (gi_rules gi) 0 = Some r -> Forall2 (inode_rel ig) (map to_lr_node (pr_nodes r)) (rnodes ig 0).
Proof.
  intros Hr. destruct (ix_root_rule g ig Hix) as (r0 & ir & Hr0 & Hir & _ & _ & Hrel). rewrite (source_nth gi 0 r Hr) in Hr0. injection Hr0 as <-.
  rewrite (igram_rnodes ig _ _ Hir). exact Hrel.
Qed.

Lemma forest_eq (ds ds' : list (dtree R)) : map (tmap fst) ds = map (tmap fst) ds' -> map snd (flat_map leaves ds) = map snd (flat_map leaves ds') -> ds = ds'.
Proof.
  intros H1 H2. assert (Hn : Node 0 ds = Node 0 ds'); [|now injection Hn].
  apply (tmap_leaves_inj fst); [simpl; now rewrite H1|]. cbn [leaves].
  assert (Hf : map fst (flat_map leaves ds) = map fst (flat_map leaves ds')).
  { assert (Hx : forall l : list (dtree R), map fst (flat_map leaves l) = flat_map leaves (map (tmap fst) l)).
    { induction l as [|d l IH]; simpl; auto. rewrite map_app, IH, tmap_leaves. reflexivity. }
    rewrite !Hx, H1. reflexivity. }
  clear -Hf H2. revert Hf H2. generalize (flat_map leaves ds) (flat_map leaves ds'). intros l. induction l as [|[a b] l IH]; intros [|[c d] l'] H1 H2; simpl in *; try discriminate; auto.
  injection H1 as -> H1. injection H2 as -> H2. f_equal. auto.
Qed.

Lemma reads_first rest v' (o : option (tok R)) : Forall2 (tok_rel ig) rest v' -> could_begin R gi rest o -> Forall2 (reads R gi) (firstn 1 v') (match o with Some k => [k] | None => [] end).
Proof.
  intros Hf Hc. destruct Hf as [|s i rest v' Hs _]; destruct o as [k|]; simpl in *; try tauto; constructor; [|constructor]. exists s. auto.
Qed.

Theorem run_fails_at ts u n rest : Fclosed ig F -> unambiguous_tokens R gi ts ->
  n <= length ts -> input_fails R gi (firstn n ts) rest u -> could_begin R gi rest (nth_error ts n) ->
  exists N st, (forall fuel, N < fuel -> run ts fuel = Ok (st, inr (UserError R u))) /\ s_calls R (st_stream R st) <= S n.
Proof.
  intros HFc Hu Hn (r & Hr & [Hf|(-> & vs & Hm & Hv)]) Hb.
  - destruct (proj2 (fails_trees R gi) _ _ _ _ Hf) as (dl & i & cs & Hc & Hl & Hg & (vl & Hvl) & vs & Hvs & Hru).
    destruct (cut_fwd g ig Hix _ _ _ _ _ _ Hc _ (root_rule r Hr)) as (w' & v' & ls' & j' & ts' & Hc' & Hw & Hv & Hls & Hj).
    destruct (cut_sim ig Hwf Heps F t ks acts gts Hok HFc _ _ _ _ _ _ Hc' [] 0 0 []) as (pushes & s & ir & Hir & Hms & Htr).
    { constructor. } { constructor. } { rewrite skipn_O. reflexivity. } { apply look_init. }
    rewrite !app_nil_r in Hms. pose proof (msteps_short ig acts gts _ _ Hms _ _ _ _ eq_refl eq_refl) as Hms'.
    set (o := nth_error ts n) in *. set (ol := match o with Some k => [k] | None => [] end).
    assert (Hrd : Forall2 (reads R gi) (w' ++ firstn 1 v') (firstn n ts ++ ol)).
    { apply Forall2_app; [|apply (reads_first rest); auto]. rewrite <- Hl. apply (reads_fwd R gi); auto. }
    destruct (lift_msteps literal_ok R gi F ks acts gts Hsu prog Hprog _ _ Hms' [] _ (vs_nil _ _) eq_refl Hrd) as (stk' & rem' & Hk & Hbare & Hrem). simpl in Hbare, Hrem.
    pose proof (kpath_toks _ _ _ _ _ _ _ _ _ Hk) as Ht. simpl in Ht.
    assert (Hlen : length ol = length rem') by (rewrite <- (Forall2_len _ _ _ Hrem); exact (eq_sym (Forall2_len _ _ _ (reads_first rest v' o Hv Hb)))).
    assert (Htk : firstn n ts = toks stk' /\ ol = rem').
    { apply app_inv_length; auto. apply (f_equal (@length _)) in Ht. rewrite !app_length in Ht. lia. }
    destruct Htk as (Htk & <-).
    assert (Hsplit : ts = (firstn n ts ++ ol) ++ skipn (S n) ts).
    { rewrite <- app_assoc. rewrite <- (firstn_skipn n ts) at 1. f_equal. unfold ol, o. destruct (nth_error ts n) as [k|] eqn:Ek; [apply skipn_cons; auto|].
      apply nth_error_None in Ek. rewrite (skipn_all2 ts) by lia. rewrite (skipn_all2 ts) by lia. reflexivity. }
    assert (Hk' : kpath [] ts stk' (ol ++ skipn (S n) ts)).
    { rewrite Hsplit at 1. apply kpath_more; auto. unfold ol, o. destruct (nth_error ts n) eqn:Ek; [discriminate|]. intros _. apply nth_error_None in Ek. change (skipn (S n) ts = []). apply skipn_all2. lia. }
    pose proof (kpath_same _ _ _ _ Hk' (Forall_nil _)) as Hsame. apply same_forest in Hsame. rewrite Hbare in Hsame.
    assert (Hfor : forest stk' = dl ++ [Node i cs]).
    { apply forest_eq.
      - unfold trees in Hsame, Htr. cbn [map rev] in Hsame. rewrite Htr, rev_involutive in Hsame. unfold etree in Hsame. cbn [snd] in Hsame.
        assert (Hq : Forall2 (tree_rel ig) (map (tmap fst) (dl ++ [Node i cs])) (ls' ++ [Node j' ts'])).
        { rewrite map_app. apply Forall2_app; auto. constructor; auto. }
        revert Hsame Hq. clear. generalize (map (tmap fst) (forest stk')) (map (tmap fst) (dl ++ [Node i cs])) (ls' ++ [Node j' ts']). intros a b c H1. revert b.
        induction H1 as [|x y a c Hx _ IH]; intros b H2; inversion H2; subst; auto. f_equal; auto. eapply tree_rel_fun_l; eauto.
      - change (map snd (flat_map leaves (forest stk'))) with (toks stk'). rewrite <- Htk, <- Hl, !flat_map_app. simpl. rewrite app_nil_r. reflexivity. }
    assert (Hfl : exists lg, fails stk' lg u).
    { unfold GenPath.fails. rewrite Hfor, map_app, in_order_app.
      match goal with |- exists _, match ?a with _ => _ end = _ => change (snd a = inl vl) in Hvl; destruct a as [lg [vl'|e]]; [|discriminate] end.
      pose proof (Meaning.eval_node R gi i cs vs Hvs) as Hev. rewrite Hru in Hev. cbn [map in_order]. destruct (eval R gi (Node i cs)) as [lg' [x|e]]; simpl in Hev; [discriminate|]. injection Hev as ->. eauto. }
    destruct Hfl as (lg & Hfl). unfold parse_fallible. replace n with (length (toks stk')) by (rewrite <- Htk; apply firstn_length_le; exact Hn). apply (follow_fails (of_list ts) [] ts stk' _ lg u Hk' Hfl).
    + intros m _. reflexivity.
    + apply (list_single R gi F ks acts gts Hsu); auto.
    + apply (rel_new literal_ok R gi acts gts prog Hprog).
  - assert (Hn' : nth_error ts n = None) by (destruct (nth_error ts n); auto; destruct Hb). apply nth_error_None in Hn'. rewrite firstn_all2 in Hm by lia.
    destruct (proj2 (meaning_trees R gi) _ _ _ Hm) as (ds & Hd & Hl & Hg & Hvs).
    destruct (run_sentence (E := E) literal_ok R gi F ks acts gts Hsu prog Hprog Hdef into HFc ts (Node 0 ds) Hu) as (N & st & HN & _ & Hcl).
    { repeat split; auto. exists (to_lr_production_rule r), (map (tmap fst) ds). repeat split; [now apply source_nth|exact Hd]. }
    rewrite (Meaning.eval_node R gi 0 ds vs Hvs), (indices_eq gi 0 r Hr), Hv in HN. exists N, st. split; [exact HN|]. lia.
Qed.

Theorem run_fails ts u : Fclosed ig F -> unambiguous_tokens R gi ts -> constructor_fails R gi ts u ->
  exists N st, forall fuel, N < fuel -> run ts fuel = Ok (st, inr (UserError R u)).
Proof.
  intros HFc Hu (n & rest & Hn & Hf & Hb). destruct (run_fails_at ts u n rest HFc Hu Hn Hf Hb) as (N & st & HN & _). eauto.
Qed.

Lemma starts_list (ts u : list (tok R)) : starts (of_list (S := SErr) ts) u -> u = firstn (length u) ts /\ length u <= length ts.
Proof.
  revert ts. induction u as [|a u IH]; intros ts H; [simpl; split; [auto|lia]|].
  pose proof (H 0 a eq_refl) as H0. unfold of_list in H0. destruct ts as [|b ts]; [discriminate|]. cbn in H0. injection H0 as ->. cbn.
  destruct (IH ts) as (H1 & H2); [intros i x Hx; exact (H (S i) x Hx)|]. split; [congruence|lia].
Qed.

Lemma value_list_ok ds : Forall (evaluates R gi) ds -> exists vs, snd (in_order R (map (eval R gi) ds)) = inl vs.
Proof. intros Hf. destruct (values_list R gi _ Hf) as (vs & Hv & _). exists vs. rewrite (in_order_ok R gi _ _ Hv). reflexivity. Qed.

Lemma leaves_good ds : Forall (leaf_ok literal_ok R gi) (flat_map leaves ds) -> good_leaves R gi ds.
Proof. intros Hf s k Hin. rewrite Forall_forall in Hf. apply (Hf _ Hin). Qed.

Lemma items_leaves stk : Forall item_ok stk -> Forall (leaf_ok literal_ok R gi) (flat_map leaves (forest stk)).
Proof.
  intros Hi. rewrite forest_rev. apply Forall_rev in Hi. induction Hi as [|x l [_ Hx] _ IH]; simpl; [constructor|]. apply Forall_app. auto.
Qed.

Lemma stack_derives stk : Forall item_ok stk -> exists u tu, derives (igram ig) (rev (syms (bare stk))) u tu /\
  Forall2 (tok_rel ig) (map fst (flat_map leaves (forest stk))) u /\ Forall2 (tree_rel ig) (map (tmap fst) (forest stk)) tu.
Proof.
  induction 1 as [|y stk [(nd & Hn & D) _] _ (u & tu & Du & Hu & Ht)]; [exists [], []; repeat split; constructor|].
  destruct (derives_fwd g ig Hix _ _ _ D [esym (fst y)]) as (w' & ts' & D' & W' & T'); [constructor; [exact Hn|constructor]|].
  exists (u ++ w'), (tu ++ ts'). split; [simpl; apply derives_app; auto|]. rewrite forest_cons, flat_map_app, !map_app, flat_map_one. split; apply Forall2_app; auto.
Qed.

Theorem error_fails_at ts fuel st u : productive g -> run ts fuel = Ok (st, inr (UserError R u)) ->
  exists n rest, n <= length ts /\ s_calls R (st_stream R st) = S n /\ input_fails R gi (firstn n ts) rest u /\ could_begin R gi rest (nth_error ts n).
Proof.
  intros Hpr Hrun. destruct (run_cases (E := E) literal_ok R gi F ks acts gts Hsu prog Hprog Hdef into (of_list ts) fuel) as [Hd|(st' & res & stk & Hr & Hm & Hk & Hs & Hv & Hi & Hin)]; [congruence|].
  rewrite Hrun in Hr. injection Hr as <- <-. pose proof (moves_values literal_ok R gi acts gts _ _ _ Hm (Forall_nil _)) as Hvals.
  destruct (starts_list _ _ Hin) as (Hpre & Hle).
  inversion Hk as [e B1 HH HL|k ty B1 B2 B3 B4 HH HL|o x rest e log B1 B2 B3 B4 HH HL|log res B1 B2 B3 HH HL|o B1 B2 B3 HH HL]; subst.
  - unfold of_list in B1. destruct (nth_error ts (length (toks stk))); discriminate.
  - inversion B3 as [k sy i s' C1 C2 C3|o' a a' j r popped rst s' C1 C2 C3 C4 C5 C6 C7]; subst x stk; subst; [discriminate B4|].
    apply Forall_app in Hvals as (Hv1 & Hv2). apply forest_values in Hv1, Hv2. simpl snd in B4.
    destruct (node_error R gi _ _ _ _ Hv1 B4) as (_ & vs & D1 & D2).
    destruct (act_reduce ig F t ks acts gts Hok _ _ _ Hv C3) as (Hj & p & Hlk & Hnx).
    destruct (look_complete ig Heps F _ _ _ _ Hlk Hnx) as (δ & Hδ & Hl0).
    assert (Hsy : syms (bare popped) = rev (strip (rnodes ig j)) /\ syms (bare rest) = δ).
    { rewrite (bare_app R), syms_app in Hδ. apply app_inv_length in Hδ; auto. unfold syms at 1. rewrite map_length, (bare_length R), C6, rev_length. reflexivity. }
    destruct Hsy as (Hsy1 & <-). pose proof Hi as Hi0. apply Forall_app in Hi as (Hi1 & Hi2).
    destruct (stack_derives rest Hi2) as (wr & tr & Dr & Wr & Tr). destruct (stack_derives popped Hi1) as (wp & tp & Dp & Wp & Tp). rewrite Hsy1, rev_involutive in Dp.
    apply (proj1 (derives_strip _ _ _ _)) in Dp.
    assert (Hform : forall i ns δ, rnodes ig i = ns ++ δ -> exists w ts, derives (igram ig) δ w ts).
    { intros i ns δ Hx. eapply (productive_form gi F ks acts gts Hsu Hpr i δ). eauto. }
    destruct (reduce_cut ig Heos Heps F HF Hform _ _ _ _ _ _ _ Hl0 Hj Dr Dp) as (v & Hla & Hcut).
    destruct (ix_root_rule g ig Hix) as (r0 & ir & Hr0 & Hir & _ & _ & Hrel). apply source_inv in Hr0 as (pr0 & Hp0 & ->).
    destruct (cut_bwd g ig Hix _ _ _ _ _ _ Hcut _ (root_rule pr0 Hp0)) as (w0 & v0 & ls0 & j0 & ts0 & Hc0 & W0 & V0 & L0 & J0).
    assert (Hls : ls0 = map (tmap fst) (forest rest)).
    { revert L0 Tr. clear. generalize (map (tmap fst) (forest rest)). intros b L0. revert b. induction L0 as [|x y a c Hx _ IH]; intros b H2; inversion H2; subst; auto. f_equal; auto. eapply tree_rel_fun_l; eauto. }
    assert (Hnode : Node j0 ts0 = Node (original_index r) (map (tmap fst) (forest popped))).
    { eapply tree_rel_fun_l; [exact J0|]. econstructor; eauto. }
    injection Hnode as -> ->.
    exists (length (toks (popped ++ rest))), v0. split; [exact Hle|]. split; [now rewrite Hs|]. split.
    + rewrite <- Hpre. exists pr0. split; auto. left.
      replace (toks (popped ++ rest)) with (map snd (flat_map leaves (forest rest ++ forest popped))) by (unfold GenRun.toks; rewrite forest_app; reflexivity).
      eapply (trees_fail R gi _ _ _ _ _ _ Hc0); auto.
      * rewrite <- (forest_app R). apply leaves_good. apply items_leaves. auto.
      * split; [apply value_list_ok; auto|]. destruct (value_list_ok _ Hv1) as (vs' & Hvs'). exists vs'. split; auto.
        assert (vs' = vs) as ->; auto. clear -D1 Hvs'. revert vs' Hvs'. induction D1 as [|d v ds vs Hd _ IH]; intros vs' H; [cbn in H; congruence|].
        cbn [map] in H. apply in_order_inv in H as (v1 & vs1 & -> & H1 & H2). f_equal; [congruence|auto].
    + apply (of_list_next R) in B1. rewrite <- B1. clear B1. destruct a as [sy| |], o as [k|]; try discriminate; destruct a' as [i| |]; simpl in C2; try tauto; destruct v as [|x v]; simpl in Hla; try discriminate; inversion V0 as [|s0 ? v1 ? Hs0]; subst; simpl; auto.
      injection Hla as ->. simpl in C1. assert (s0 = sy) as -> by (eapply tok_rel_fun_l; eauto). exact C1.
  - destruct res as [v|e]; [discriminate|]. injection HH as ->. apply (of_list_next R ts stk None) in B1. symmetry in B1.
    destruct (accept_tree literal_ok R gi F ks acts gts Hsu _ Hv Hi B2) as ((Ht & Hgood & r0 & trs & Hr0 & Hder & Htree) & _).
    exists (length (toks stk)), []. split; auto. split; [now rewrite Hs|]. split; [|rewrite B1; exact I]. rewrite <- Hpre. apply source_inv in Hr0 as (pr0 & Hp0 & ->). exists pr0. split; auto. right. split; auto.
    apply forest_values in Hvals. destruct (node_error R gi _ _ _ _ Hvals B3) as (_ & vs & D1 & D2). exists vs. rewrite (indices_eq gi 0 pr0 Hp0) in D2. split; auto.
    cbn in Htree. injection Htree as <-.
    refine (trees_mean R gi _ _ _ Hder (pr_nodes pr0) (forest stk) vs eq_refl eq_refl _ _).
    + apply leaves_good. apply items_leaves. auto.
    + destruct (value_list_ok _ Hvals) as (vs' & Hvs'). rewrite Hvs'. f_equal.
      clear -D1 Hvs'. revert vs' Hvs'. induction D1 as [|d v ds vs Hd _ IH]; intros vs' H; [cbn in H; congruence|].
      cbn [map] in H. apply in_order_inv in H as (v1 & vs1 & -> & H1 & H2). f_equal; [congruence|auto].
Qed.

Theorem error_fails ts fuel st u : productive g -> run ts fuel = Ok (st, inr (UserError R u)) -> constructor_fails R gi ts u.
Proof. intros Hpr Hrun. destruct (error_fails_at ts fuel st u Hpr Hrun) as (n & rest & H1 & _ & H2). exists n, rest. auto. Qed.
End Run.
