(** The generated parser and the language of its grammar. *)
From Coq Require Import Arith Bool String NArith List Lia Permutation.
From Verif Require Import Base.Prelude Spec.Grammar Spec.Validity Spec.Nullable Spec.Observers Spec.States Model.Error.
From Verif Require Import Model.BitSet Model.FixedMap Model.Vocabulary Model.IndexedGrammar Model.FirstMap.
From Verif Require Import Model.Position Model.Closure Model.LRTable Model.StateMap Model.ParseSimulator.
From Verif Require Import Model.TokenTree Model.Terminal Model.Constructor Model.CodeGen Model.Runtime Spec.Values.
From Verif Require Import Proofs.WP Proofs.BitSetProofs Proofs.FixedMapProofs Proofs.VocabProofs.
From Verif Require Import Proofs.IndexedProofs Proofs.IndexedBuild Proofs.IndexedMain Proofs.FirstProofs.
From Verif Require Import Proofs.ClosureProofs Proofs.ItemSets Proofs.TableProofs Proofs.TableBuild.
From Verif Require Import Proofs.Fuel Proofs.Machine Proofs.ParserFinal Proofs.RecognitionFinal Proofs.IndexedFinal Proofs.LR1Proofs Proofs.LR1Final Proofs.StatesFinal Proofs.TableFinal Proofs.StateMapFinal Proofs.GenTable Proofs.ConstructorProofs Proofs.GenCode Proofs.GenRun Proofs.GenPath Proofs.GenFinal.
Import ListNotations.

Section Lang.
Context {bm : BuildMode} {E : Type}.
Variable literal_ok : string -> bool.
Variable R : rust.
Variable gi : grammar_info.
Variable F : first_table.
Variable ks : list kernel.
Variable acts : nat -> aug nat -> option action.
Variable gts : nat -> nat -> option nat.
Hypothesis Hsu : setup gi F ks acts gts.
Variable prog : program.
Hypothesis Hprog : program_ok literal_ok gi acts gts prog.
Hypothesis Hdef : defaults_bound (gi_rules gi).
Local Notation g := (source (gi_rules gi)).
Local Notation ig := (gi_grammar gi).
Local Notation t := (gi_table gi).
Local Notation arel := (aug_rel (ivocab ig)).
Local Notation vstk := (vstk acts gts).
Local Notation istack := (istack R).
Local Notation bare := (bare R).
Local Notation toks := (toks R).
Local Notation forest := (forest R).
Local Notation kstep := (kstep literal_ok R gi acts gts).
Local Notation kpath := (kpath literal_ok R gi acts gts).
Local Notation kaccept := (kaccept R acts).
Local Notation kblocked := (kblocked R gi acts).
Local Notation single := (single R gi acts).
Local Notation reads := (reads R gi).
Let Hix := su_ix _ _ _ _ _ Hsu.
Let Heps := su_eps _ _ _ _ _ Hsu.
Let Heos := su_eos _ _ _ _ _ Hsu.
Let HF := su_first _ _ _ _ _ Hsu.
Let Hok := su_ok _ _ _ _ _ Hsu.
Let Hwf := ix_wf _ _ Hix.


Lemma of_list_next {SErr} (ts : list (tok R)) (stk : istack) o : next_is R (of_list (S := SErr) ts) stk o -> o = nth_error ts (length (toks stk)).
Proof. unfold next_is, of_list. intros H. apply option_inl_inj in H. auto. Qed.

Lemma list_single {SErr} ts : unambiguous_tokens R gi ts -> forall (stk : istack) o, next_is R (of_list (S := SErr) ts) stk o -> single stk o.
Proof.
  intros Hu stk o Hn. apply of_list_next in Hn. eapply single_unambiguous; eauto. intros k Hk. subst o. eapply nth_error_In; eauto.
Qed.

Section Input.
Context {SErr : Type}.
Variable into : SErr -> UErr R.
Local Notation run ts fuel := (parse_fallible (E := E) R into (of_list ts) fuel prog).

Lemma run_follow ts stk rem : unambiguous_tokens R gi ts -> kpath [] ts stk rem -> kfinal R gi acts stk rem ->
  exists N st res, (forall fuel, N < fuel -> run ts fuel = Ok (st, res)) /\ s_calls R (st_stream R st) <= S (length ts) /\
    (kresult literal_ok R gi acts gts into (of_list ts) stk res (st_log R st) \/ exists e, res = inr (UserError R e) /\ fails R gi stk (st_log R st) e).
Proof.
  intros Hu Hp Hf. apply (follow (E := E) literal_ok R gi F ks acts gts Hsu prog Hprog Hdef into (of_list ts) [] ts stk rem Hp Hf).
  - intros m _. reflexivity.
  - apply list_single; auto.
  - apply (rel_new literal_ok R gi acts gts prog Hprog).
Qed.

Lemma run_list ts : unambiguous_tokens R gi ts -> exists N st res, (forall fuel, N < fuel -> run ts fuel = Ok (st, res)) /\ s_calls R (st_stream R st) <= S (length ts).
Proof.
  intros Hu. destruct (kpath_final literal_ok R gi F ks acts gts Hsu prog Hprog ts [] (vs_nil _ _)) as (stk & rem & Hp & Hf).
  destruct (run_follow ts stk rem Hu Hp Hf) as (N & st & res & HN & Hc & _). eauto 6.
Qed.

Lemma run_accepting ts stk : unambiguous_tokens R gi ts -> kpath [] ts stk [] -> kaccept stk ->
  exists N st, (forall fuel, N < fuel -> run ts fuel = Ok (st, match snd (eval R gi (Node 0 (forest stk))) with inl v => inl v | inr e => inr (UserError R e) end)) /\
    st_log R st = fst (eval R gi (Node 0 (forest stk))) /\ s_calls R (st_stream R st) <= S (length ts).
Proof.
  intros Hu Hp Ha. destruct (run_follow ts stk [] Hu Hp) as (N & st & res & HN & Hc & Hres); [left; auto|].
  exists N, st. assert (Hx : st_log R st = fst (eval R gi (Node 0 (forest stk))) /\ res = match snd (eval R gi (Node 0 (forest stk))) with inl v => inl v | inr e => inr (UserError R e) end).
  { pose proof (kpath_toks _ _ _ _ _ _ _ _ _ Hp) as Ht. simpl in Ht. rewrite app_nil_r in Ht.
    assert (Hnone : nth_error ts (length (toks stk)) = None) by (apply nth_error_None; rewrite Ht; auto).
    destruct Hres as [Hk|(e & -> & Hf)].
    - destruct Hk as [e' B1|k' ty' B1 B2 B3 B4|o' x' rest' e' log' B1 B2 B3 B4|log' res' B1 B2 B3|o' B1 B2 B3].
      + unfold of_list in B1. rewrite Hnone in B1. discriminate.
      + apply of_list_next in B1. congruence.
      + apply of_list_next in B1. rewrite Hnone in B1. subst o'. exfalso. eapply kaccept_no_step; eauto.
      + rewrite B3. auto.
      + apply of_list_next in B1. rewrite Hnone in B1. subst o'. exfalso. eapply kaccept_not_blocked; eauto.
    - unfold fails in Hf. simpl. rewrite Hf. auto. }
  destruct Hx as (Hl & ->). auto.
Qed.

Lemma reads_fwd (ls : list (user_symbol * tok R)) w : (forall s k, In (s, k) ls -> sym_matches R gi s k = true) -> Forall2 (tok_rel ig) (map fst ls) w -> Forall2 reads w (map snd ls).
Proof.
  revert w. induction ls as [|[s k] ls IH]; intros w Hm Hf; inversion Hf as [|? i ? w' Hr Hf']; subst; [constructor|]. constructor.
  - exists s. split; [exact Hr|]. apply Hm. simpl. auto.
  - apply IH; auto. intros; apply Hm; simpl; auto.
Qed.

Lemma leaves_unique (l1 l2 : list (user_symbol * tok R)) : unambiguous_tokens R gi (map snd l1) -> map snd l1 = map snd l2 ->
  (forall s k, In (s, k) l1 -> sym_matches R gi s k = true /\ terminal_in (gi_rules gi) s) ->
  (forall s k, In (s, k) l2 -> sym_matches R gi s k = true /\ terminal_in (gi_rules gi) s) -> l1 = l2.
Proof.
  revert l2. induction l1 as [|[s k] l1 IH]; intros [|[s' k'] l2] Hu He H1 H2; simpl in *; try discriminate; auto. injection He as -> He.
  destruct (H1 s k') as (A1 & A2); auto. destruct (H2 s' k') as (B1 & B2); auto.
  assert (s = s') as -> by (eapply (Hu k'); eauto; simpl; auto). f_equal. apply IH; auto.
  intros x y z Hx. apply Hu. simpl. auto.
Qed.

Lemma leaves_terminal ls w : Forall2 (tok_rel ig) (map fst (ls : list (user_symbol * tok R))) w -> forall s k, In (s, k) ls -> terminal_in (gi_rules gi) s.
Proof.
  intros Hf s k Hin. apply (in_map fst) in Hin. simpl in Hin. destruct (Forall2_in_l _ _ _ _ Hf Hin) as (i & _ & Hr). eapply (su_voc _ _ _ _ _ Hsu); eauto.
Qed.

(** The simulator and the generated parser. *)
Lemma terminal_id s : terminal_in (gi_rules gi) s -> exists i, tok_rel ig s i.
Proof.
  intros (r & Hr & Hin). apply In_nth_error in Hr as (j & Hj).
  assert (Hg : nth_error g j = Some (to_lr_production_rule r)) by (unfold source; rewrite nth_error_map, Hj; reflexivity).
  destruct (ix_rule_fwd g ig Hix _ _ Hg) as (j' & ir & _ & _ & _ & Hns). simpl in Hns.
  destruct (Forall2_in_l _ _ _ (Terminal (Token s)) Hns) as (nd & _ & Hrel); [apply (in_map to_lr_node) in Hin; exact Hin|].
  destruct nd as [[i| |]|k]; simpl in Hrel; try tauto. exists i. exact Hrel.
Qed.

Lemma symbols_ids w : Forall (terminal_in (gi_rules gi)) w -> Forall2 (tok_rel ig) w (map (id_of ig) w).
Proof.
  induction 1 as [|s w Hs _ IH]; simpl; constructor; auto. destruct (terminal_id _ Hs) as (i & Hi).
  assert (Hx : map (id_of ig) [s] = [i]) by (apply (ids_inv ig Hwf); repeat constructor; auto). simpl in Hx. injection Hx as ->. exact Hi.
Qed.

Lemma reads_ids w ts : Forall (terminal_in (gi_rules gi)) w -> Forall2 (fun s k => sym_matches R gi s k = true) w ts -> Forall2 reads (map (id_of ig) w) ts.
Proof.
  intros Hw Hf. apply symbols_ids in Hw. revert Hw. induction Hf as [|s k w ts Hm _ IH]; simpl; intros Hw; inversion Hw; subst; constructor; auto. exists s. auto.
Qed.

Lemma reads_blocked ts w rem (stk : istack) : unambiguous_tokens R gi ts -> incl rem ts -> Forall2 reads w rem -> acts (top (bare stk)) (la w) = None -> kblocked stk (hd_error rem).
Proof.
  intros Hu Hi Hf Ha a a' Hl Hr. destruct Hf as [|i k w rem (sy & Hsy & Hm) Hf]; simpl in *.
  - destruct a; try discriminate. destruct a'; simpl in Hr; try tauto.
  - destruct a as [sy'| |]; try discriminate. destruct a' as [i'| |]; simpl in Hr; try tauto. simpl in Hl.
    assert (sy = sy') as <-. { eapply (Hu k); eauto; try (eapply (su_voc _ _ _ _ _ Hsu); eauto). apply Hi. simpl. auto. }
    assert (i' = i) as -> by (eapply (tok_rel_inj g ig Hix); eauto). exact Ha.
Qed.

Theorem run_simulated ts w : unambiguous_tokens R gi ts -> constructors_succeed R gi -> Forall (terminal_in (gi_rules gi)) w ->
  Forall2 (fun s k => sym_matches R gi s k = true) w ts ->
  exists N b st res, forall fuel, N < fuel -> parse_stream (E := E) fuel (mk_parser ig t) w = Ok b /\ run ts fuel = Ok (st, res) /\
    match res with inl _ => b = true | inr (ParseError _ _) => b = false | inr _ => False end.
Proof.
  intros Hu Hc Hw Hm. destruct (parse_stream_exact (E := E) ig Hwf Heos Heps F HF t ks acts gts Hok w) as (n1 & b & c & H1 & Hms & Hbt & Hbf).
  pose proof (reads_ids _ _ Hw Hm) as Hrd.
  destruct (lift_msteps literal_ok R gi F ks acts gts Hsu prog Hprog _ _ Hms [] ts (vs_nil _ _) eq_refl Hrd) as (stk' & rem' & Hk & Hb & Hr).
  destruct (kpath_inv literal_ok R gi F ks acts gts Hsu _ _ _ _ Hk (vs_nil _ _) (Forall_nil _)) as (Hv & Hi).
  assert (Hlt : forall N fuel, n1 + N < fuel -> (n1 <? fuel) = true) by (intros; apply Nat.ltb_lt; lia).
  destruct b.
  - specialize (Hbt eq_refl). destruct c as [s w']. simpl in *.
    assert (Hnil : w' = []) by (apply (maccept_end ig F t ks acts gts Hok (s, w')); [simpl; rewrite <- Hb; auto|auto]). subst w'. inversion Hr; subst rem'.
    assert (Ha : kaccept stk') by (unfold GenRun.kaccept; rewrite Hb; exact Hbt).
    destruct (run_accepting ts stk' Hu Hk Ha) as (N & st & HN & _). exists (n1 + N), true, st. eexists. intros fuel Hf. split; [rewrite H1, (Hlt _ _ Hf); reflexivity|].
    split; [apply HN; lia|]. destruct (eval_some R gi Hc (Node 0 (forest stk'))) as (lg & v & ->). reflexivity.
  - specialize (Hbf eq_refl). pose proof (kpath_toks _ _ _ _ _ _ _ _ _ Hk) as Ht. simpl in Ht.
    assert (Hbl : kblocked stk' (hd_error rem')).
    { eapply (reads_blocked ts (snd c)); eauto. - rewrite Ht. intros x Hx. apply in_or_app. auto. - rewrite Hb. exact Hbf. }
    destruct (run_follow ts stk' rem' Hu Hk (or_intror Hbl)) as (N & st & res & HN & _ & Hres). exists (n1 + N), false, st, res.
    intros fuel Hf. split; [rewrite H1, (Hlt _ _ Hf); reflexivity|]. split; [apply HN; lia|].
    assert (Hnx : nth_error ts (length (toks stk')) = hd_error rem') by (rewrite Ht, nth_error_app2, Nat.sub_diag by lia; destruct rem'; reflexivity).
    destruct Hres as [Hkr|(e & -> & Hfl)].
    + destruct Hkr as [e' B1|k' ty' B1 B2 B3 B4|o' x' rest' e' log' B1 B2 B3 B4|log' res' B1 B2 B3|o' B1 B2 B3].
      * unfold of_list in B1. destruct (nth_error ts (length (toks stk'))); discriminate.
      * eapply single_no_overlap; [eapply list_single; eauto|eassumption].
      * apply of_list_next in B1. rewrite Hnx in B1. subst o'. exfalso. eapply kstep_not_blocked; eauto.
      * apply (of_list_next ts stk' None) in B1. rewrite Hnx in B1. rewrite <- B1 in Hbl. exfalso. eapply kaccept_not_blocked; eauto.
      * reflexivity.
    + unfold fails in Hfl. destruct (eval_some R gi Hc (Node 0 (forest stk'))) as (lg & v & Hev). simpl in Hev. rewrite Hfl in Hev. discriminate.
Qed.

Hypothesis HFc : Fclosed ig F.

Lemma parses_unique w t1 t2 : parses g w t1 -> parses g w t2 -> t1 = t2.
Proof.
  intros H1 H2. destruct (parses_fwd g ig Hix _ _ H1) as (w1 & t1' & P1 & W1 & T1). destruct (parses_fwd g ig Hix _ _ H2) as (w2 & t2' & P2 & W2 & T2).
  rewrite <- (toks_rel_inj g ig Hix _ _ _ W1 W2) in P2.
  rewrite (machine_unambiguous ig Hwf Heps F t ks acts gts Hok HFc _ _ _ P1 P2) in T1. eapply tree_rel_fun_l; eauto.
Qed.

Theorem run_sentence ts d : unambiguous_tokens R gi ts -> parses_tokens R gi ts d ->
  exists N st, (forall fuel, N < fuel -> run ts fuel = Ok (st, match snd (eval R gi d) with inl v => inl v | inr e => inr (UserError R e) end)) /\
    st_log R st = fst (eval R gi d) /\ s_calls R (st_stream R st) <= S (length ts).
Proof.
  intros Hu (Hts & Hm & Hp). destruct (parses_fwd g ig Hix _ _ Hp) as (w' & t' & P' & W' & T').
  destruct (machine_complete ig Hwf Heps F t ks acts gts Hok HFc _ _ P') as (stk & Hms & Hacc & _).
  pose proof (reads_fwd _ _ Hm W') as Hrd. rewrite Hts in Hrd.
  destruct (lift_msteps literal_ok R gi F ks acts gts Hsu prog Hprog _ _ Hms [] ts (vs_nil _ _) eq_refl Hrd) as (stk' & rem' & Hk & Hb & Hr). simpl in Hb, Hr. inversion Hr; subst rem'.
  assert (Ha : kaccept stk') by (unfold GenRun.kaccept; rewrite Hb; exact Hacc).
  destruct (kpath_inv literal_ok R gi F ks acts gts Hsu _ _ _ _ Hk (vs_nil _ _) (Forall_nil _)) as (Hv & Hi).
  destruct (accept_tree literal_ok R gi F ks acts gts Hsu _ Hv Hi Ha) as ((Hts2 & Hm2 & Hp2) & _).
  pose proof (kpath_toks _ _ _ _ _ _ _ _ _ Hk) as Ht. simpl in Ht. rewrite app_nil_r in Ht.
  assert (He : Node 0 (forest stk') = d).
  { assert (Hl : leaves (Node 0 (forest stk')) = leaves d).
    { destruct (parses_fwd g ig Hix _ _ Hp2) as (w2 & t2 & P2 & W2 & T2). apply leaves_unique.
      - rewrite Hts2, <- Ht. auto.
      - congruence.
      - intros s k Hin. split; [apply Hm2; auto|exact (leaves_terminal _ _ W2 _ _ Hin)].
      - intros s k Hin. split; [apply Hm; auto|exact (leaves_terminal _ _ W' _ _ Hin)]. }
    apply (tmap_leaves_inj fst); auto. rewrite Hl in Hp2. eapply parses_unique; eauto. }
  destruct (run_accepting ts stk' Hu Hk Ha) as (N & st & HN & Hlog & Hc). rewrite He in *. eauto.
Qed.
End Input.

(** Viable prefixes. *)
Lemma productive_form : productive g -> forall i δ, (exists ns, rnodes ig i = ns ++ δ) -> exists w ts, derives (igram ig) δ w ts.
Proof.
  intros Hpr i δ. induction δ as [|X δ IH]; intros (ns & Hns); [exists [], []; constructor|].
  destruct IH as (w & ts & D); [exists (ns ++ [X]); rewrite <- app_assoc; auto|].
  assert (HX : In X (rnodes ig i)) by (rewrite Hns; apply in_or_app; simpl; auto). apply rnodes_in in HX as (r & Hr & HX).
  destruct X as [[k| |]|l].
  - exists (k :: w), (Leaf k :: ts). constructor; auto.
  - exists w, ts. constructor; auto.
  - exfalso. apply (no_eos_rnodes ig Heos i). rewrite Hns. apply in_or_app. simpl. auto.
  - destruct (ix_rule_bwd g ig Hix _ _ Hr) as (r0 & Hr0 & _ & _ & Hf). simpl in Hf. destruct (Forall2_in_r _ _ _ _ Hf HX) as (nd & Hnd & Hrel).
    destruct nd as [a|lab]; simpl in Hrel; [tauto|]. destruct (proj2 (defined_ilabel g ig Hix lab) (ex_intro _ l Hrel)) as (r1 & Hr1 & <-).
    destruct (Hpr _ Hr1) as (w1 & t1 & D1). destruct (derives_fwd g ig Hix _ _ _ D1 [Production l]) as (w1' & t1' & D1' & _); [repeat constructor; auto|].
    exists (w1' ++ w), (t1' ++ ts). exact (derives_app _ [Production l] _ _ _ _ _ D1' D).
Qed.
Lemma core_language γ i p : productive g -> core ig γ i p -> exists δ, (exists v tv, derives (igram ig) δ v tv) /\ forall w ts, derives (igram ig) (rev γ ++ skipn p (rnodes ig i) ++ δ) w ts -> language (igram ig) w.
Proof.
  intros Hpr. induction 1 as [|γ i p l j _ (δ & (v & tv & Dv) & IH) Hl Hr|γ i p X _ (δ & Dv & IH) Hn].
  - exists []. split; [exists [], []; constructor|]. intros w ts D. rewrite app_nil_r, skipn_O in D. simpl in D. destruct (wf_root _ Hwf) as (ir & m & Hir & _).
    exists (Node 0 ts), (irule ir), ts. unfold rnodes in D. rewrite Hir in D. split; auto. unfold igram. rewrite nth_error_map, Hir. reflexivity.
  - apply (nextl_iff ig) in Hl as (ns & Hs). exists (ns ++ δ). split.
    { destruct (productive_form Hpr i ns) as (w1 & t1 & D1); [exists (firstn p (rnodes ig i) ++ [Production l]); rewrite <- app_assoc; rewrite <- (firstn_skipn p (rnodes ig i)) at 1; rewrite Hs; reflexivity|].
      exists (w1 ++ v), (t1 ++ tv). apply derives_app; auto. }
    intros w ts D. rewrite skipn_O in D.
    destruct (derives_app_inv _ _ _ _ _ D) as (w1 & w2 & t1 & t2 & -> & -> & D1 & D2). destruct (derives_app_inv _ _ _ _ _ D2) as (w3 & w4 & t3 & t4 & -> & -> & D3 & D4).
    destruct Hr as (r & Hr & <-). apply (IH _ (t1 ++ Node j t3 :: t4)). apply derives_app; auto. rewrite Hs. simpl.
    unfold rnodes in D3. rewrite Hr in D3. apply (derives_production (igram ig) j (irule r)); auto. unfold igram. rewrite nth_error_map, Hr. reflexivity.
  - apply (nextn_iff ig Heps) in Hn as (ns & Hs & _). exists δ. split; auto. intros w ts D. apply (IH w ts). rewrite Hs. rewrite (skipn_S ig _ _ _ _ Hs) in D.
    simpl in D. rewrite <- app_assoc in D. exact D.
Qed.

Lemma vstk_core stk : vstk stk -> exists i p, core ig (syms stk) i p.
Proof.
  intros Hv. destruct (vstk_rep ig F t ks acts gts Hok _ Hv) as (K & HK & _). clear K HK. induction Hv as [|stk s a tr Hv _ Ha|stk s l tr Hv _ Hg Hl].
  - exists 0, 0. constructor.
  - destruct (act_shift ig F t ks acts gts Hok _ _ _ Hv Ha) as (i & p & Hc & Hn). exists i, (p + 1). simpl. eapply core_adv; eauto.
  - destruct (vstk_rep ig F t ks acts gts Hok _ Hv) as (K & HK & R1 & R2). destruct (to_goto _ _ _ _ _ _ Hok _ _ _ _ HK Hg) as (_ & i & p & Hc & Hn).
    exists i, (p + 1). simpl. eapply core_adv; eauto. apply R1; eauto.
Qed.


Lemma viable stk : productive g -> vstk (bare stk) -> Forall (item_ok literal_ok R gi) stk ->
  exists us vs, Forall2 (fun s k => sym_matches R gi s k = true) us (toks stk) /\ language g (us ++ vs).
Proof.
  intros Hpr Hv Hi. destruct (vstk_core _ Hv) as (i & p & Hc). destruct (core_language _ _ _ Hpr Hc) as (δ & (v & tv & Dv) & Hlang).
  destruct (productive_form Hpr i (skipn p (rnodes ig i))) as (x & tx & Dx); [exists (firstn p (rnodes ig i)); rewrite firstn_skipn; auto|].
  (* what is on the stack, in the indexed grammar *)
  assert (Hst : exists u tu, derives (igram ig) (rev (syms (bare stk))) u tu /\ Forall2 (tok_rel ig) (map fst (flat_map leaves (forest stk))) u).
  { clear Hc Hlang Hv. induction Hi as [|y stk [(nd & Hn & D) _] _ (u & tu & Du & Hu)]; [exists [], []; split; constructor|].
    destruct (derives_fwd g ig Hix _ _ _ D [esym (fst y)]) as (w' & ts' & D' & W' & _); [constructor; [exact Hn|constructor]|].
    exists (u ++ w'), (tu ++ ts'). split; [simpl; apply derives_app; auto|]. rewrite forest_cons, flat_map_app, map_app, flat_map_one. apply Forall2_app; auto. }
  destruct Hst as (u & tu & Du & Hu). destruct (Hlang (u ++ x ++ v) (tu ++ tx ++ tv)) as (tr & Hp); [apply derives_app; auto; apply derives_app; auto|].
  destruct (parses_bwd g ig Hix _ _ Hp) as (w & tr' & Hp' & Hw & _). apply Forall2_app_inv_r in Hw as (us & vs & Hus & _ & ->).
  rewrite <- (toks_rel_fun_l ig _ _ _ Hu Hus) in Hp'. exists (map fst (flat_map leaves (forest stk))), vs. split; [|exists tr'; exact Hp'].
  assert (Hl : Forall (leaf_ok literal_ok R gi) (flat_map leaves (forest stk))).
  { rewrite forest_rev. apply Forall_rev in Hi. clear -Hi. induction Hi as [|y l [_ Hx] _ IH]; simpl; [constructor|]. apply Forall_app. auto. }
  unfold GenRun.toks. clear -Hl. induction Hl as [|[s k] l (Hm & _) _ IH]; simpl; constructor; auto.
Qed.

(** Errors are reported as soon as the tokens read cannot be continued. *)
Section Blocked.
Context {SErr : Type}.
Variable into : SErr -> UErr R.
Variable input : nat -> option (tok R + SErr).
Local Notation kmove := (kmove literal_ok R gi acts gts input).
Local Notation kmoves := (kmoves literal_ok R gi acts gts input).

Lemma kmoves_toks stk stk' : kmoves stk stk' -> length (toks stk) <= length (toks stk').
Proof.
  induction 1 as [|stk stk1 stk' (o & x & rest & v & _ & _ & Hk & _) _ IH]; auto.
  destruct (kstep_toks _ _ _ _ _ _ _ _ Hk) as [He|(k & _ & He)]; rewrite He in IH; rewrite ?app_length in IH; lia.
Qed.

Lemma la_skipn (w : list nat) m : la (skipn m w) = match nth_error w m with Some i => Token i | None => EndOfStream end.
Proof. revert m. induction w as [|x w IH]; intros [|m]; simpl; auto. Qed.

Lemma skipn_cons {A} (w : list A) : forall m x, nth_error w m = Some x -> skipn m w = x :: skipn (S m) w.
Proof. induction w as [|y w IH]; intros [|m] x Hx; simpl in *; try discriminate; [congruence|auto]. Qed.

(** The terminals [w] are read as the tokens [all], as far as position [M]. *)
Definition reads_to (M : nat) (w : list nat) (all : list (tok R)) : Prop :=
  forall m, m <= M -> match nth_error w m, nth_error all m with Some i, Some k => reads i k | None, None => True | _, _ => False end.

Lemma lower_moves (all : list (tok R)) w M : reads_to M w all ->
  (forall m, m <= M -> input m = option_map inl (nth_error all m)) ->
  (forall m k s s', m <= M -> nth_error all m = Some k -> terminal_in (gi_rules gi) s -> terminal_in (gi_rules gi) s' -> sym_matches R gi s k = true -> sym_matches R gi s' k = true -> s = s') ->
  forall stk stk', kmoves stk stk' -> vstk (bare stk) -> length (toks stk') <= M ->
  msteps ig acts gts (bare stk, skipn (length (toks stk)) w) (bare stk', skipn (length (toks stk')) w).
Proof.
  intros Hrd Hin Hu stk stk' Hm. induction Hm as [|stk stk1 stk' (o & x & rest & v & Hn & _ & Hk & _) Hm IH]; intros Hv HM; [constructor|].
  pose proof (kmoves_toks _ _ Hm) as Hle.
  assert (Hle0 : length (toks stk) <= length (toks stk1)) by (destruct (kstep_toks _ _ _ _ _ _ _ _ Hk) as [->|(k & _ & ->)]; rewrite ?app_length; lia).
  eapply ms_step; [|apply IH; [eapply kstep_vstk; eauto|auto]]. red in Hn. rewrite Hin in Hn by lia. apply option_inl_inj in Hn.
  specialize (Hrd (length (toks stk)) ltac:(lia)). rewrite Hn in Hrd.
  assert (Hsame : forall sy i k, tok_rel ig sy i -> sym_matches R gi sy k = true -> o = Some k -> nth_error w (length (toks stk)) = Some i).
  { intros sy i k Hsy Hmt ->. destruct (nth_error w (length (toks stk))) as [i'|] eqn:Hw; [|tauto].
    destruct Hrd as (sy' & Hsy' & Hmt'). assert (sy = sy') as <-.
    { eapply (Hu (length (toks stk)) k); eauto; try lia; eapply (su_voc _ _ _ _ _ Hsu); eauto. }
    f_equal. eapply (tok_rel_inj g ig Hix); eauto. }
  destruct Hk as [k sy i s' H1 (H2 & H2') H3|o' a a' j r popped rest' s' H1 H2 H3 H4 H5 H6 H7].
  - simpl in H2. pose proof (Hsame sy i k H1 H2 eq_refl) as Hw. rewrite (skipn_cons _ _ _ Hw). 
    assert (Hl1 : length (toks (((s', Terminal (Token i), Leaf i), Leaf (sy, k)) :: stk)) = S (length (toks stk))).
    { unfold GenRun.toks. rewrite forest_cons, flat_map_app, map_app, app_length. cbn [snd flat_map leaves map app length]. apply Nat.add_1_r. }
    rewrite Hl1. apply m_shift. exact H3.
  - assert (Hla : a' = la (skipn (length (toks stk)) w)).
    { rewrite la_skipn. destruct a as [sy| |], o' as [k|]; try discriminate; destruct a' as [i| |]; simpl in H2; try tauto.
      - rewrite (Hsame sy i k H2 H1 eq_refl). reflexivity.
      - destruct (nth_error w (length (toks stk))); [tauto|reflexivity]. }
    match goal with |- mstep _ _ _ _ (bare ?X, _) => set (stk1 := X) end. assert (Hl1 : toks stk1 = toks stk).
    { subst stk. unfold stk1, GenRun.toks. rewrite forest_cons, flat_map_app, map_app, flat_map_one, forest_app, flat_map_app, map_app. reflexivity. }
    rewrite Hl1. apply m_reduce. rewrite <- Hla. exists j, r, (bare popped), (bare rest'), s'. split; auto. split; auto. split; [subst stk; apply bare_app|].
    split; [rewrite bare_length, H6, (sbody_rule gi _ _ H4); reflexivity|]. auto.
Qed.

Lemma read_terminals us (l : list (tok R)) : Forall2 (fun s k => sym_matches R gi s k = true) us l ->
  forall vs w, Forall2 (tok_rel ig) (us ++ vs) w -> forall m k, nth_error l m = Some k -> exists i, nth_error w m = Some i /\ reads i k.
Proof.
  induction 1 as [|s k us l Hs Hl IH]; intros vs w Hw m k' Hm; [destruct m; discriminate|]. inversion Hw as [|? i ? w' H1 H2]; subst.
  destruct m as [|m]; simpl in *; [|eauto]. injection Hm as <-. exists i. split; auto. exists s. auto.
Qed.

Lemma blocked_impossible stk o : Fclosed ig F -> kmoves [] stk -> starts input (toks stk) -> next_is R input stk o -> kblocked stk o ->
  unambiguous_tokens R gi (toks stk ++ match o with Some k => [k] | None => [] end) ->
  forall us vs, Forall2 (fun s k => sym_matches R gi s k = true) us (toks stk ++ match o with Some k => [k] | None => [] end) ->
  (o = None -> vs = []) -> ~ language g (us ++ vs).
Proof.
  intros HFc Hm Hst Hn Hb Hu us vs Hus Hrest (tr & Hp). set (all := toks stk ++ match o with Some k => [k] | None => [] end) in *.
  destruct (parses_fwd g ig Hix _ _ Hp) as (w & t' & P' & W' & _).
  destruct (machine_complete ig Hwf Heps F t ks acts gts Hok HFc _ _ P') as (stk2 & Hms & Hacc & _).
  assert (Hnth : nth_error all (length (toks stk)) = o).
  { unfold all. rewrite nth_error_app2, Nat.sub_diag by lia. destruct o; reflexivity. }
  assert (Hrd : reads_to (length (toks stk)) w all).
  { intros m Hle. destruct (nth_error all m) as [k|] eqn:Hk.
    - destruct (read_terminals us all Hus vs w W' m k Hk) as (i & -> & Hr). exact Hr.
    - destruct (nth_error w m) as [i|] eqn:Hw; auto. apply nth_error_None in Hk. assert (m < length w) by (apply nth_error_Some; congruence).
      apply Forall2_len in W'. apply Forall2_len in Hus. unfold all in *. destruct o as [k|]; rewrite app_length in Hk, Hus; simpl in Hk, Hus; [lia|].
      rewrite (Hrest eq_refl), app_nil_r in W'. lia. }
  pose proof (lower_moves all w (length (toks stk)) Hrd) as Hlow.
  assert (Hrun : msteps ig acts gts ([], w) (bare stk, skipn (length (toks stk)) w)).
  { apply (Hlow) with (stk := []); auto; try constructor.
    - intros m Hle. destruct (Nat.eq_dec m (length (toks stk))) as [->|Hne]; [rewrite Hnth; exact Hn|].
      destruct (nth_error (toks stk) m) as [k|] eqn:Hk; [|apply nth_error_None in Hk; lia]. unfold all. rewrite nth_error_app1 by lia. rewrite Hk. apply Hst; auto.
    - intros m k s s' Hle Hk. apply Hu. fold all. eapply nth_error_In; eauto. }
  assert (Hstuck : acts (top (bare stk)) (la (skipn (length (toks stk)) w)) = None).
  { rewrite la_skipn. specialize (Hrd _ (le_n _)). rewrite Hnth in Hrd. destruct (nth_error w (length (toks stk))) as [i|] eqn:Hw, o as [k|]; try tauto.
    - destruct Hrd as (sy & Hsy & Hmk). apply (Hb (Token sy)); auto.
    - apply (Hb EndOfStream); simpl; auto. }
  assert (He : (stk2, @nil nat) = (bare stk, skipn (length (toks stk)) w)).
  { eapply msteps_final_eq; eauto. }
  injection He as -> He. red in Hacc. simpl in Hacc. rewrite <- He in Hstuck. simpl in Hstuck. congruence.
Qed.
End Blocked.
End Lang.
