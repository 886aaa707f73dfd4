(** What generating code reports. *)
From Coq Require Import Arith Bool String Ascii NArith List Lia Permutation.
From Verif Require Import Base.Prelude Spec.Grammar Spec.Validity Spec.Nullable Spec.Observers Spec.States Model.Error.
From Verif Require Import Model.BitSet Model.FixedMap Model.Vocabulary Model.IndexedGrammar Model.FirstMap.
From Verif Require Import Model.Position Model.Closure Model.LRTable Model.StateMap.
From Verif Require Import Model.TokenTree Model.Terminal Model.Constructor Model.CodeGen Model.Diagnostics Model.CodeGenDiagnostics.
From Verif Require Import Spec.Values Spec.Substitution Spec.CodeGenDiagnostics.
From Verif Require Import Proofs.WP Proofs.BitSetProofs Proofs.FixedMapProofs Proofs.VocabProofs.
From Verif Require Import Proofs.IndexedProofs Proofs.IndexedBuild Proofs.IndexedMain Proofs.FirstProofs.
From Verif Require Import Proofs.ItemSets Proofs.TableProofs Proofs.TableBuild Proofs.Fuel Proofs.ParserFinal Proofs.IndexedFinal Proofs.TableFinal Proofs.StateMapFinal Proofs.GenTable Proofs.GenCode Proofs.GenMain.
From Verif Require Import Proofs.CodeGenDiagnostics.
Import ListNotations.
Open Scope string_scope.
Open Scope list_scope.

Definition noerr {E A} (m : outcome E A) : Prop := forall e, m <> Err e.

Lemma noerr_bind {E A B} (m : outcome E A) (k : A -> outcome E B) : noerr m -> (forall a, noerr (k a)) -> noerr (bind m k).
Proof. unfold noerr. destruct m; simpl; intros H1 H2 e'; try discriminate; auto. destruct (H1 _ eq_refl). Qed.
Lemma noerr_ok {E A} (a : A) : noerr (E := E) (Ok a). Proof. discriminate. Qed.
Lemma noerr_index {E A} (l : list A) i : noerr (E := E) (index l i). Proof. unfold index. destruct (nth_error l i); discriminate. Qed.
Lemma noerr_expect {E A} (o : option A) w : noerr (E := E) (expect o w). Proof. destruct o; discriminate. Qed.
Lemma noerr_assert {bm : BuildMode} {E} b w : noerr (E := E) (debug_assert b w). Proof. unfold debug_assert. destruct debug_assertions, b; discriminate. Qed.
Lemma noerr_foldM {E S A} (f : S -> A -> outcome E S) l : (forall s a, noerr (f s a)) -> forall s, noerr (foldM f s l).
Proof. intros H. induction l as [|a l IH]; intros s; simpl; [apply noerr_ok|]. apply noerr_bind; auto. Qed.
Lemma noerr_mapM {E A B} (f : A -> outcome E B) l : (forall a, noerr (f a)) -> noerr (mapM f l).
Proof. intros H. induction l as [|a l IH]; simpl; [apply noerr_ok|]. repeat (apply noerr_bind; auto; intros). apply noerr_ok. Qed.

Lemma mapM_err {E A B} (f : A -> outcome E B) l e : mapM f l = Err e -> exists a, In a l /\ f a = Err e.
Proof.
  induction l as [|a l IH]; simpl; [discriminate|]. destruct (f a) eqn:Hf; simpl; try discriminate; [|intros H; injection H as <-; eauto].
  destruct (mapM f l); simpl; try discriminate. intros H. destruct (IH H) as (b & H1 & H2). eauto.
Qed.

Section Reports.
Context {span : Type} (call_site : span) (lex_error : string -> string).
Notation srule := (srule span).
Notation diag := (diag span).
Notation cg := (cg span call_site lex_error).
Notation cg_error := (cg_error span call_site lex_error).

Lemma agree_cg {A} (P : diag -> Prop) (m : outcome gen_error A) : (forall e, m = Err e -> P (cg_error e)) -> agree P (cg m) m.
Proof. destruct m; simpl; auto. Qed.
Lemma agree_noerr {A} (P : diag -> Prop) (m : outcome gen_error A) : noerr m -> agree P (cg m) m.
Proof. intros H. apply agree_cg. intros e He. destruct (H _ He). Qed.
Lemma agree_index {E A} (P : diag -> Prop) (l : list A) i : agree (E := E) P (index l i) (index l i).
Proof. unfold index. destruct (nth_error l i); reflexivity. Qed.
Lemma agree_expect {E A} (P : diag -> Prop) (o : option A) w : agree (E := E) P (expect o w) (expect o w).
Proof. destruct o; reflexivity. Qed.
Lemma agree_assert {bm : BuildMode} {E} (P : diag -> Prop) b w : agree (E := E) P (debug_assert b w) (debug_assert b w).
Proof. unfold debug_assert. destruct debug_assertions, b; reflexivity. Qed.
Lemma agree_mapM {E A B} (P : diag -> Prop) (f : A -> outcome diag B) (f' : A -> outcome E B) l :
  (forall a, In a l -> agree P (f a) (f' a)) -> agree P (mapM f l) (mapM f' l).
Proof.
  induction l as [|a l IH]; simpl; intros H; [reflexivity|].
  apply agree_bind; [auto|]. intros b _ _. apply agree_bind; [auto|]. intros bs _ _. reflexivity.
Qed.
Lemma agree_foldM {E S A} (P : diag -> Prop) (f : S -> A -> outcome diag S) (f' : S -> A -> outcome E S) l :
  (forall s a, agree P (f s a) (f' s a)) -> forall s, agree P (foldM f s l) (foldM f' s l).
Proof. intros H. induction l as [|a l IH]; intros s; simpl; [reflexivity|]. apply agree_bind; auto. Qed.
Lemma agree_goto {bm : BuildMode} {E} (P : diag -> Prop) t s l : agree (E := E) P (get_goto t s l) (get_goto t s l).
Proof.
  unfold get_goto, num_production_labels. apply agree_bind; [|intros; apply agree_index]. apply agree_bind; [apply agree_assert|]. intros _ _ _.
  unfold checked_div. destruct (num_states t =? 0)%nat; reflexivity.
Qed.

Context {bm : BuildMode}.
Variable literal_ok : string -> bool.
Variable ho : hash_orders.
Variable gi : grammar_info.
Variable srules : list srule.
Hypothesis Hrules : gi_rules gi = map (sr_rule span) srules.
Hypothesis Hho : orders_ok ho.
Hypothesis Hacc : accepted gi.
Let g := source (gi_rules gi).
Let ig := gi_grammar gi.
Let t := gi_table gi.
Local Notation n := (num_states t).
Local Notation matcher_of := (token_matcher literal_ok (gi_terminal_type gi)).
Local Notation rep := (reportable call_site lex_error literal_ok gi srules).
Local Notation arel := (aug_rel (ivocab ig)).

Lemma matcher_err a mode e : matcher_of a mode = Err e -> exists sy ty, a = Token sy /\ gi_terminal_type gi = TTRaw ty /\ bad_terminal call_site lex_error literal_ok sy (cg_error e).
Proof.
  unfold token_matcher, try_build_matcher, try_build_pattern. destruct a as [sy| |]; try discriminate. destruct (gi_terminal_type gi) as [ty|ty].
  - intros H. exists sy, ty. split; auto. split; auto. unfold as_literal in H. destruct (sparen sy) eqn:Hp; simpl in H.
    + injection H as <-. apply bt_pattern. congruence.
    + injection H as <-. apply bt_pattern. congruence.
    + destruct (literal_ok (sname sy)) eqn:Hl; simpl in H; [discriminate|]. injection H as <-. apply bt_literal; auto.
  - unfold as_pattern, as_ident. destruct (string_is_identifier (sname sy)); discriminate.
Qed.

Lemma pattern_err sy mode e : try_build_pattern literal_ok (gi_terminal_type gi) sy mode = Err e ->
  exists ty, gi_terminal_type gi = TTRaw ty /\ bad_terminal call_site lex_error literal_ok sy (cg_error e).
Proof.
  intros H. destruct (matcher_err (Token sy) mode e) as (sy' & ty & He & H1 & H2).
  - unfold token_matcher, try_build_matcher. rewrite H. reflexivity.
  - injection He as <-. eauto.
Qed.

Lemma bind_nodes_noerr key sm nodes : forall states, noerr (bind_nodes ho key sm nodes states).
Proof.
  induction nodes as [|[i X] nodes IH]; intros states; cbn [bind_nodes]; [apply noerr_ok|]. destruct (is_epsilon X); [auto|].
  apply noerr_bind; [apply noerr_expect|]. intros r. apply noerr_bind; [unfold state_type; apply noerr_bind; [apply noerr_index|intros; apply noerr_ok]|]. intros ty.
  apply noerr_bind.
  { unfold bind_production_node. destruct ty as [| [sy| |]|]; try apply noerr_ok. destruct (is_pattern_symbol sy || is_wildcard_symbol sy); [|apply noerr_ok].
    unfold as_ident. destruct (string_is_identifier (sname sy)); discriminate. }
  intros b. apply noerr_bind.
  { apply noerr_foldM. intros s a. apply noerr_bind; [|intros; apply noerr_ok]. unfold back_edges. apply noerr_bind; [apply noerr_index|intros; apply noerr_ok]. }
  intros next. apply noerr_bind; auto. intros [bs final]. apply noerr_ok.
Qed.

Section Setup.
Variable F : first_table.
Variable ks : list kernel.
Variable acts : nat -> aug nat -> option action.
Variable gts : nat -> nat -> option nat.
Hypothesis Hsu : setup gi F ks acts gts.
Let Hix := su_ix _ _ _ _ _ Hsu.
Let Hok := su_ok _ _ _ _ _ Hsu.

Lemma action_iff s a act : s < n -> (has_action gi s a act <-> exists a', arel a a' /\ acts s a' = Some act).
Proof.
  intros Hs. unfold has_action. fold t ig. split.
  - intros (a' & _ & Ha & Hg). apply (augmented_token_to_id_spec _ _ _ (wf_voc _ (ix_wf _ _ Hix))) in Ha.
    rewrite (get_action_ok ig _ _ _ _ _ Hok) in Hg by (auto; eapply aug_rel_bound; eauto; apply (wf_voc _ (ix_wf _ _ Hix))). exists a'. split; auto. congruence.
  - intros (a' & Ha & Hx). exists a'. split; auto. split; [apply (augmented_token_to_id_spec _ _ _ (wf_voc _ (ix_wf _ _ Hix))); auto|].
    rewrite (get_action_ok ig _ _ _ _ _ Hok) by (auto; eapply aug_rel_bound; eauto; apply (wf_voc _ (ix_wf _ _ Hix))). congruence.
Qed.

Lemma state_bound s a act : has_action gi s a act -> s < n.
Proof. intros (a' & H & _). exact H. Qed.

Lemma rule_bad i pr : used_rule gi i -> nth_error (gi_rules gi) i = Some pr ->
  agree rep (cg_build_constructor span srules i) (build_constructor (gi_rules gi) i).
Proof.
  intros Hu Hn. rewrite Hrules in Hn. rewrite nth_error_map in Hn. destruct (nth_error srules i) as [r|] eqn:Hr; [|discriminate].
  rewrite Hrules. eapply agree_weaken; [|apply (rule_exact srules i r Hr)]. intros d _ Hd. eapply rp_rule; eauto.
Qed.

Lemma terminal_bad s a act mode : has_action gi s a act -> agree rep (cg (matcher_of a mode)) (matcher_of a mode).
Proof.
  intros Ha. apply agree_cg. intros e He. apply matcher_err in He as (sy & ty & -> & Ht & Hb). eapply rp_terminal; eauto. exists s, act. auto.
Qed.

Lemma agree_cg_bind {A B} (P : diag -> Prop) (m : outcome gen_error A) (k : A -> outcome gen_error B) :
  agree P (cg (bind m k)) (bind m k) -> agree P (bind (cg m) (fun a => cg (k a))) (bind m k).
Proof. destruct m; auto. Qed.

Lemma terminals_bad s (l : list (aug user_symbol)) mode : (forall a, In a l -> exists act, has_action gi s a act) ->
  agree rep (cg (mapM (fun a => matcher_of a mode) l)) (mapM (fun a => matcher_of a mode) l).
Proof.
  intros Hl. apply agree_cg. intros e He. apply mapM_err in He as (a & Hin & He). destruct (Hl _ Hin) as (act & Ha).
  pose proof (terminal_bad s a act mode Ha) as Hag. rewrite He in Hag. exact Hag.
Qed.

Lemma build_noerr s : s < n -> noerr (build_for_state gi s).
Proof.
  intros Hs. destruct (state_actions_ok g ig Hix F t ks acts gts Hok gen_error s Hs) as (al & Hal & _). unfold build_for_state. fold t ig. rewrite Hal. cbn [bind].
  apply noerr_foldM. intros m [a [s'|j|]]; try apply noerr_ok. apply noerr_bind; [apply noerr_assert|]. intros. apply noerr_ok.
Qed.

Lemma state_agree sm s : s < n -> agree rep (cg_generate_state_action_function span call_site lex_error literal_ok ho gi srules sm s)
  (generate_state_action_function literal_ok ho gi sm s).
Proof.
  intros Hs. unfold cg_generate_state_action_function, generate_state_action_function.
  destruct (build_for_state_wp literal_ok gi Hix F ks acts gts Hok True s Hs) as (al & Hnd & Hal & Hb).
  assert (Hact : forall a act, In (a, act) al <-> has_action gi s a act) by (intros; rewrite Hal; symmetry; apply action_iff; auto).
  apply agree_bind; [apply agree_noerr, build_noerr; auto|]. intros m _ Hm. apply (wp_elim_ok _ _ _ _ _ _ Hb) in Hm as (Hred & Hsh & Hac).
  apply agree_bind.
  { apply agree_noerr. unfold debug_check_token_conflict. destruct (gi_terminal_type gi) as [ty|ty] eqn:Htt; [apply noerr_ok|].
    destruct (filter _ _); [apply noerr_ok|]. apply noerr_bind; [|intros; apply noerr_ok]. apply noerr_mapM. intros b e He. rewrite <- Htt in He.
    apply matcher_err in He as (? & ? & _ & Hx & _). congruence. }
  intros check _ _.
  assert (Hreds : forall j toks, In (j, toks) (ho_reduce ho [s] (reduce_map m)) -> toks <> [] /\ forall a, In a toks -> has_action gi s a (Reduce j)).
  { intros j toks Hin. pose proof (grouped_perm _ _ _ (Permutation_sym (oo_reduce _ Hho [s] (reduce_map m))) Hred) as Hg. split.
    - destruct Hg as (_ & Hf & _). rewrite Forall_forall in Hf. apply (Hf _ Hin).
    - intros a Ha. apply (grouped_in _ _ _ _ _ Hg Hin) in Ha. apply in_flat_map in Ha as ([a' act] & Ha & Hx). unfold reduces_of in Hx. simpl in Hx.
      destruct act; simpl in Hx; try tauto. destruct Hx as [Hx|[]]. injection Hx as -> ->. apply Hact. auto. }
  apply agree_bind.
  { apply agree_mapM. intros [j toks] Hin. destruct (Hreds _ _ Hin) as (Hne & Ht). apply agree_bind; [apply (terminals_bad s); intros a Ha; eauto|]. intros ms _ _.
    unfold production_rule. apply agree_bind; [apply agree_index|]. intros r _ Hr. unfold index in Hr. destruct (nth_error (rules (gi_grammar gi)) j) as [r'|] eqn:Hj; [|discriminate].
    injection Hr as ->. apply agree_bind; [apply agree_noerr; unfold bind_production_nodes_to_locals; apply bind_nodes_noerr|]. intros [binds next] _ _.
    apply agree_bind; [|intros [c gc] _ _; reflexivity]. unfold cg_apply_goto, apply_goto.
    apply agree_bind. { apply agree_foldM. intros gm s'. apply agree_bind; [apply agree_goto|]. intros og _ _. apply agree_bind; [apply agree_expect|]. intros; reflexivity. }
    intros gm _ _. apply agree_bind.
    { destruct (rule_source gi Hix j r Hj) as (pr & Hpr & _). apply (rule_bad _ pr); auto. destruct toks as [|a toks]; [congruence|].
      exists s, a. left. exists j, r. split; [apply Ht; simpl; auto|auto]. }
    intros c _ _. destruct (List.length gm =? 1)%nat; [|reflexivity]. apply agree_bind; [apply agree_expect|]. intros; reflexivity. }
  intros reds _ _.
  assert (Hacc' : forall a, accept m = Some a -> has_action gi s a Accept).
  { intros a Ha. rewrite Ha in Hac. assert (Hin : In a (flat_map accepts_of al)) by (rewrite <- Hac; simpl; auto). apply in_flat_map in Hin as ([a' act] & Hin & Hx).
    unfold accepts_of in Hx. simpl in Hx. destruct act; simpl in Hx; try tauto. destruct Hx as [->|[]]. apply Hact. auto. }
  apply agree_bind.
  { unfold cg_accept_match_and_return, accept_match_and_return. destruct (accept m) as [a|] eqn:Ha; [|reflexivity]. specialize (Hacc' _ eq_refl).
    apply agree_bind; [apply (terminal_bad s a Accept); auto|]. intros mt _ _. unfold production_rule. apply agree_bind; [apply agree_index|]. intros r _ Hr.
    apply agree_bind; [apply agree_noerr; unfold bind_production_nodes_to_locals; apply bind_nodes_noerr|]. intros [binds next] _ _.
    apply agree_bind; [apply agree_assert|]. intros _ _ _. apply agree_bind; [|intros; reflexivity].
    unfold index in Hr. destruct (nth_error (rules (gi_grammar gi)) root_production_rule) as [r'|] eqn:Hj; [|discriminate].
    destruct (rule_source gi Hix _ r' Hj) as (pr & Hpr & _). rewrite (ix_root _ _ Hix _ Hj) in Hpr. apply (rule_bad _ pr); auto. exists s, a. right. auto. }
  intros ac _ _. apply agree_bind; [|intros; reflexivity]. apply agree_cg. unfold shift_match_and_yield. intros e He. apply mapM_err in He as ([a s'] & Hin & He).
  assert (Ha : has_action gi s a (Shift s')).
  { rewrite Hsh in Hin. apply in_flat_map in Hin as ([a' act] & Hin & Hx). unfold shifts_of in Hx. simpl in Hx. destruct act; simpl in Hx; try tauto.
    destruct Hx as [Hx|[]]. injection Hx as -> ->. apply Hact. auto. }
  destruct (matcher_of a Named) as [mt|e'| |] eqn:Hmt; simpl in He; try discriminate.
  - destruct a as [sy| |]; simpl in He; try discriminate. destruct (try_build_pattern literal_ok (gi_terminal_type gi) sy Rhs) as [p|e'| |] eqn:Hp; simpl in He; try discriminate.
    injection He as ->. apply pattern_err in Hp as (ty & Hty & Hbt). eapply rp_terminal; eauto. exists s, (Shift s'). auto.
  - injection He as ->. pose proof (terminal_bad s a _ Named Ha) as Hag. rewrite Hmt in Hag. exact Hag.
Qed.

Lemma payload_noerr sm s : noerr (state_payload_type gi sm s).
Proof.
  unfold state_payload_type. apply noerr_bind; [unfold state_type; apply noerr_bind; [apply noerr_index|intros; apply noerr_ok]|].
  intros ty. destruct ty; try apply noerr_ok. apply noerr_bind; [unfold orig_production_label; apply noerr_bind; [apply noerr_index|intros; apply noerr_ok]|].
  intros l. unfold label_type. apply noerr_expect.
Qed.

Lemma generate_agree_at : agree rep (cg_generate_parser span call_site lex_error literal_ok ho gi srules) (generate_parser literal_ok ho gi).
Proof.
  unfold cg_generate_parser, generate_parser, build_lr_state_map.
  destruct (state_map_ok g ig Hix F t ks acts gts Hok (ho_states ho) (oo_states _ Hho)) as (sm & Hsm & _). fold ig t. rewrite Hsm. cbn [map_err].
  apply agree_bind; [reflexivity|]. intros sm' _ Hsm'. injection Hsm' as <-.
  apply agree_bind; [apply agree_noerr; unfold root_production_type; apply noerr_bind; [unfold orig_production_label; apply noerr_bind; [apply noerr_index|intros; apply noerr_ok]|intros; unfold label_type; apply noerr_expect]|].
  intros _ _ _. apply agree_bind; [apply agree_noerr; unfold generate_dfa_states; apply noerr_mapM; intros; apply payload_noerr|].
  intros types _ _. apply agree_bind; [|intros; reflexivity]. apply agree_mapM. intros s Hin. apply state_agree. apply in_seq in Hin. lia.
Qed.

Lemma generated_clean p : generate_parser literal_ok ho gi = Ok p -> forall d, ~ rep d.
Proof.
  intros Hp d Hd.
  pose proof (wp_elim_ok _ _ _ _ _ _ (generate_wp literal_ok ho gi Hho True (or_introl I) (or_introl I) F ks acts gts Hsu) Hp) as [_ (Hlen & Hst) _].
  assert (Hcode : forall s a act, has_action gi s a act -> exists c, code_ok literal_ok gi acts gts s c).
  { intros s a act Ha. apply state_bound in Ha. destruct (nth_error (p_states p) s) as [c|] eqn:Hc; [eauto|]. apply nth_error_None in Hc. fold t in Hlen. lia. }
  destruct Hd as [i r d Hu Hr Hb|sy ty d Hu Hty Hb].
  - assert (Hcon : exists c, build_constructor (gi_rules gi) i = Ok c).
    { destruct Hu as (s & a & [(j & ir & Ha & Hj & Hi)|(Ha & ->)]); destruct (Hcode _ _ _ Ha) as (c & Hc); pose proof (state_bound _ _ _ Ha) as Hs;
        apply action_iff in Ha as (a' & Hra & Ha); auto.
      - destruct (co_reduce_c _ _ _ _ _ _ Hc _ _ _ Hra Ha) as (ms & rc & m & _ & [(ir' & pr & fin & H1 & _ & _ & H2 & _)] & _). rewrite H1 in Hj. injection Hj as ->. rewrite <- Hi. eauto.
      - pose proof Hs as Hs'. apply (state_kernel ig F t ks acts gts Hok) in Hs' as (K & HK). destruct (to_accept _ _ _ _ _ _ Hok _ _ _ HK Ha) as (-> & _).
        destruct (co_accept_c _ _ _ _ _ _ Hc Ha) as (ac & _ & [(ir & pr & fin & _ & _ & _ & _ & H2 & _)]). eauto. }
    destruct Hcon as (c & Hcon). destruct (rule_exact srules i r Hr) as (Hx & Hag). apply Hx in Hb. rewrite Hb in Hag. rewrite <- Hrules, Hcon in Hag. exact Hag.
  - destruct Hu as (s & act & Ha). destruct (Hcode _ _ _ Ha) as (c & Hc). pose proof (state_bound _ _ _ Ha) as Hs. apply action_iff in Ha as (a' & Hra & Ha); auto.
    assert (Hlit : exists x, as_literal literal_ok sy = Ok x).
    { destruct act as [s'|j|].
      - destruct a' as [i| |]; simpl in Hra; try tauto. destruct (co_shift_c _ _ _ _ _ _ Hc _ _ _ Hra Ha) as (p' & rhs & _ & H1 & _). unfold try_build_pattern in H1. rewrite Hty in H1.
        destruct (as_literal literal_ok sy); try discriminate. eauto.
      - destruct (co_reduce_c _ _ _ _ _ _ Hc _ _ _ Hra Ha) as (ms & rc & m & _ & _ & _ & H1). unfold token_matcher, try_build_matcher, try_build_pattern in H1. rewrite Hty in H1.
        destruct (as_literal literal_ok sy); try discriminate. eauto.
      - pose proof Hs as Hs'. apply (state_kernel ig F t ks acts gts Hok) in Hs' as (K & HK). destruct (to_accept _ _ _ _ _ _ Hok _ _ _ HK Ha) as (-> & _). destruct Hra. }
    destruct Hlit as (x & Hlit). unfold as_literal in Hlit. inversion Hb; subst.
    + destruct (sparen sy); simpl in Hlit; congruence.
    + destruct (sparen sy); simpl in Hlit; try discriminate. destruct (literal_ok (sname sy)); simpl in Hlit; congruence.
Qed.
End Setup.

Lemma generate_agree : agree rep (cg_generate_parser span call_site lex_error literal_ok ho gi srules) (generate_parser literal_ok ho gi).
Proof. destruct (accepted_setup literal_ok gi Hacc) as (F & ks & acts & gts & Hsu). eapply generate_agree_at; eauto. Qed.

Lemma report_genuine d : cg_generate_parser span call_site lex_error literal_ok ho gi srules = Err d -> rep d.
Proof. intros H. pose proof generate_agree as Hag. rewrite H in Hag. destruct (generate_parser literal_ok ho gi); simpl in Hag; tauto. Qed.

Lemma report_same : match cg_generate_parser span call_site lex_error literal_ok ho gi srules, generate_parser literal_ok ho gi with
  | Ok p, Ok p' => p = p'
  | Err _, Err _ => True
  | Panic w, Panic w' => w = w'
  | _, _ => False
  end.
Proof.
  destruct (accepted_setup literal_ok gi Hacc) as (F & ks & acts & gts & Hsu).
  pose proof (generate_wp literal_ok ho gi Hho True (or_introl I) (or_introl I) F ks acts gts Hsu) as Hw. pose proof generate_agree as Hag.
  destruct (cg_generate_parser span call_site lex_error literal_ok ho gi srules), (generate_parser literal_ok ho gi); simpl in *; auto.
Qed.

Lemma generate_clean p : cg_generate_parser span call_site lex_error literal_ok ho gi srules = Ok p -> forall d, ~ rep d.
Proof.
  destruct (accepted_setup literal_ok gi Hacc) as (F & ks & acts & gts & Hsu). intros Hp. pose proof generate_agree as Hag. rewrite Hp in Hag.
  destruct (generate_parser literal_ok ho gi) eqn:Hg; simpl in Hag; try tauto. eapply generated_clean; eauto.
Qed.

Lemma generate_decides : names_usable gi -> root_unused (gi_rules gi) ->
  ((exists p, cg_generate_parser span call_site lex_error literal_ok ho gi srules = Ok p) <-> forall d, ~ rep d) /\
  ((exists d, cg_generate_parser span call_site lex_error literal_ok ho gi srules = Err d) <-> exists d, rep d).
Proof.
  intros Hn Hr. pose proof (main_generates literal_ok gi ho Hacc Hho Hn Hr) as Hm. pose proof generate_agree as Hag. pose proof generate_clean as Hc.
  destruct (cg_generate_parser span call_site lex_error literal_ok ho gi srules) as [p|d|w|], (generate_parser literal_ok ho gi); simpl in Hag; try tauto.
  - specialize (Hc _ eq_refl). split; split; eauto; intros (d & Hd); [discriminate|]. destruct (Hc _ Hd).
  - split; split; eauto; [intros (p & Hp); discriminate|]. intros Hx. destruct (Hx _ Hag).
Qed.
End Reports.
