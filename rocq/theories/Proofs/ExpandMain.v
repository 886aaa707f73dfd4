(** The macro as a whole, with spans. *)
From Coq Require Import Arith Bool String Ascii NArith List Lia.
From Verif Require Import Base.Prelude Spec.Grammar Spec.Validity Spec.Nullable Spec.LR1 Spec.Observers Model.Error Model.IndexedGrammar Model.LRTable.
From Verif Require Import Model.TokenTree Model.Terminal Model.Constructor Model.CodeGen Model.Runtime Model.Symbol Model.FrontEnd Model.ErrorText.
From Verif Require Import Model.Diagnostics Model.CodeGenDiagnostics Model.Rust Model.Emit Model.Expand.
From Verif Require Import Spec.Values Spec.Substitution Spec.Macro Spec.MacroPanic Spec.Diagnostics Spec.CodeGenDiagnostics Spec.EmittedCode Spec.Places Spec.Expansion.
From Verif Require Import Proofs.WP Proofs.VocabProofs Proofs.IndexedProofs Proofs.IndexedBuild Proofs.IndexedFinal Proofs.GenCode Proofs.Macro Proofs.MacroTotal Proofs.MacroMain.
From Verif Require Import Proofs.Diagnostics Proofs.CodeGenDiagnostics Proofs.CodeGenReports Proofs.EmitMain Proofs.Places.
Import ListNotations.
Open Scope string_scope.
Open Scope list_scope.

Section Expand.
Context {span : Type} (call_site : span) (join_spans : span -> span -> option span) (print : list ttree -> string).
Context (lex_error : string -> string) (literal_ok : string -> bool).
Notation token := (token span).
Notation diag := (diag span).
Notation sp_build_grammar := (sp_build_grammar span call_site join_spans print lex_error literal_ok).
Notation items_of ts := (sp_tokenize_from_stream span join_spans ts).
Notation read ts := (sp_parse_declarations span call_site join_spans print (stream_new span (items_of ts))).

Lemma srule_rule r : sr_rule span (srule_of span r) = ra_rule span r.
Proof. reflexivity. Qed.

Lemma srules_rules rs : map (sr_rule span) (map (srule_of span) rs) = map (ra_rule span) rs.
Proof. rewrite map_map. apply map_ext. intro. apply srule_rule. Qed.

(** ** The type of the root *)

Lemma root_type {bm : BuildMode} gi : accepted gi -> exists r rs, gi_rules gi = r :: rs /\
  root_production_type gi = label_type gi (pr_name r).
Proof.
  intro A. destruct (accepted_setup (fun _ => true) gi A) as (F & ks & acts & gts & Hsu).
  pose proof (su_ix _ _ _ _ _ Hsu) as Hix. destruct (wf_root _ (ix_wf _ _ Hix)) as (ir & m & Hir & H0 & _).
  destruct (rule_source gi Hix _ _ Hir) as (pr & Hpr & _ & Hl). rewrite (ix_root _ _ Hix _ Hir) in Hpr. rewrite H0 in Hl.
  destruct (gi_rules gi) as [|r rs] eqn:E; [discriminate|]. injection Hpr as ->. exists pr, rs. split; [reflexivity|].
  unfold root_production_type, root_production_label. destruct Hl as (mt & Hm & He). unfold orig_production_label, index.
  rewrite Hm. cbn [bind]. now rewrite He.
Qed.

Lemma first_type s d r rs : parse_declarations print s = Ok d -> d_rules d = r :: rs -> hm_get (pr_name r) (d_label_types d) = Some (pr_type r).
Proof.
  intros H E. apply declarations_sound in H as (xs & -> & ds & F & O & R & G). rewrite G. rewrite E in R.
  destruct F as [xn xt xe xd Tn Tt Te Td Ne]. destruct Td as [|dc ys ds' zs Dc Td]; [discriminate|].
  destruct Dc as [label t alts xl xr x xa y Hl Ht Hx Ha Hy].
  assert (Hr : r = mk_prule label t (pr_nodes r) (pr_block r)).
  { destruct Ha as [[ns b] ? Aa|[ns b] ? ? ? ? ? Aa]; injection R as -> _; reflexivity. }
  rewrite Hr. unfold declared_type. cbn [find dc_label pr_name pr_type]. rewrite String.eqb_refl. reflexivity.
Qed.

(** ** With and without spans *)

Lemma read_same ts : match read ts, parse_declarations print (tokenize_from_stream (trees ts)) with
  | Ok d, Ok d' => d' = erase_declarations d
  | Err d, Err e => located call_site join_spans print (items_of ts) e d
  | _, _ => False
  end.
Proof.
  pose proof (declarations_post call_site join_spans print _ _ (stream_same join_spans ts)) as R.
  pose proof (declarations_total print _ (tokens_clean (trees ts))) as T.
  destruct (read ts), (parse_declarations print _); simpl in R; try contradiction; auto. apply R.
Qed.

Lemma info_same {bm : BuildMode} fuel ts d : read ts = Ok d ->
  match sp_grammar_info span call_site fuel d, parse_grammar print fuel (tokenize_from_stream (trees ts)) with
  | Ok gi, Ok r => r = (da_name span d, da_error_type span d, gi)
  | Err dg, Err (GrammarError g) => grammar_text g (dg_message span dg) /\ dg_span span dg = call_site
  | Panic w, Panic w' => w = w'
  | Diverge, Diverge => True
  | _, _ => False
  end.
Proof.
  intro H. pose proof (read_same ts) as R. rewrite H in R. unfold parse_grammar.
  destruct (parse_declarations print _) as [d'|e|w'|]; try contradiction. subst d'. cbn [bind d_rules erase_declarations].
  unfold sp_grammar_info, from_lr_error.
  destruct (indexed_build fuel _) as [ig|g|w|]; cbn [lift_lr map_err bind]; auto.
  - destruct (table_build ig fuel) as [tb|g|w|]; cbn [lift_lr map_err bind]; auto.
    split; [apply grammar_said|reflexivity].
  - split; [apply grammar_said|reflexivity].
Qed.

Lemma rules_same {bm : BuildMode} fuel ts d n et gi : read ts = Ok d -> parse_grammar print fuel (tokenize_from_stream (trees ts)) = Ok (n, et, gi) ->
  gi_rules gi = map (sr_rule span) (map (srule_of span) (da_rules span d)).
Proof.
  intros H P. apply grammar_parts in P as (d' & P & _ & _ & Er & _). pose proof (read_same ts) as R. rewrite H, P in R. subst d'.
  rewrite Er, srules_rules. reflexivity.
Qed.

(** What is reported, with everything it refers to. *)
Inductive reported {bm : BuildMode} (fuel : nat) (ts : list token) (d : diag) : Prop :=
| rd_input e : parse_grammar print fuel (tokenize_from_stream (trees ts)) = Err e ->
    located call_site join_spans print (items_of ts) e d -> reported fuel ts d
| rd_grammar g xs rules : parse_grammar print fuel (tokenize_from_stream (trees ts)) = Err (GrammarError g) ->
    items_of ts = map inl xs -> rules_written join_spans print rules xs ->
    grammar_text g (dg_message span d) -> dg_span span d = call_site -> reported fuel ts d
| rd_rule n et gi xs rules : parse_grammar print fuel (tokenize_from_stream (trees ts)) = Ok (n, et, gi) ->
    items_of ts = map inl xs -> rules_written join_spans print rules xs -> gi_rules gi = map (sr_rule span) rules ->
    reportable call_site lex_error literal_ok gi rules d -> reported fuel ts d.

Theorem expand_same {bm : BuildMode} ho fuel ts vis : orders_ok ho ->
  match sp_build_grammar ho fuel ts vis, build_grammar print literal_ok ho fuel (trees ts) with
  | Ok em, Ok p => exists d, parse_declarations print (tokenize_from_stream (trees ts)) = Ok d /\ d_rules d <> [] /\
      em = emit vis (d_name d) (error_type_of (d_error_type d)) (d_terminal_type d) (Some (value_type (d_rules d))) p
  | Err d, Err (FrontError e) => reported fuel ts d /\ parse_grammar print fuel (tokenize_from_stream (trees ts)) = Err e
  | Err d, Err (CodeGenError e) => reported fuel ts d /\ exists r, parse_grammar print fuel (tokenize_from_stream (trees ts)) = Ok r
  | Panic w, Panic w' => w = w'
  | Diverge, Diverge => True
  | _, _ => False
  end.
Proof.
  intro Ho. unfold Expand.sp_build_grammar, build_grammar. pose proof (read_same ts) as R.
  destruct (read ts) as [d|dg|w|] eqn:Rd; try contradiction; cbn [bind].
  2:{ destruct (parse_declarations print (tokenize_from_stream (trees ts))) as [d'|e|w'|] eqn:P; try contradiction.
      assert (Pg : parse_grammar print fuel (tokenize_from_stream (trees ts)) = Err e) by (unfold parse_grammar; now rewrite P).
      rewrite Pg. cbn [map_err bind]. split; [|reflexivity]. eapply rd_input; eauto. }
  pose proof (info_same fuel ts d Rd) as I. destruct (places call_site join_spans print _ d Rd) as (xs & Ex & Wr).
  destruct (parse_declarations print (tokenize_from_stream (trees ts))) as [d'|e|w'|] eqn:P; try contradiction. subst d'.
  destruct (sp_grammar_info span call_site fuel d) as [gi|dg|w|] eqn:Gi, (parse_grammar print fuel (tokenize_from_stream (trees ts))) as [r|e|w'|] eqn:Pg;
    try contradiction; cbn [bind map_err].
  - subst r. cbn [bind map_err]. pose proof (rules_same fuel ts d _ _ gi Rd Pg) as Er. pose proof (grammar_accepted print fuel _ _ _ gi Pg) as A.
    pose proof (report_same call_site lex_error literal_ok ho gi _ Er Ho A) as S.
    pose proof (report_genuine call_site lex_error literal_ok ho gi _ Er Ho A) as Ge.
    destruct (cg_generate_parser span call_site lex_error literal_ok ho gi _) as [p|dg|w|], (generate_parser literal_ok ho gi) as [p'|e|w'|];
      try contradiction; cbn [bind map_err]; auto.
    + subst p'. destruct (root_type gi A) as (r & rs & Egi & ->). pose proof (grammar_parts print fuel _ _ _ gi Pg) as (d2 & P2 & Et & El & Er2 & _).
      rewrite P in P2. injection P2 as <-. unfold label_type. rewrite El. rewrite Er2 in Egi. rewrite (first_type _ _ _ _ P Egi). cbn [expect map_err bind].
      exists (erase_declarations d). split; [reflexivity|]. rewrite Et, Egi. split; [discriminate|]. cbn [value_type d_name d_error_type erase_declarations].
      unfold emit. destruct (pr_type r); reflexivity.
    + split; [|eauto]. eapply rd_rule; eauto.
  - destruct e; try contradiction. destruct I as [I1 I2]. split; [|reflexivity]. eapply rd_grammar; eauto.
  - exact I.
  - exact Logic.I.
Qed.

(** ** The item *)

Lemma expand_built {bm : BuildMode} ho fuel ts vis em : orders_ok ho -> sp_build_grammar ho fuel ts vis = Ok em -> exists d p,
  parse_declarations print (tokenize_from_stream (trees ts)) = Ok d /\ d_rules d <> [] /\
  build_grammar print literal_ok ho fuel (trees ts) = Ok p /\
  em = emit vis (d_name d) (error_type_of (d_error_type d)) (d_terminal_type d) (Some (value_type (d_rules d))) p.
Proof.
  intros Ho H. pose proof (expand_same ho fuel ts vis Ho) as S. rewrite H in S.
  destruct (build_grammar print literal_ok ho fuel (trees ts)) as [p|[]| |]; try contradiction.
  destruct S as (d & ? & ? & ?). exists d, p. auto.
Qed.

Lemma item_as_written {bm : BuildMode} ho fuel ts vis em : orders_ok ho -> well_spaced (trees ts) -> sp_build_grammar ho fuel ts vis = Ok em ->
  exists d, reads_as print (trees ts) d /\ d_rules d <> [] /\ as_written d em /\ em_public em = match vis with Public => true | Private => false end.
Proof.
  intros Ho Ws H. destruct (expand_built _ _ _ _ _ Ho H) as (d & p & P & Ne & _ & ->). exists d. split; [apply read_sound; assumption|].
  split; [assumption|]. split; [|reflexivity]. unfold as_written. cbn. split; [reflexivity|]. split; [destruct (d_terminal_type d); auto|].
  split; [reflexivity|]. destruct (d_error_type d); reflexivity.
Qed.

Theorem item_parses {bm : BuildMode} ho fuel ts vis em d : orders_ok ho -> reads_as print (trees ts) d -> defaults_bound (d_rules d) ->
  hygienic_rules (d_rules d) -> sp_build_grammar ho fuel ts vis = Ok em ->
  exists gi, gi_terminal_type gi = d_terminal_type d /\ gi_rules gi = d_rules d /\
  forall (bmr : BuildMode) (E : Type) (R : rust) (SErr : Type) (into : SErr -> UErr R) bv, describes R SErr bv -> depends_on_named R SErr bv ->
  (forall input fuel' st v, run_emitted (bm := bmr) R into input bv fuel' em = (Ok (st, FVal R (VCon ["Ok"] [VVal v])) : Rust.result (E := E) R) ->
    exists toks t, (forall i, i <= List.length toks -> input i = of_list toks i) /\ parses_tokens R gi toks t /\ snd (Values.eval R gi t) = inl v) /\
  (forall toks t, first_complete (bm := bm) (source (d_rules d)) -> unambiguous_tokens R gi toks -> parses_tokens R gi toks t ->
    exists N, forall fuel', N < fuel' -> exists st, run_emitted (bm := bmr) R into (of_list toks) bv fuel' em =
      (Ok (st, FVal R (result_value (match snd (Values.eval R gi t) with inl v => inl v | inr e => inr (UserError R e) end))) : Rust.result (E := E) R)).
Proof.
  intros Ho Rd Db Hy H. destruct (expand_built _ _ _ _ _ Ho H) as (d' & p & P & Ne & B & ->).
  destruct (read_complete print _ _ Rd) as (d2 & P2 & Sm). rewrite P in P2. injection P2 as <-.
  destruct Sm as (En & Et & Ee & Er & _). rewrite <- En, <- Et, <- Ee, <- Er.
  destruct (macro_generated print literal_ok ho fuel _ p d Ho Rd Db B) as (gi & Gt & Gr & _ & Hg).
  exists gi. split; [assumption|]. split; [assumption|]. rewrite <- Gt. intros bmr E R SErr into bv H1 H2. rewrite <- Gr in Hy. split.
  - intros input fuel' st v Hrun. exact (@emitted_value bm literal_ok gi p bmr E R SErr into input bv Hg H1 H2 Hy _ _ _ _ _ _ _ Hrun).
  - intros toks t Fc Un Pt. rewrite <- Gr in Fc. exact (@emitted_sentence bm literal_ok gi p bmr E R SErr into bv Hg H1 H2 Hy _ _ _ _ toks t Fc Un Pt).
Qed.

(** ** Reports *)

Theorem reports_are_right {bm : BuildMode} ho fuel ts vis d : orders_ok ho -> well_spaced (trees ts) -> sp_build_grammar ho fuel ts vis = Err d ->
  exists its, symbols_at join_spans ts its /\
  ((exists e, located call_site join_spans print its e d) \/
   exists xs rules, its = map inl xs /\ rules_written join_spans print rules xs /\
   ((exists g, parse_grammar print fuel (tokenize_from_stream (trees ts)) = Err (GrammarError g) /\
       grammar_text g (dg_message span d) /\ dg_span span d = call_site) \/
    (exists n et gi, parse_grammar print fuel (tokenize_from_stream (trees ts)) = Ok (n, et, gi) /\
       gi_rules gi = map (sr_rule span) rules /\ reportable call_site lex_error literal_ok gi rules d))).
Proof.
  intros Ho Ws H. exists (items_of ts). split; [apply (symbols_of_tokens call_site); assumption|].
  pose proof (expand_same ho fuel ts vis Ho) as S. rewrite H in S.
  assert (Rp : reported fuel ts d) by (destruct (build_grammar print literal_ok ho fuel (trees ts)) as [|[]| |]; try contradiction; apply S).
  destruct Rp as [e P L|g xs rules P E W G C|n et gi xs rules P E W Er Rp]; [left; eauto|right|right].
  - exists xs, rules. split; [assumption|]. split; [assumption|]. left. eauto.
  - exists xs, rules. split; [assumption|]. split; [assumption|]. right. exists n, et, gi. auto.
Qed.

(** ** Places *)

Notation place_in := (place_in join_spans).

Lemma place_cover ts s t : place_in ts s -> place_in ts t -> place_in ts (cover join_spans s t).
Proof. intros Hs Ht. unfold cover. destruct (join_spans s t) eqn:E; [|assumption]. exact (pi_join _ _ s t _ Hs Ht E). Qed.

Lemma place_covers ts ss : Forall (place_in ts) ss -> forall s, place_in ts s -> place_in ts (fold_left (cover join_spans) ss s).
Proof. induction 1; intros s0 Hs; simpl; [assumption|]. apply IHForall. now apply place_cover. Qed.

Lemma place_self ts (t : token) : In t ts -> place_in ts (tk_span span t).
Proof. intro H. apply pi_token. exists t. split; [assumption|constructor]. Qed.

(** A symbol is at a place, and the tokens of a block are those in a token. *)
Definition symbol_place (ts : list token) (x : symbol_at span) : Prop :=
  place_in ts (span_of x) /\
  (forall ts', at_type span x = SGroup Brace ts' -> exists t s, In t ts /\ tk_with span t = STGroup span Brace (at_inside span x) s).

Lemma bad_placed ts0 ts e s : incl ts ts0 -> bad_span e ts s -> place_in ts0 s.
Proof.
  intros Hi H. destruct e; simpl in H;
    (destruct H as (t & ts' & -> & ->) || destruct H as (t & t' & ts' & -> & ->));
    solve [apply place_self, Hi; simpl; auto | apply pi_open, Hi; simpl; auto].
Qed.

Lemma group_tree (t : token) ts' : tk_tree span t = TGroup Brace ts' -> exists inside s, tk_with span t = STGroup span Brace inside s.
Proof. unfold tk_tree. destruct (tk_with span t) as [d inside s|c sp s|n s|l s]; simpl; try discriminate. intros [= -> _]. eauto. Qed.

Lemma items_placed ts0 ts its : symbols_at join_spans ts its -> incl ts ts0 -> forall pre post, its = map inl pre ++ post ->
  Forall (symbol_place ts0) pre /\ match post with inr d :: _ => place_in ts0 (dg_span span d) | _ => True end.
Proof.
  induction 1 as [|t x ts its Hs Ht Hp Hin Hr IH|t1 t2 x ts its Hs Ht Hp Hr IH|ts e s its Hn Hb]; intros Hi pre post E.
  - destruct pre; [|discriminate]. simpl in E. subst post. split; [constructor|exact I].
  - destruct pre as [|y pre]; simpl in E.
    + subst post. split; [constructor|exact I].
    + injection E as <- E. destruct (IH (fun z Hz => Hi z (or_intror Hz)) pre post E) as [F P]. split; [|exact P]. constructor; [|exact F].
      assert (It : In t ts0) by (apply Hi; now left). split.
      * rewrite Hp. now apply place_self.
      * intros ts' Hty. rewrite Hty in Hs. inversion Hs as [| | | | | | |ts1 E1 E2| |]; subst.
        match goal with H : [TGroup _ _] = [_] |- _ => injection H as H; symmetry in H; destruct (group_tree _ _ H) as (ins & s & Hw) end
        || (symmetry in E2; destruct (group_tree _ _ E2) as (ins & s & Hw)).
        exists t, s. split; [assumption|]. now rewrite (Hin _ _ Hw).
  - destruct pre as [|y pre]; simpl in E.
    + subst post. split; [constructor|exact I].
    + injection E as <- E. destruct (IH (fun z Hz => Hi z (or_intror (or_intror Hz))) pre post E) as [F P]. split; [|exact P]. constructor; [|exact F].
      split.
      * rewrite Hp. apply place_cover; apply place_self, Hi; simpl; auto.
      * intros ts' Hty. rewrite Hty in Hs. inversion Hs.
  - destruct pre as [|y pre]; simpl in E; [|discriminate]. subst post. split; [constructor|]. simpl. eapply bad_placed; eauto.
Qed.

Notation placed ts := (fun x => place_in ts (span_of x)).

Lemma forall_spans ts xs : Forall (symbol_place ts) xs -> Forall (place_in ts) (map span_of xs).
Proof. induction 1 as [|x xs H]; simpl; constructor; auto. apply H. Qed.

Lemma cover_all_placed ts x xs : Forall (symbol_place ts) (x :: xs) -> place_in ts (cover_all join_spans x xs).
Proof. intro H. inversion H as [|? ? Hx Hxs]; subst. apply place_covers; [now apply forall_spans|apply Hx]. Qed.

Lemma type_placed ts s tt xs : Forall (symbol_place ts) xs -> type_at join_spans (Some (s, tt)) xs -> place_in ts s.
Proof. intros F H. inversion H as [|c x xs' Hc Hi E1]; subst. inversion F; subst. now apply cover_all_placed. Qed.

Lemma located_place ts its e d : symbols_at join_spans ts its -> located call_site join_spans print its e d ->
  dg_span span d = call_site \/ place_in ts (dg_span span d).
Proof.
  intros S L. pose proof (fun pre post => items_placed ts ts its S (incl_refl _) pre post) as P.
  destruct L as [pre x post e msg|pre d post e msg|pre msg s St Nm No Hs|pre b n1 x n2 post msg|pre label ty old xl xt s ts' post msg Dc Rf Ta Te St Ns Hm No];
    cbn [dg_span].
  - right. destruct (P (pre ++ [x]) post) as [F _]; [rewrite map_app, <- app_assoc; reflexivity|]. apply Forall_app in F as [_ F]. inversion F as [|? ? Hx]; subst. apply Hx.
  - right. destruct (P pre (inr d :: post) eq_refl) as [_ F]. exact F.
  - destruct Hs as [->|Hs]; [now left|right]. destruct (P pre []) as [F _]; [now rewrite app_nil_r|].
    apply forall_spans in F. rewrite Forall_forall in F. now apply F.
  - right. destruct (P _ post eq_refl) as [F _]. apply Forall_app in F as [_ F]. inversion F as [|? ? _ F']; subst. apply Forall_app in F' as [_ F']. inversion F' as [|? ? Hx]; subst. apply Hx.
  - right. destruct (P _ post eq_refl) as [F _]. apply Forall_app in F as [F1 F2]. apply Forall_app in F2 as [_ F2]. destruct ty as [[s1 t1]|].
    + injection Hm as -> ->. exact (type_placed _ _ _ _ F2 Ta).
    + subst old. destruct Dc as (l & xl' & xt' & xd & r & -> & _ & Ta' & _). rewrite !Forall_app in F1. destruct F1 as (_ & (_ & F1 & _) & _). exact (type_placed _ _ _ _ F1 Ta').
Qed.

(** Rules. *)
Definition rule_place (ts : list token) (r : srule span) : Prop :=
  place_in ts (sr_span span r) /\
  match sr_block span r with
  | Some (d, bs, s) => place_in ts s /\ (d = Brace -> forall b, In b bs -> token_of ts b)
  | None => True
  end.

Lemma node_placed ts n s xs : Forall (symbol_place ts) xs -> node_written join_spans print n s xs -> place_in ts s.
Proof.
  intros F H. destruct H; repeat match goal with H : Forall _ (_ :: _) |- _ => inversion H; subst; clear H end;
    repeat match goal with H : symbol_place _ _ |- _ => destruct H as [H _] end; auto using place_cover.
Qed.

Lemma nodes_placed ts ns ss xs : nodes_written join_spans print ns ss xs -> Forall (symbol_place ts) xs -> Forall (place_in ts) ss.
Proof.
  induction 1 as [|n s xs ns ss ys H H' IH]; intro F; constructor; apply Forall_app in F as [F1 F2]; auto. exact (node_placed _ _ _ _ F1 H).
Qed.

Lemma alternative_placed ts label ty r xs : Forall (symbol_place ts) xs -> alternative_written join_spans print label ty r xs -> rule_place ts r.
Proof.
  intros F H. revert F. destruct H as [nodes s ss block xs' ys Hn Hb]. intro F. apply Forall_app in F as [F1 F2]. apply (nodes_placed ts) in Hn; [|assumption].
  inversion Hn; subst. split; cbn [sr_span sr_block]; [now apply place_covers|].
  destruct Hb as [|d bs x Hx]; [exact I|]. inversion F2 as [|? ? [P Q] _]; subst. split; [assumption|].
  intros -> b Hb. destruct (Q _ Hx) as (t & s' & It & Hw). exists t. split; [assumption|]. rewrite Hw. econstructor; [exact Hb|constructor].
Qed.

Lemma alternatives_placed ts label ty rs xs : alternatives_written join_spans print label ty rs xs -> Forall (symbol_place ts) xs -> Forall (rule_place ts) rs.
Proof.
  induction 1 as [r xs H|r xs x rs ys H Hx H' IH]; intro F.
  - constructor; [|constructor]. eapply alternative_placed; eauto.
  - apply Forall_app in F as [F1 F2]. inversion F2; subst. constructor; auto. exact (alternative_placed _ _ _ _ _ F1 H).
Qed.

Lemma rules_placed ts rs xs : rules_written join_spans print rs xs -> Forall (symbol_place ts) xs -> Forall (rule_place ts) rs.
Proof.
  intros (xo & xd & -> & _ & H) F. apply Forall_app in F as [_ F]. induction H as [|rs xs rs' ys H H' IH]; [constructor|].
  apply Forall_app in F as [F1 F2]. apply Forall_app. split; auto. destruct H as [label ty rs xl xt x xa y _ _ _ Ha _].
  rewrite !Forall_app in F1. destruct F1 as (_ & _ & F1). inversion F1 as [|? ? _ F1']; subst. apply Forall_app in F1' as [F1' _]. exact (alternatives_placed _ _ _ _ _ Ha F1').
Qed.

Lemma within_trans (t1 t2 t3 : stree span) : within t1 t2 -> within t2 t3 -> within t1 t3.
Proof. intros H H'. induction H' as [|d ts s t t' Hi H' IH]; [assumption|]. econstructor; eauto. Qed.

Lemma bad_at_place ts nodes bs msg s : bad_at nodes bs msg s -> (forall b, In b bs -> token_of ts b) -> place_in ts s.
Proof.
  assert (At : forall b, token_of ts b -> place_in ts (st_span span b)) by (intros; now apply pi_token).
  induction 1 as [name s place bs|name i j s place bs|text message s place bs|text n w s place bs|text n w s place bs|place bs|d bs s bs' message place H IH|bs body bs' message place Hs H IH];
    intro Hb.
  1, 2: apply (At (STIdent span name place)), Hb; simpl; auto.
  1, 2, 3: apply (At (STLiteral span text place)), Hb; simpl; auto.
  - apply (At (sign_at place)), Hb. now left.
  - apply IH. intros b Hin. destruct (Hb _ (or_introl eq_refl)) as (t0 & It & W). exists t0. split; [assumption|].
    eapply within_trans; [|exact W]. econstructor; [exact Hin|constructor].
  - apply IH. intros b Hin. apply Hb, in_or_app. now right.
Qed.

Theorem report_place {bm : BuildMode} ho fuel ts vis d : orders_ok ho -> well_spaced (trees ts) -> sp_build_grammar ho fuel ts vis = Err d ->
  dg_span span d = call_site \/ place_in ts (dg_span span d).
Proof.
  intros Ho Ws H. destruct (reports_are_right _ _ _ _ _ Ho Ws H) as (its & S & [[e L]|(xs & rules & -> & W & [(g & _ & _ & C)|(n & et & gi & _ & _ & R)])]).
  - eapply located_place; eauto.
  - now left.
  - destruct R as [i r d _ Hr Hb|t ty d _ _ Hb]; [right|left; destruct Hb; reflexivity].
    destruct (items_placed ts ts _ S (incl_refl _) xs []) as [F _]; [now rewrite app_nil_r|].
    apply (rules_placed ts) in W; [|assumption]. rewrite Forall_forall in W. destruct (W r (nth_error_In _ _ Hr)) as [P1 P2].
    destruct Hb as [bs s message place E B|d bs place E N|ty E _ _]; rewrite E in P2; cbn [dg_span]; try assumption; try apply P2.
    eapply bad_at_place; [exact B|]. now apply P2.
Qed.

(** ** Ends *)

Theorem expand_total {bm : BuildMode} ho ts vis : orders_ok ho -> exists N, forall fuel, N < fuel ->
  match sp_build_grammar ho fuel ts vis with
  | Ok _ | Err _ => True
  | Panic _ => exists d, parse_declarations print (tokenize_from_stream (trees ts)) = Ok d /\ panic_cause d
  | Diverge => False
  end.
Proof.
  intro Ho. destruct (macro_total print literal_ok ho (trees ts) Ho) as [N HN]. exists N. intros fuel Hf.
  specialize (HN fuel Hf). pose proof (expand_same ho fuel ts vis Ho) as S.
  destruct (sp_build_grammar ho fuel ts vis), (build_grammar print literal_ok ho fuel (trees ts)) as [|[]| |]; try contradiction; auto.
Qed.

(** ** Which grammars are accepted *)

Lemma good_not_bad r d : good_rule (sr_rule span r) -> ~ bad_rule r d.
Proof.
  unfold good_rule, sr_rule. cbn [pr_block pr_nodes pr_type]. intros G B. destruct B as [bs s message place E B|dl bs place E N|ty E T L].
  - rewrite E in G. cbn in G. destruct G as (_ & body & G). apply (rewrite_at_ok _ bs s) in G.
    pose proof (proj2 (rewrite_at_err (sr_nodes span r) bs s (mk_diag span message place)) B) as B'. congruence.
  - rewrite E in G. cbn in G. destruct G as [G _]. contradiction.
  - rewrite E in G. cbn in G. destruct G; congruence.
Qed.

Theorem accepted_exactly {bm : BuildMode} ho ts vis d : orders_ok ho -> parse_declarations print (tokenize_from_stream (trees ts)) = Ok d ->
  root_unused (d_rules d) -> first_complete (source (d_rules d)) -> productive (source (d_rules d)) ->
  (forall r, In r (d_rules d) -> good_rule r) -> (forall s, terminal_in (d_rules d) s -> good_terminal literal_ok (d_terminal_type d) s) ->
  exists N, forall fuel, N < fuel ->
  ((exists em, sp_build_grammar ho fuel ts vis = Ok em) <-> valid_grammar (source (d_rules d)) /\ lr1_grammar (source (d_rules d))).
Proof.
  intros Ho P Ru Fc Pr Gr Gt. destruct (grammar_lr1 print _ d P Ru Fc Pr) as [N HN]. exists N. intros fuel Hf. rewrite <- (HN fuel Hf).
  pose proof (expand_same ho fuel ts vis Ho) as S. split.
  - intros [em H]. rewrite H in S. destruct (build_grammar print literal_ok ho fuel (trees ts)) as [p|[]| |] eqn:B; try contradiction.
    apply macro_parts in B as (n & et & gi & Pg & _). eauto.
  - intros (n & et & gi & Pg). pose proof (grammar_accepted print fuel _ _ _ gi Pg) as A.
    pose proof (grammar_parts print fuel _ _ _ gi Pg) as (d2 & P2 & Et & _ & Er & _). rewrite P in P2. injection P2 as <-.
    pose proof (read_same ts) as R. rewrite P in R. destruct (read ts) as [dd|dg|w|] eqn:Rd; try contradiction.
    pose proof (rules_same fuel ts dd _ _ gi Rd Pg) as Es.
    assert (Nu : names_usable gi).
    { intros s Ht Hc. rewrite Er in Ht. specialize (Gt s Ht). rewrite <- Et in Gt. unfold good_terminal in Gt.
      destruct (gi_terminal_type gi) as [ty|ty].
      - destruct Gt as [Gt _]. contradiction.
      - destruct (read_names print _ _ _ P Ht) as [Hi|[_ Hi]]; [assumption|contradiction]. }
    assert (Ru' : root_unused (gi_rules gi)) by now rewrite Er.
    destruct (generate_decides call_site lex_error literal_ok ho gi _ Es Ho A Nu Ru') as [[_ G] _].
    assert (Hn : forall d0, ~ reportable call_site lex_error literal_ok gi (map (srule_of span) (da_rules span dd)) d0).
    { intros d0 Rp. destruct Rp as [i r d0 _ Hr Hb|t ty d0 Ut Ty Hb].
      - apply (good_not_bad r d0); [|assumption]. apply Gr. rewrite <- Er, Es. apply in_map. eapply nth_error_In; eauto.
      - destruct Ut as (s & act & a' & _ & Ha & _). destruct (accepted_setup literal_ok gi A) as (F & ks & acts & gts & Hsu).
        apply (augmented_token_to_id_spec _ _ _ (wf_voc _ (ix_wf _ _ (su_ix _ _ _ _ _ Hsu)))) in Ha.
        destruct a' as [j| |]; simpl in Ha; try contradiction.
        pose proof (su_voc _ _ _ _ _ Hsu t j Ha) as Ht. rewrite Er in Ht. specialize (Gt t Ht). rewrite <- Et, Ty in Gt. destruct Gt as [G1 G2].
        destruct Hb; congruence. }
    destruct (G Hn) as [p Hp]. pose proof (report_same call_site lex_error literal_ok ho gi _ Es Ho A) as Sg. rewrite Hp in Sg.
    destruct (generate_parser literal_ok ho gi) as [p'| | |] eqn:Gp; try contradiction. subst p'.
    assert (B : build_grammar print literal_ok ho fuel (trees ts) = Ok p) by (unfold build_grammar; rewrite Pg; cbn [map_err bind]; now rewrite Gp).
    rewrite B in S. destruct (sp_build_grammar ho fuel ts vis); try contradiction. eauto.
Qed.

(** ** The two macros *)

Notation grammar := (Expand.grammar span call_site join_spans print lex_error literal_ok).
Notation pub_grammar := (Expand.pub_grammar span call_site join_spans print lex_error literal_ok).

Lemma or_abort_ok m em : or_abort span m = Ok (Item span em) -> m = Ok em.
Proof. destruct m; simpl; congruence. Qed.
Lemma or_abort_err m d : or_abort span m = Ok (CompileError span d) -> m = Err d.
Proof. destruct m; simpl; congruence. Qed.

Section Macros.
Context {bm : BuildMode} (ho : hash_orders) (Ho : orders_ok ho).

Lemma macros_item fuel ts em : grammar ho fuel ts = Ok (Item span em) \/ pub_grammar ho fuel ts = Ok (Item span em) ->
  exists vis, sp_build_grammar ho fuel ts vis = Ok em.
Proof. intros [H|H]; apply or_abort_ok in H; eauto. Qed.

Lemma macros_error fuel ts d : grammar ho fuel ts = Ok (CompileError span d) \/ pub_grammar ho fuel ts = Ok (CompileError span d) ->
  exists vis, sp_build_grammar ho fuel ts vis = Err d.
Proof. intros [H|H]; apply or_abort_err in H; eauto. Qed.

Theorem macros_as_written fuel ts em : well_spaced (trees ts) ->
  (grammar ho fuel ts = Ok (Item span em) -> exists d, reads_as print (trees ts) d /\ d_rules d <> [] /\ as_written d em /\ em_public em = false) /\
  (pub_grammar ho fuel ts = Ok (Item span em) -> exists d, reads_as print (trees ts) d /\ d_rules d <> [] /\ as_written d em /\ em_public em = true).
Proof. intro Ws. split; intro H; apply or_abort_ok in H; exact (item_as_written _ _ _ _ _ Ho Ws H). Qed.

(** Visibility is the only difference. *)
Theorem macros_same fuel ts :
  match grammar ho fuel ts, pub_grammar ho fuel ts with
  | Ok (Item _ em), Ok (Item _ em') => em' = mk_emitted true (em_struct em) (em_table_size em) (em_token em) (em_value em) (em_error em)
      (em_generics em) (em_param em) (em_enum em) (em_fns em) (em_body em)
  | Ok (CompileError _ d), Ok (CompileError _ d') => d' = d
  | Panic w, Panic w' => w = w'
  | Diverge, Diverge => True
  | _, _ => False
  end.
Proof.
  unfold Expand.grammar, Expand.pub_grammar, Expand.sp_build_grammar.
  destruct (read ts) as [d|dg|w|]; cbn [bind or_abort]; auto.
  destruct (sp_grammar_info span call_site fuel d) as [gi|dg|w|]; cbn [bind or_abort]; auto.
  destruct (cg_generate_parser span call_site lex_error literal_ok ho gi _) as [p|dg|w|]; cbn [bind or_abort]; auto.
  destruct (map_err _ (root_production_type gi)) as [rt|dg|w|]; cbn [bind or_abort]; auto.
Qed.

Theorem macros_parse fuel ts em d : reads_as print (trees ts) d -> defaults_bound (d_rules d) -> hygienic_rules (d_rules d) ->
  grammar ho fuel ts = Ok (Item span em) \/ pub_grammar ho fuel ts = Ok (Item span em) ->
  exists gi, gi_terminal_type gi = d_terminal_type d /\ gi_rules gi = d_rules d /\
  forall (bmr : BuildMode) (E : Type) (R : rust) (SErr : Type) (into : SErr -> UErr R) bv, describes R SErr bv -> depends_on_named R SErr bv ->
  (forall input fuel' st v, run_emitted (bm := bmr) R into input bv fuel' em = (Ok (st, FVal R (VCon ["Ok"] [VVal v])) : Rust.result (E := E) R) ->
    exists toks t, (forall i, i <= List.length toks -> input i = of_list toks i) /\ parses_tokens R gi toks t /\ snd (Values.eval R gi t) = inl v) /\
  (forall toks t, first_complete (bm := bm) (source (d_rules d)) -> unambiguous_tokens R gi toks -> parses_tokens R gi toks t ->
    exists N, forall fuel', N < fuel' -> exists st, run_emitted (bm := bmr) R into (of_list toks) bv fuel' em =
      (Ok (st, FVal R (result_value (match snd (Values.eval R gi t) with inl v => inl v | inr e => inr (UserError R e) end))) : Rust.result (E := E) R)).
Proof. intros Rd Db Hy H. apply macros_item in H as [vis H]. exact (item_parses _ _ _ _ _ _ Ho Rd Db Hy H). Qed.

Theorem macros_report fuel ts d : well_spaced (trees ts) ->
  grammar ho fuel ts = Ok (CompileError span d) \/ pub_grammar ho fuel ts = Ok (CompileError span d) ->
  exists its, symbols_at join_spans ts its /\
  ((exists e, located call_site join_spans print its e d) \/
   exists xs rules, its = map inl xs /\ rules_written join_spans print rules xs /\
   ((exists g, parse_grammar print fuel (tokenize_from_stream (trees ts)) = Err (GrammarError g) /\
       grammar_text g (dg_message span d) /\ dg_span span d = call_site) \/
    (exists n et gi, parse_grammar print fuel (tokenize_from_stream (trees ts)) = Ok (n, et, gi) /\
       gi_rules gi = map (sr_rule span) rules /\ reportable call_site lex_error literal_ok gi rules d))).
Proof. intros Ws H. apply macros_error in H as [vis H]. exact (reports_are_right _ _ _ _ _ Ho Ws H). Qed.

Theorem macros_place fuel ts d : well_spaced (trees ts) ->
  grammar ho fuel ts = Ok (CompileError span d) \/ pub_grammar ho fuel ts = Ok (CompileError span d) ->
  dg_span span d = call_site \/ place_in ts (dg_span span d).
Proof. intros Ws H. apply macros_error in H as [vis H]. exact (report_place _ _ _ _ _ Ho Ws H). Qed.

Theorem macros_return ts : exists N, forall fuel, N < fuel ->
  (exists x, grammar ho fuel ts = Ok x) \/
  exists w d, grammar ho fuel ts = Panic w /\ parse_declarations print (tokenize_from_stream (trees ts)) = Ok d /\ panic_cause d.
Proof.
  destruct (expand_total ho ts Private Ho) as [N HN]. exists N. intros fuel Hf. specialize (HN fuel Hf). unfold Expand.grammar.
  destruct (sp_build_grammar ho fuel ts Private) as [em|d|w|]; simpl; eauto; [|contradiction]. destruct HN as (d & ? & ?). right. eauto.
Qed.

Theorem macros_accept ts d : parse_declarations print (tokenize_from_stream (trees ts)) = Ok d ->
  root_unused (d_rules d) -> first_complete (source (d_rules d)) -> productive (source (d_rules d)) ->
  (forall r, In r (d_rules d) -> good_rule r) -> (forall s, terminal_in (d_rules d) s -> good_terminal literal_ok (d_terminal_type d) s) ->
  exists N, forall fuel, N < fuel ->
  ((exists em, grammar ho fuel ts = Ok (Item span em)) <-> valid_grammar (source (d_rules d)) /\ lr1_grammar (source (d_rules d))) /\
  ((exists e, grammar ho fuel ts = Ok (CompileError span e)) <-> ~ (valid_grammar (source (d_rules d)) /\ lr1_grammar (source (d_rules d)))).
Proof.
  intros P Ru Fc Pr Gr Gt. destruct (accepted_exactly ho ts Private d Ho P Ru Fc Pr Gr Gt) as [N HN].
  destruct (macros_return ts) as [N' HN']. exists (max N N'). intros fuel Hf.
  specialize (HN fuel ltac:(lia)). specialize (HN' fuel ltac:(lia)).
  assert (I : (exists em, grammar ho fuel ts = Ok (Item span em)) <-> exists em, sp_build_grammar ho fuel ts Private = Ok em).
  { split; intros [em H]; exists em; [now apply or_abort_ok|]. unfold Expand.grammar. now rewrite H. }
  rewrite I, HN. split; [reflexivity|]. rewrite <- HN, <- I. split.
  - intros [e H] [em H']. congruence.
  - intro Hn. destruct HN' as [[[em|e] H]|(w & d' & _ & P' & Pc)]; [exfalso; eauto|eauto|]. exfalso.
    rewrite P in P'. injection P' as <-. destruct Pc as [(r & Hr & Hi)|(s & ty & Ht & Ty & Hc)].
    + exact (Ru r Hr Hi).
    + specialize (Gt s Ht). rewrite Ty in Gt. exact (Gt Hc).
Qed.

End Macros.

End Expand.
