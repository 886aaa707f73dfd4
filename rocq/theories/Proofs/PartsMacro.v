(** Inputs of [grammar!] with only some of the alternatives of another. *)
From Coq Require Import Arith Bool String Ascii NArith List Lia Permutation.
From Verif Require Import Base.Prelude Spec.Grammar Spec.Validity Spec.Nullable Spec.LR1 Spec.Observers Spec.Parts Model.Error Model.IndexedGrammar Model.LRTable Model.ParseSimulator.
From Verif Require Import Model.TokenTree Model.Terminal Model.Constructor Model.CodeGen Model.Runtime Model.Symbol Model.FrontEnd Model.ErrorText.
From Verif Require Import Model.Diagnostics Model.CodeGenDiagnostics Model.Rust Model.Emit Model.Expand.
From Verif Require Import Spec.Values Spec.Substitution Spec.Macro Spec.MacroPanic Spec.Diagnostics Spec.CodeGenDiagnostics Spec.EmittedCode Spec.Places Spec.Expansion.
From Verif Require Import Proofs.WP Proofs.VocabProofs Proofs.IndexedProofs Proofs.IndexedBuild Proofs.IndexedFinal Proofs.GenCode Proofs.Macro Proofs.MacroTotal Proofs.MacroMain.
From Verif Require Import Proofs.Diagnostics Proofs.CodeGenDiagnostics Proofs.CodeGenReports Proofs.EmitMain Proofs.Places Proofs.ExpandMain Proofs.Parts Proofs.RedundantMacro.
From Verif Require Import Spec.Meaning Spec.Reordering Proofs.Meaning Proofs.MeaningMain Proofs.TestGrammars Proofs.ReorderedValues.
Import ListNotations.
Open Scope string_scope.
Open Scope list_scope.

Section Macro.
Context {bm : BuildMode} {span : Type} (call_site : span) (join_spans : span -> span -> option span) (print : list ttree -> string)
  (lex_error : string -> string) (literal_ok : string -> bool) (ho : hash_orders) (Ho : orders_ok ho).
Notation items_of ts := (sp_tokenize_from_stream span join_spans ts).
Notation read ts := (sp_parse_declarations span call_site join_spans print (stream_new span (items_of ts))).

(** With good rules and terminals, an item is emitted if there is a table. *)
Lemma good_item fuel ts vis d p : parse_declarations print (tokenize_from_stream (trees ts)) = Ok d -> parser_new fuel (source (d_rules d)) = Ok p ->
  root_unused (d_rules d) -> (forall r, In r (d_rules d) -> good_rule r) -> (forall s, terminal_in (d_rules d) s -> good_terminal literal_ok (d_terminal_type d) s) ->
  exists em, sp_build_grammar span call_site join_spans print lex_error literal_ok ho fuel ts vis = Ok em.
Proof.
  intros P Hp Ru Gr Gt. pose proof (expand_same call_site join_spans print lex_error literal_ok ho fuel ts vis Ho) as S.
  assert (Pg : exists n et gi, parse_grammar print fuel (tokenize_from_stream (trees ts)) = Ok (n, et, gi))
    by (rewrite parse_grammar_new, P; cbn [bind]; rewrite Hp; cbn [lift_lr bind]; eauto).
  destruct Pg as (n & et & gi & Pg). pose proof (grammar_accepted print fuel _ _ _ gi Pg) as A.
  pose proof (grammar_parts print fuel _ _ _ gi Pg) as (d2 & P2 & Et & _ & Er & _). rewrite P in P2. injection P2 as <-.
  pose proof (read_same call_site join_spans print ts) as R. rewrite P in R. destruct (read ts) as [dd|dg|w|] eqn:Rd; try contradiction.
  pose proof (rules_same call_site join_spans print fuel ts dd _ _ gi Rd Pg) as Es.
  assert (Nu : names_usable gi).
  { intros s Ht Hc. rewrite Er in Ht. specialize (Gt s Ht). rewrite <- Et in Gt. unfold good_terminal in Gt.
    destruct (gi_terminal_type gi) as [ty|ty].
    - destruct Gt as [Gt _]. contradiction.
    - destruct (read_names print _ _ _ P Ht) as [Hi|[_ Hi]]; [assumption|contradiction]. }
  assert (Ru' : root_unused (gi_rules gi)) by now rewrite Er.
  destruct (generate_decides call_site lex_error literal_ok ho gi _ Es Ho A Nu Ru') as [[_ G] _].
  assert (Hn : forall d0, ~ reportable call_site lex_error literal_ok gi (map (srule_of span) (da_rules span dd)) d0).
  { intros d0 Rp. destruct Rp as [i r d0 _ Hr Hb|t ty d0 Ut Ty Hb].
    - apply (good_not_bad r d0); [|assumption]. apply Gr. rewrite <- Er, Es. apply in_map. eapply nth_error_In; eauto.
    - destruct Ut as (s & act & a' & _ & Ha & _). destruct (accepted_setup literal_ok gi A) as (F & ks & acts & gts & Hsu).
      apply (augmented_token_to_id_spec _ _ _ (wf_voc _ (ix_wf _ _ (su_ix _ _ _ _ _ Hsu)))) in Ha.
      destruct a' as [j| |]; simpl in Ha; try contradiction.
      pose proof (su_voc _ _ _ _ _ Hsu t j Ha) as Ht. rewrite Er in Ht. specialize (Gt t Ht). rewrite <- Et, Ty in Gt. destruct Gt as [G1 G2].
      destruct Hb; congruence. }
  destruct (G Hn) as [q Hq]. pose proof (report_same call_site lex_error literal_ok ho gi _ Es Ho A) as Sg. rewrite Hq in Sg.
  destruct (generate_parser literal_ok ho gi) as [p'| | |] eqn:Gp; try contradiction. subst p'.
  assert (B : build_grammar print literal_ok ho fuel (trees ts) = Ok q) by (unfold build_grammar; rewrite Pg; cbn [map_err bind]; now rewrite Gp).
  rewrite B in S. destruct (sp_build_grammar span call_site join_spans print lex_error literal_ok ho fuel ts vis); try contradiction. eauto.
Qed.

Lemma source_fewer (rs rs' : list prule) : fewer_declared rs' rs -> fewer_rules (source rs') (source rs).
Proof.
  intros (root & rest & rest' & dropped & -> & -> & Hp). unfold source. cbn [map].
  exists (to_lr_production_rule root), (map to_lr_production_rule rest), (map to_lr_production_rule rest'), (map to_lr_production_rule dropped).
  split; [reflexivity|]. split; [reflexivity|]. rewrite <- map_app. now apply Permutation_map.
Qed.

Lemma unused_source rs : root_unused rs -> forall r, nth_error (source rs) 0 = Some r -> ~ uses r (symbol r).
Proof.
  intros Hu r Hr Hi. destruct rs as [|pr rs]; [discriminate|]. injection Hr as <-. unfold uses in Hi. cbn in Hi.
  apply (Hu pr eq_refl). apply in_map_iff in Hi as (n & E & Hn). destruct n; cbn in E; try discriminate; try (injection E as ->; exact Hn).
Qed.

Lemma fewer_input fuel ts ts' d d' em : parse_declarations print (tokenize_from_stream (trees ts)) = Ok d ->
  parse_declarations print (tokenize_from_stream (trees ts')) = Ok d' -> fewer_declared (d_rules d') (d_rules d) ->
  first_complete (source (d_rules d)) ->
  Expand.grammar span call_site join_spans print lex_error literal_ok ho fuel ts = Ok (Item span em) \/
  pub_grammar span call_site join_spans print lex_error literal_ok ho fuel ts = Ok (Item span em) ->
  valid_grammar (source (d_rules d')) -> root_unused (d_rules d') ->
  (forall r, In r (d_rules d') -> good_rule r) -> (forall s, terminal_in (d_rules d') s -> good_terminal literal_ok (d_terminal_type d') s) ->
  exists N, forall fuel', N < fuel' -> exists em',
    Expand.grammar span call_site join_spans print lex_error literal_ok ho fuel' ts' = Ok (Item span em').
Proof.
  intros P P' Hf Hc H Hv Hu Gr Gt. destruct (item_parser call_site join_spans print lex_error literal_ok ho Ho _ _ _ H) as (d2 & p & P2 & Hp).
  rewrite P in P2. injection P2 as <-.
  destruct (fewer_accepted fuel _ _ p (trailing_source print _ _ P) Hc Hp (source_fewer _ _ Hf) Hv (unused_source _ Hu)) as (N & HN).
  exists N. intros fuel' Hl. destruct (HN fuel' Hl) as (p' & Hp'). destruct (good_item fuel' ts' Private d' p' P' Hp' Hu Gr Gt) as (em' & He).
  exists em'. unfold Expand.grammar. now rewrite He.
Qed.

Lemma fewer_terminal rs rs' s : fewer_declared rs' rs -> terminal_in rs' s -> terminal_in rs s.
Proof.
  intros (root & rest & rest' & dropped & -> & -> & Hp) (r & Hr & Hs). exists r. split; [|exact Hs]. destruct Hr as [<-|Hr]; [now left|right].
  apply (Permutation_in _ (Permutation_sym Hp)). apply in_or_app. auto.
Qed.
End Macro.

Lemma fewer_in_rules rs rs' r : fewer_declared rs' rs -> In r rs' -> In r rs.
Proof.
  intros (root & rest & rest' & dropped & -> & -> & Hp) [<-|Hr]; [now left|right].
  apply (Permutation_in _ (Permutation_sym Hp)). apply in_or_app. auto.
Qed.

Lemma fewer_numbered rs rs' : fewer_declared rs' rs -> exists f, numbered_in f rs' rs.
Proof.
  intros (root & rest & rest' & dropped & -> & -> & Hp). apply Permutation_nth_error in Hp as (_ & f & _ & Hf).
  exists (fun i => match i with 0 => 0 | S i => S (f i) end). split; [reflexivity|].
  intros [|i] r Hr; [exact Hr|]. simpl in *. rewrite <- Hf. rewrite nth_error_app1; [exact Hr|]. apply nth_error_Some. congruence.
Qed.

Lemma part_means (R : rust) f gi gi' toks v : gi_terminal_type gi' = gi_terminal_type gi -> numbered_in f (gi_rules gi') (gi_rules gi) ->
  input_means (renumber f R) gi' toks v -> input_means R gi toks v.
Proof.
  intros Ht (H0 & Hf). destruct R as [A B C D dec lit pat uc d].
  apply (input_moved A B C D dec lit pat (fun i => uc (f i)) uc (fun i => d (f i)) d gi' gi Ht).
  intros i r Hi. exists (f i). split; [now apply Hf|]. split; [intros ->; exact H0|]. intros vars. unfold rule_value. rewrite (Hf i r Hi), Hi. reflexivity.
Qed.

Lemma value_once {E SErr} (R : rust) (m : Rust.result (E := E) (SErr := SErr) R) v v' : gives_value R m v -> gives_value R m v' -> v = v'.
Proof. intros (st & ->) (st' & H). injection H as _ H. exact H. Qed.
Lemma value_no_error {E SErr} (R : rust) (m : Rust.result (E := E) (SErr := SErr) R) v e : gives_value R m v -> gives_error R m e -> False.
Proof. intros (st & ->) (st' & H). injection H as _ H. discriminate. Qed.

Section Values.
Context {bm : BuildMode} {span : Type} (call_site : span) (join_spans : span -> span -> option span) (print : list ttree -> string)
  (lex_error : string -> string) (literal_ok : string -> bool) (ho ho' : hash_orders) (Ho : orders_ok ho) (Ho' : orders_ok ho').
Local Notation grammar := (Expand.grammar span call_site join_spans print lex_error literal_ok).
Local Notation pub_grammar := (Expand.pub_grammar span call_site join_spans print lex_error literal_ok).

Lemma fewer_values fuel fuel' ts ts' em em' d d' f :
  reads_as print (trees ts) d -> reads_as print (trees ts') d' ->
  d_terminal_type d' = d_terminal_type d -> fewer_declared (d_rules d') (d_rules d) -> numbered_in f (d_rules d') (d_rules d) ->
  defaults_bound (d_rules d) -> hygienic_rules (d_rules d) -> first_complete (bm := bm) (source (d_rules d)) -> first_complete (bm := bm) (source (d_rules d')) ->
  grammar ho fuel ts = Ok (Item span em) \/ pub_grammar ho fuel ts = Ok (Item span em) ->
  grammar ho' fuel' ts' = Ok (Item span em') \/ pub_grammar ho' fuel' ts' = Ok (Item span em') ->
  exists C, forall (bmr : BuildMode) (E : Type) (R : rust) (SErr : Type) (into : SErr -> UErr R) bv, describes R SErr bv -> depends_on_named R SErr bv ->
  forall gi toks steps, gi_terminal_type gi = d_terminal_type d -> gi_rules gi = d_rules d -> unambiguous_tokens R gi toks -> C * S (List.length toks) <= steps ->
  forall v : val R,
  gives_value (renumber f R) (run_emitted (bm := bmr) (renumber f R) into (of_list toks) (fun i => bv (f i)) steps em' : Rust.result (E := E) (renumber f R)) v ->
  gives_value R (run_emitted (bm := bmr) R into (of_list toks) bv steps em : Rust.result (E := E) R) v.
Proof.
  intros Rd Rd' Tt Hf Hnum Db Hy Fc Fc' It It'.
  assert (Db' : defaults_bound (d_rules d')) by (intros r ty Hr; apply Db; eapply fewer_in_rules; eauto).
  assert (Hy' : hygienic_rules (d_rules d')) by (intros r x t y z Hr; eapply Hy, fewer_in_rules; eauto).
  destruct (macros_mean call_site join_spans print lex_error literal_ok ho Ho fuel ts em d Rd Db Hy Fc It) as (gi1 & C1 & Gt1 & Gr1 & H1).
  destruct (macros_mean call_site join_spans print lex_error literal_ok ho' Ho' fuel' ts' em' d' Rd' Db' Hy' Fc' It') as (gi2 & C2 & Gt2 & Gr2 & H2).
  exists (C1 + C2). intros bmr E R SErr into bv De Dn gi toks steps Gt Gr Hu Hs v Hv.
  assert (T : gi_terminal_type gi2 = gi_terminal_type gi1) by congruence.
  assert (Nu : numbered_in f (gi_rules gi2) (gi_rules gi1)) by congruence.
  assert (Hu1 : unambiguous_tokens R gi1 toks) by (apply (unambiguous_same R gi gi1); congruence || exact Hu).
  assert (Hu2 : unambiguous_tokens (renumber f R) gi2 toks).
  { intros k s s' Hk Hs1 Hs2 Hm Hm'. rewrite Gr2 in Hs1, Hs2. apply (fewer_terminal _ _ _ Hf) in Hs1, Hs2. rewrite <- Gr1 in Hs1, Hs2. apply (Hu1 k s s' Hk Hs1 Hs2).
    - rewrite <- Hm. unfold sym_matches. rewrite T. reflexivity.
    - rewrite <- Hm'. unfold sym_matches. rewrite T. reflexivity. }
  rewrite Nat.mul_add_distr_r in Hs. assert (Hs2 : C2 * S (List.length toks) <= steps) by lia.
  destruct (H1 bmr E R SErr into bv De Dn toks steps Hu1 ltac:(lia)) as (O1 & _).
  assert (De' : describes (renumber f R) SErr (fun i => bv (f i))) by (intros i body vars; exact (De (f i) body vars)).
  assert (Dn' : depends_on_named (renumber f R) SErr (fun i => bv (f i))) by (intros i body e e' He; exact (Dn (f i) body e e' He)).
  destruct (H2 bmr E (renumber f R) SErr into (fun i => bv (f i)) De' Dn' toks steps Hu2 Hs2) as (O2 & _).
  destruct O2 as [(v2 & M2 & G2)|(_ & e & _ & Ge)]; [|destruct (value_no_error _ _ _ _ Hv Ge)].
  rewrite <- (value_once _ _ _ _ Hv G2) in M2. apply (part_means R f gi1 gi2 toks v T Nu) in M2.
  destruct O1 as [(v1 & M1 & G1)|(Nv & _)]; [|destruct (Nv _ M2)].
  rewrite (macros_unique call_site join_spans print lex_error literal_ok ho Ho fuel ts em d Rd Db Fc It R gi1 toks v v1); auto.
Qed.
End Values.
