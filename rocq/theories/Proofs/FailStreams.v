(** Emitted parsers whose streams fail (C68). *)
From Coq Require Import Arith Bool String Ascii NArith List Lia.
From Verif Require Import Base.Prelude Spec.Grammar Spec.Observers Spec.Values Spec.Nullable Spec.EmittedCode Spec.Meaning Spec.FailingStreams.
From Verif Require Import Model.TokenTree Model.Terminal Model.Constructor Model.CodeGen Model.Runtime Model.Rust Model.Emit.
From Verif Require Import Model.Symbol Model.FrontEnd Model.Diagnostics Model.Expand.
From Verif Require Import Spec.Macro Spec.Diagnostics Spec.Expansion.
From Verif Require Import Proofs.Fuel Proofs.FirstProofs Proofs.GenRun Proofs.GenFinal Proofs.GenLang Proofs.GenMain Proofs.EmitRun Proofs.EmitMain Proofs.StepsFinal Proofs.Meaning Proofs.Causes Proofs.FailMain Proofs.MacroMain Proofs.ExpandMain Proofs.MeaningMain.
Import ListNotations.
Open Scope string_scope.
Open Scope list_scope.

Section Generated.
Context {bmg : BuildMode}.
Variable literal_ok : string -> bool.
Variable gi : grammar_info.
Variable p : program.
Hypothesis Hgen : generated (bm := bmg) literal_ok gi p.
Hypothesis Hfirst : Observers.first_complete (bm := bmg) (source (gi_rules gi)).

Section Stream.
Context {bm : BuildMode} {E : Type}.
Variable R : rust.
Context {SErr : Type}.
Variable into : SErr -> UErr R.
Variable toks : list (tok R).
Variable e : SErr.
Variable rest : nat -> option (tok R + SErr).
Hypothesis Hu : unambiguous_tokens R gi toks.
Local Notation stream := (of_list_then toks e rest).
Local Notation run input fuel := (parse_fallible (E := E) R into input fuel p).

Lemma stream_agrees i : i < List.length toks -> (of_list toks : nat -> option (tok R + SErr)) i = stream i.
Proof. intros Hi. unfold of_list_then, of_list. apply Nat.ltb_lt in Hi. now rewrite Hi. Qed.

Lemma within_run u : fails_within R gi toks u -> exists N st, (forall fuel, N < fuel -> run stream fuel = Ok (st, inr (UserError R u))) /\
  s_calls R (st_stream R st) <= List.length toks.
Proof.
  intros (n & rs & Hn & Hf & Hb). destruct (generated_setup literal_ok gi p Hgen) as (F & ks & acts & gts & Hsu & Hfc & Hd & Hp).
  destruct (run_fails_at (E := E) literal_ok R gi F ks acts gts Hsu p (Hp _ p Hgen) Hd into toks u n rs (Hfc Hfirst) Hu ltac:(lia) Hf Hb) as (N & st & HN & Hc).
  exists N, st. split; [|lia]. intros fuel Hfu. apply (run_agree R into p (of_list toks) stream (List.length toks) stream_agrees fuel st _ (HN fuel Hfu)); lia.
Qed.

Lemma stream_viable fuel st r : productive (source (gi_rules gi)) -> run stream fuel = Ok (st, r) -> s_calls R (st_stream R st) = S (List.length toks) -> begins_sentence R gi toks.
Proof.
  intros Hpr Hr Hc. destruct (generated_setup literal_ok gi p Hgen) as (F & ks & acts & gts & Hsu & Hfc & Hd & Hp).
  destruct (run_cases (E := E) literal_ok R gi F ks acts gts Hsu p (Hp _ p Hgen) Hd into stream fuel) as [He|(st' & r' & stk & He & Hm & Hk & Hs & Hv & Hi & Hst)]; [congruence|].
  rewrite Hr in He. injection He as <- <-. rewrite Hs in Hc. cbn [s_calls] in Hc. injection Hc as Hc.
  replace toks with (GenRun.toks R stk); [exact (viable literal_ok R gi F ks acts gts Hsu stk Hpr Hv Hi)|].
  apply nth_error_ext. intros i. destruct (le_lt_dec (List.length toks) i) as [Hle|Hlt].
  - rewrite (proj2 (nth_error_None toks i) Hle). apply nth_error_None. lia.
  - destruct (nth_error (GenRun.toks R stk) i) as [k|] eqn:Ek; [|apply nth_error_None in Ek; lia]. pose proof (Hst _ _ Ek) as Hx. rewrite <- (stream_agrees i Hlt) in Hx.
    unfold of_list in Hx. destruct (nth_error toks i); [|discriminate]. cbn in Hx. congruence.
Qed.

Lemma stream_right fuel st r : productive (source (gi_rules gi)) -> run stream fuel = Ok (st, r) -> exists err, r = inr err /\ right_stream_error R gi toks (into e) err.
Proof.
  intros Hpr Hr. destruct (main_stream_error literal_ok gi R p Hgen into toks e rest fuel st r Hr) as (Hle & (err & ->) & Hlast & Hearly & _).
  exists err. split; [reflexivity|].
  assert (Hwithin : forall u, fails_within R gi toks u -> err = UserError R u /\ s_calls R (st_stream R st) <= List.length toks).
  { intros u Hx. destruct (within_run u Hx) as (N & st' & HN & Hc). specialize (HN (S (N + fuel)) ltac:(lia)).
    rewrite (runs_longer R into stream fuel (S (N + fuel)) p _ ltac:(lia) Hr) in HN. injection HN as -> ->. auto. }
  destruct (Nat.eq_dec (s_calls R (st_stream R st)) (S (List.length toks))) as [Hc|Hc].
  - specialize (Hlast Hc). injection Hlast as ->.
    right. split; [intros u Hx; destruct (Hwithin u Hx); lia|]. right. split; [reflexivity|]. eapply stream_viable; eauto.
  - assert (Hr' : run (of_list toks) fuel = Ok (st, inr err)).
    { apply Hearly; [lia|]. intros i a Ha. unfold of_list. now rewrite Ha. }
    pose proof (error_right literal_ok gi p Hgen Hfirst bm E R SErr into toks fuel st err Hpr Hu Hr') as He.
    destruct He as [(u & -> & _)|(n & H1 & -> & H2 & H3 & H4)].
    + left. exists u. split; [reflexivity|]. destruct (generated_setup literal_ok gi p Hgen) as (F & ks & acts & gts & Hsu & Hfc & Hd & Hp).
      destruct (error_fails_at (E := E) literal_ok R gi F ks acts gts Hsu p (Hp _ p Hgen) Hd into toks fuel st u Hpr Hr') as (n & rs & K1 & K2 & K3 & K4).
      exists n, rs. split; [lia|auto].
    + right. split; [intros u Hx; destruct (Hwithin u Hx); discriminate|]. left.
      destruct (nth_error toks n) as [k|] eqn:Ek.
      * exists n, k. repeat split; auto. apply H4. apply nth_error_Some. congruence.
      * exfalso. destruct (@main_error bmg literal_ok gi bm E R p Hgen SErr into (of_list toks) fuel st None Hr') as (u & K1 & K2 & K3 & _).
        unfold of_list in K2. destruct (nth_error toks (List.length u)) eqn:Eu; [discriminate|]. apply nth_error_None in Eu. lia.
Qed.
End Stream.

Theorem emitted_streams : hygienic_rules (gi_rules gi) ->
  exists C, forall (bm : BuildMode) (E : Type) (R : rust) (SErr : Type) (into : SErr -> UErr R) bv, describes R SErr bv -> depends_on_named R SErr bv ->
  forall vis name ety rt toks e rest fuel, unambiguous_tokens R gi toks -> C * S (List.length toks) <= fuel ->
  let m := run_emitted R into (of_list_then toks e rest) bv fuel (emit vis name ety (gi_terminal_type gi) rt p) : result (E := E) R in
  (exists err, (productive (source (gi_rules gi)) -> right_stream_error R gi toks (into e) err) /\ gives_error R m err) /\
  (forall u, fails_within R gi toks u -> gives_error R m (UserError R u)).
Proof.
  intros Hh. destruct (generated_linear bmg literal_ok gi p Hgen) as (C & HC). exists C.
  intros bm E R SErr into bv H1 H2 vis name ety rt toks e rest fuel Hu Hf m.
  assert (Hn : forall k, of_list_then toks e rest (List.length toks) <> Some (inl k)).
  { intros k. unfold of_list_then. now rewrite Nat.ltb_irrefl, Nat.eqb_refl. }
  destruct (HC bm E R SErr into (of_list_then toks e rest) (List.length toks) Hn (or_introl Hfirst) fuel Hf) as (st & r & Hr).
  pose proof (@emitted_runs bmg literal_ok gi p bm E R SErr into (of_list_then toks e rest) bv Hgen H1 H2 Hh vis name ety rt fuel) as Hs.
  unfold same_run in Hs. rewrite Hr in Hs. destruct Hs as (stack & Hs). fold m in Hs. split.
  - destruct (main_stream_error literal_ok gi R p Hgen into toks e rest fuel st r Hr) as (_ & (err & ->) & _). exists err. split; [|eexists; exact Hs].
    intros Hpr. destruct (stream_right R into toks e rest Hu fuel st _ Hpr Hr) as (err' & He & H). now injection He as ->.
  - intros u Hx. destruct (within_run (E := E) R into toks e rest Hu u Hx) as (N & st' & HN & _). specialize (HN (S (N + fuel)) ltac:(lia)).
    rewrite (runs_longer R into (of_list_then toks e rest) fuel (S (N + fuel)) p _ ltac:(lia) Hr) in HN. injection HN as _ ->. eexists. exact Hs.
Qed.
End Generated.

Section Macros.
Context {span : Type}.
Variable call_site : span.
Variable join_spans : span -> span -> option span.
Variable print : list ttree -> string.
Variable lex_error : string -> string.
Variable literal_ok : string -> bool.
Context {bm : BuildMode}.
Variable ho : hash_orders.
Hypothesis Ho : orders_ok ho.

Theorem macros_streams fuel ts em d : reads_as print (trees ts) d -> defaults_bound (d_rules d) -> hygienic_rules (d_rules d) ->
  first_complete (bm := bm) (source (d_rules d)) ->
  Expand.grammar span call_site join_spans print lex_error literal_ok ho fuel ts = Ok (Item span em) \/
  pub_grammar span call_site join_spans print lex_error literal_ok ho fuel ts = Ok (Item span em) ->
  exists gi C, gi_terminal_type gi = d_terminal_type d /\ gi_rules gi = d_rules d /\
  forall (bmr : BuildMode) (E : Type) (R : rust) (SErr : Type) (into : SErr -> UErr R) bv, describes R SErr bv -> depends_on_named R SErr bv ->
  forall toks e rest fuel', unambiguous_tokens R gi toks -> C * S (List.length toks) <= fuel' ->
  let m := run_emitted (bm := bmr) R into (of_list_then toks e rest) bv fuel' em : Rust.result (E := E) R in
  (exists err, (productive (source (gi_rules gi)) -> right_stream_error R gi toks (into e) err) /\ gives_error R m err) /\
  (forall u, fails_within R gi toks u -> gives_error R m (UserError R u)).
Proof.
  intros Rd Db Hy Fc H. apply macros_item in H as [vis H]. destruct (expand_built (bm := bm) call_site join_spans print lex_error literal_ok ho fuel ts vis em Ho H) as (d' & p & P & Ne & B & ->).
  destruct (read_complete print _ _ Rd) as (d2 & P2 & Sm). rewrite P in P2. injection P2 as <-.
  destruct Sm as (En & Et & Ee & Er & _). rewrite <- En, <- Et, <- Ee, <- Er.
  destruct (macro_generated print literal_ok ho fuel _ p d Ho Rd Db B) as (gi & Gt & Gr & _ & Hg). rewrite <- Gr in Hy, Fc.
  destruct (emitted_streams literal_ok gi p Hg Fc Hy) as (C & HC). exists gi, C. split; [assumption|]. split; [assumption|].
  rewrite <- Gt. intros bmr E R SErr into bv H1 H2 toks e rest fuel' Hu Hf. exact (HC bmr E R SErr into bv H1 H2 _ _ _ _ toks e rest fuel' Hu Hf).
Qed.
End Macros.
