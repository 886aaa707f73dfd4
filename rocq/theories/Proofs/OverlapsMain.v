(** What emitted parsers read, also when tokens stand for several terminals. *)
From Coq Require Import Arith Bool String List Lia.
From Verif Require Import Base.Prelude Spec.Grammar Spec.Validity Spec.Observers Spec.Nullable Spec.Values Spec.EmittedCode Spec.Meaning Spec.Overlaps.
From Verif Require Import Model.TokenTree Model.Terminal Model.Constructor Model.CodeGen Model.Runtime Model.Rust Model.Emit.
From Verif Require Import Model.Symbol Model.FrontEnd Model.Diagnostics Model.Expand.
From Verif Require Import Spec.Macro Spec.Diagnostics Spec.Expansion.
From Verif Require Import Proofs.Fuel Proofs.GenMain Proofs.EmitRun Proofs.EmitMain Proofs.StepsFinal Proofs.Meaning Proofs.MeaningMain Proofs.MacroMain Proofs.ExpandMain Proofs.Overlaps Proofs.GenExamples.
Import ListNotations.
Open Scope string_scope.
Open Scope list_scope.

Section Generated.
Context {bmg : BuildMode}.
Variable literal_ok : string -> bool.
Variable gi : grammar_info.
Variable p : program.
Hypothesis Hgen : generated (bm := bmg) literal_ok gi p.
Hypothesis Hfirst : first_complete (bm := bmg) (source (gi_rules gi)).
Hypothesis Hpr : productive (source (gi_rules gi)).

Theorem emitted_explained : hygienic_rules (gi_rules gi) ->
  exists C, forall (bm : BuildMode) (E : Type) (R : rust) (SErr : Type) (into : SErr -> UErr R) bv, describes R SErr bv -> depends_on_named R SErr bv ->
  forall vis name ety rt,
  let m input fuel := run_emitted R into input bv fuel (emit vis name ety (gi_terminal_type gi) rt p) : result (E := E) R in
  (forall input n fuel, (forall k, input n <> Some (inl k)) -> C * S n <= fuel ->
    exists r ds, explains R gi into input ds r /\ gives R (m input fuel) r) /\
  (forall toks t fuel, parses_tokens R gi toks t -> decided R gi (leaves t) -> C * S (List.length toks) <= fuel ->
    gives R (m (of_list toks) fuel) (match snd (Values.eval R gi t) with inl v => inl v | inr e => inr (UserError R e) end)).
Proof.
  intros Hh. destruct (generated_linear bmg literal_ok gi p Hgen) as (C & HC). exists C.
  intros bm E R SErr into bv H1 H2 vis name ety rt m.
  assert (Hrun : forall input n fuel, (forall k, input n <> Some (inl k)) -> C * S n <= fuel ->
    exists st r, parse_fallible (E := E) R into input fuel p = Ok (st, r) /\ gives R (m input fuel) r).
  { intros input n fuel Hn Hf. destruct (HC bm E R SErr into input n Hn (or_introl Hfirst) fuel Hf) as (st & r & Hr). exists st, r. split; auto.
    pose proof (@emitted_runs bmg literal_ok gi p bm E R SErr into input bv Hgen H1 H2 Hh vis name ety rt fuel) as Hs.
    unfold same_run in Hs. rewrite Hr in Hs. destruct Hs as (stack & Hs). destruct r; eexists; exact Hs. }
  split.
  - intros input n fuel Hn Hf. destruct (Hrun _ _ _ Hn Hf) as (st & r & Hr & Hm).
    destruct (generated_explained bmg literal_ok gi p Hgen Hfirst Hpr bm E R SErr into input fuel st r Hr) as (ds & He). eauto.
  - intros toks t fuel Ht Hd Hf. destruct (Hrun (of_list toks) (List.length toks) fuel) as (st & r & Hr & Hm); auto.
    { intros k. unfold of_list. rewrite (proj2 (nth_error_None toks (List.length toks))); [discriminate|lia]. }
    destruct (decided_sentences bmg literal_ok gi p Hgen Hfirst Hpr bm E R SErr into toks t Ht Hd) as (N & st' & HN & _).
    specialize (HN (S (N + fuel)) ltac:(lia)). rewrite (runs_longer R into (of_list toks) fuel (S (N + fuel)) p _ ltac:(lia) Hr) in HN. injection HN as _ <-. exact Hm.
Qed.
End Generated.

Section Macros.
Context {span : Type}.
Variable call_site : span.
Variable join_spans : span -> span -> option span.
Variable print : list ttree -> string.
Variable lex_error : string -> string.
Variable literal_ok : string -> bool.
Context {bm : BuildMode}.
Variable ho : hash_orders.
Hypothesis Ho : orders_ok ho.

Theorem macros_explained fuel ts em d : reads_as print (trees ts) d -> defaults_bound (d_rules d) -> hygienic_rules (d_rules d) ->
  first_complete (bm := bm) (source (d_rules d)) -> productive (source (d_rules d)) ->
  Expand.grammar span call_site join_spans print lex_error literal_ok ho fuel ts = Ok (Item span em) \/
  pub_grammar span call_site join_spans print lex_error literal_ok ho fuel ts = Ok (Item span em) ->
  exists gi C, gi_terminal_type gi = d_terminal_type d /\ gi_rules gi = d_rules d /\
  forall (bmr : BuildMode) (E : Type) (R : rust) (SErr : Type) (into : SErr -> UErr R) bv, describes R SErr bv -> depends_on_named R SErr bv ->
  let m input fuel' := run_emitted (bm := bmr) R into input bv fuel' em : Rust.result (E := E) R in
  (forall input n fuel', (forall k, input n <> Some (inl k)) -> C * S n <= fuel' ->
    exists r ds, explains (bm := bmr) R gi into input ds r /\ gives R (m input fuel') r) /\
  (forall toks t fuel', parses_tokens R gi toks t -> decided R gi (leaves t) -> C * S (List.length toks) <= fuel' ->
    gives R (m (of_list toks) fuel') (match snd (Values.eval R gi t) with inl v => inl v | inr e => inr (UserError R e) end)).
Proof.
  intros Rd Db Hy Fc Pr H. apply macros_item in H as [vis H]. destruct (expand_built (bm := bm) call_site join_spans print lex_error literal_ok ho fuel ts vis em Ho H) as (d' & p & P & Ne & B & ->).
  destruct (read_complete print _ _ Rd) as (d2 & P2 & Sm). rewrite P in P2. injection P2 as <-.
  destruct Sm as (En & Et & Ee & Er & _). rewrite <- En, <- Et, <- Ee, <- Er.
  destruct (macro_generated print literal_ok ho fuel _ p d Ho Rd Db B) as (gi & Gt & Gr & _ & Hg). rewrite <- Gr in Hy, Fc, Pr.
  destruct (emitted_explained literal_ok gi p Hg Fc Pr Hy) as (C & HC). exists gi, C. split; [assumption|]. split; [assumption|].
  rewrite <- Gt. intros bmr E R SErr into bv H1 H2. exact (HC bmr E R SErr into bv H1 H2 _ _ _ _).
Qed.
End Macros.

(** Tokens that stand for one terminal each are never doubtful. *)
Lemma derives_terminal gi ns w ts : derives (source (gi_rules gi)) ns w ts -> forall s, In s w ->
  In (Spec.Grammar.Terminal (Token s)) ns \/ terminal_in (gi_rules gi) s.
Proof.
  induction 1 as [|a ns w ts Hd IH|ns w ts Hd IH|i r ts1 w1 ns w2 ts2 Hi Hd1 IH1 Hd2 IH2]; intros s Hs.
  - destruct Hs.
  - destruct Hs as [->|Hs]; [left; now left|]. destruct (IH s Hs); [left; now right|now right].
  - destruct (IH s Hs); [left; now right|now right].
  - apply in_app_or in Hs. destruct Hs as [Hs|Hs]; [|destruct (IH2 s Hs); [left; now right|now right]].
    destruct (IH1 s Hs) as [H|H]; [|now right]. right. apply Meaning.source_inv in Hi. destruct Hi as (r0 & Hi & ->). cbn in H. apply in_map_iff in H. destruct H as (n & En & H).
    destruct n as [l|s'|]; try discriminate. injection En as ->. exists r0. split; [|exact H]. eapply nth_error_In; eauto.
Qed.

Lemma sentence_terminal gi us s : begin_sentence gi (us ++ [s]) -> terminal_in (gi_rules gi) s.
Proof.
  intros (vs & t & r & ts & H0 & Hd & _). rewrite <- app_assoc in Hd. destruct (derives_terminal _ _ _ _ Hd s) as [H|H]; [apply in_or_app; right; now left| |exact H].
  apply Meaning.source_inv in H0. destruct H0 as (r0 & Hi & ->). cbn in H. apply in_map_iff in H. destruct H as (n & En & H).
  destruct n as [l|s'|]; try discriminate. injection En as ->. exists r0. split; [|exact H]. eapply nth_error_In; eauto.
Qed.

Theorem unambiguous_decided R gi ts d : unambiguous_tokens R gi ts -> parses_tokens R gi ts d -> decided R gi (leaves d).
Proof.
  intros Hu (Ht & _) l1 s k l2 Hl (a & b & Hne & Ma & Mb & Ba & Bb). apply Hne. apply (Hu k); auto.
  - rewrite <- Ht, Hl, map_app. apply in_or_app. right. now left.
  - eapply sentence_terminal; eauto.
  - eapply sentence_terminal; eauto.
Qed.

(** Where tokens stand for one terminal each, parse errors for sentences cannot be
    explained. *)
Lemma same_reading R gi : forall ls ls' : list (user_symbol * tok R),
  (forall s k, In (s, k) ls -> sym_matches R gi s k = true /\ terminal_in (gi_rules gi) s) ->
  (forall s k, In (s, k) ls' -> sym_matches R gi s k = true /\ terminal_in (gi_rules gi) s) ->
  (forall i k, nth_error (map snd ls) i = Some k -> nth_error (map snd ls') i = Some k) ->
  unambiguous_tokens R gi (map snd ls') -> exists rest, ls' = ls ++ rest.
Proof.
  induction ls as [|[s k] ls IH]; intros ls' H H' Hi Hu; [exists ls'; reflexivity|].
  destruct ls' as [|[s' k'] ls']; [discriminate (Hi 0 k eq_refl)|]. pose proof (Hi 0 k eq_refl) as Hk. injection Hk as ->.
  assert (s = s') as <-.
  { destruct (H s k (or_introl eq_refl)), (H' s' k (or_introl eq_refl)). apply (Hu k); auto. now left. }
  destruct (IH ls') as (rest & ->).
  - intros s0 k0 H0. apply H. now right.
  - intros s0 k0 H0. apply H'. now right.
  - intros i k0 Hi0. exact (Hi (S i) k0 Hi0).
  - intros k0 a b Hin. apply Hu. now right.
  - exists rest. reflexivity.
Qed.

Lemma all_terminals gi w : language (source (gi_rules gi)) w -> Forall (terminal_in (gi_rules gi)) w.
Proof.
  intros Hl. apply Forall_forall. intros s Hs. apply in_split in Hs. destruct Hs as (l1 & l2 & ->). apply (sentence_terminal gi l1). exists l2. now rewrite <- app_assoc.
Qed.

Theorem sentence_unexplained {bm : BuildMode} R gi {SErr} (into : SErr -> UErr R) ts d ds o : unambiguous_tokens R gi ts -> parses_tokens R gi ts d ->
  ~ explains R gi into (of_list ts) ds (inr (ParseError R o)).
Proof.
  intros Hu (Ht & Hm & Hp) (Hw & Hs & (vs & Hb) & _ & Hc & Hn). specialize (Hn _ eq_refl).
  assert (Hl : language (source (gi_rules gi)) (map fst (leaves d))) by (eexists; exact Hp).
  pose proof (all_terminals gi _ Hl) as Hld. pose proof (all_terminals gi _ Hb) as Hlb. apply Forall_app in Hlb. destruct Hlb as (Hlb & _).
  rewrite Forall_forall in Hld, Hlb.
  destruct (same_reading R gi (flat_map leaves ds) (leaves d)) as (rest & Hr).
  - intros s k Hin. split.
    + apply in_flat_map in Hin. destruct Hin as (d' & H1 & H2). rewrite Forall_forall in Hw. destruct (Hw d' H1) as (H3 & _). now apply H3.
    + apply Hlb. unfold reading. apply (in_map fst) in Hin. exact Hin.
  - intros s k Hin. split; [now apply Hm|]. apply Hld. apply (in_map fst) in Hin. exact Hin.
  - intros i k Hi. specialize (Hs i k Hi). unfold of_list in Hs. rewrite Ht. destruct (nth_error ts i) as [k'|]; [|discriminate]. now injection Hs as ->.
  - now rewrite Ht.
  - assert (Ho : nth_error ts (List.length (Values.tokens_of R ds)) = o).
    { inversion Hc as [o' _ Hx Hy| | |]. subst. unfold of_list in Hx. destruct (nth_error _ _), o; cbn in Hx; try discriminate; [|reflexivity]. injection Hx as Hx. now rewrite Hx. }
    rewrite Hr in Hl. rewrite <- Ht, Hr in Ho. rewrite map_app in Ho. unfold Values.tokens_of in Ho. rewrite nth_error_app2, Nat.sub_diag in Ho by lia.
    destruct rest as [|[s k] rest]; cbn in Ho; subst o; cbn [no_way_on] in Hn.
    + apply Hn. rewrite app_nil_r in Hl. exact Hl.
    + apply (Hn s).
      * apply Hm. rewrite Hr. apply in_or_app. right. now left.
      * exists (map fst rest). unfold reading. rewrite map_app in Hl. cbn in Hl. rewrite <- app_assoc. exact Hl.
Qed.

Theorem decided_rejected (bmg bm : BuildMode) : exists gi p (R : rust) ts d st t, generated (bm := bmg) all_literals gi p /\
  productive (source (gi_rules gi)) /\ parses_tokens R gi ts d /\ decided R gi (leaves d) /\
  (forall fuel, 60 <= fuel -> parse_fallible (bm := bm) (E := unit) (SErr := UErr R) R (fun e => e) (of_list ts) fuel p = Ok (st, inr (ParseError R (Some t)))) /\
  forall ds, ~ explains (bm := bm) R gi (fun e : UErr R => e) (of_list ts) ds (inr (ParseError R (Some t))).
Proof.
  destruct (first_rejects bmg bm) as (gi & p & R & ts & d & st & t & H1 & H2 & H3 & H4 & H5 & _).
  exists gi, p, R, ts, d, st, t. split; [exact H1|]. split; [exact H4|]. split; [exact H3|]. split; [eapply unambiguous_decided; eauto|]. split; [exact H5|].
  intros ds. eapply sentence_unexplained; eauto.
Qed.
