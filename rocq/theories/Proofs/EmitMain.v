(** Emitted code of generated programs. *)
From Coq Require Import Arith Bool String Ascii NArith List Lia.
From Verif Require Import Base.Prelude Spec.Grammar Spec.Values Spec.Substitution Spec.EmittedCode.
From Verif Require Import Model.IndexedGrammar Model.LRTable Model.TokenTree Model.Terminal Model.Constructor Model.CodeGen Model.Runtime Model.Rust Model.Emit.
From Verif Require Model.TableText Spec.Observers.
From Verif Require Import Proofs.WP Proofs.Substitution Proofs.EmitRun Proofs.GenMain Proofs.GrammarText.
Import ListNotations.
Open Scope string_scope.
Open Scope list_scope.

(** ** Generated programs are regular *)
Lemma mapM_from {E A B} (f : A -> outcome E B) l ys y : mapM f l = Ok ys -> In y ys -> exists x, In x l /\ f x = Ok y.
Proof.
  intros H. apply mapM_iff in H. induction H as [|a b l ys Hf H IH]; intros Hi; [destruct Hi|].
  destruct Hi as [<-|Hi]; [exists a; split; auto; now left|]. destruct (IH Hi) as (x & H1 & H2). exists x. split; auto. now right.
Qed.

Lemma matcher_token literal_ok tt s m : token_matcher literal_ok tt (Token s) Unnamed = Ok m -> of_token m = true.
Proof. cbn [token_matcher]. unfold try_build_matcher. destruct (try_build_pattern literal_ok tt s Unnamed); cbn [bind]; intros H; inversion H. reflexivity. Qed.

Lemma matcher_unnamed literal_ok tt t m : token_matcher literal_ok tt t Unnamed = Ok m -> binds_nothing m = true.
Proof.
  destruct t as [s| |]; cbn [token_matcher]; [|try discriminate; intros H; inversion H; reflexivity..].
  unfold try_build_matcher, try_build_pattern. destruct tt.
  - destruct (as_literal literal_ok s); cbn [bind]; intros H; inversion H. reflexivity.
  - unfold as_pattern. destruct (as_ident s); cbn [bind]; intros H; inversion H. destruct (sparen s); reflexivity.
Qed.

Ltac step H := match type of H with
  | bind ?m _ = Ok _ => let x := fresh "x" in let Hx := fresh "Hx" in destruct m as [x| | |] eqn:Hx; cbn [bind] in H; [|discriminate H..]
  end.

Lemma generated_regular {bm : BuildMode} literal_ok ho gi p : generate_parser literal_ok ho gi = Ok p -> regular p.
Proof.
  unfold generate_parser. intros H. step H. step H. step H. step H. inversion H; subst p; clear H. intros c Hc. cbn [p_states] in Hc.
  destruct (mapM_from _ _ _ _ Hx2 Hc) as (q & _ & Hq). unfold generate_state_action_function in Hq.
  step Hq. step Hq. step Hq. step Hq. step Hq. inversion Hq; subst c; clear Hq. constructor; cbn [sc_check sc_reduce sc_accept].
  - intros ms m -> Hm. unfold debug_check_token_conflict in Hx4. destruct (gi_terminal_type gi); [discriminate|].
    destruct (filter _ _) as [|t ts] eqn:Hf; [discriminate|]. step Hx4. inversion Hx4; subst.
    destruct (mapM_from _ _ _ _ Hx8 Hm) as (tk & Hi & Ht). rewrite <- Hf in Hi. apply filter_In in Hi as [_ Hi]. destruct tk; try discriminate.
    eapply matcher_token. exact Ht.
  - intros ms r m Hi Hm. unfold reduce_match_and_return in Hx5. destruct (mapM_from _ _ _ _ Hx5 Hi) as ([rid toks] & _ & Hr).
    step Hr. step Hr. step Hr. destruct x10 as [bs ns]. step Hr. destruct x10 as [ct gt]. inversion Hr; subst.
    destruct (mapM_from _ _ _ _ Hx8 Hm) as (tk & _ & Ht). eapply matcher_unnamed. exact Ht.
  - intros m a ->. unfold accept_match_and_return in Hx6. destruct (accept x3) as [tk|]; [|discriminate].
    step Hx6. step Hx6. step Hx6. destruct x9 as [bs ns]. step Hx6. step Hx6. inversion Hx6; subst. eapply matcher_unnamed. eassumption.
Qed.

(** ** Hygiene *)
Lemma internal_not_argument x i : In x internal_names -> x <> argument_name i.
Proof. intros [<-|[<-|[]]] H; discriminate H. Qed.

Lemma substituted_mentions nodes ts body : substituted nodes ts body -> forall x, In x internal_names ->
  forall t, In t (map body_text body) -> mentions x t -> exists t', In t' ts /\ mentions x t'.
Proof.
  induction 1 as [|name i ts body H1 H2 IH|text n nd ts body H1 H2 H3 H4 IH|d ts body ts1 body1 H1 IH1 H2 IH2|t ts body H1 H2 H3 IH];
    intros x Hx t0 Ht Hm; cbn [map] in Ht.
  - destruct Ht.
  - destruct Ht as [<-|Ht].
    + exfalso. cbn [body_text] in Hm. apply (internal_not_argument x i Hx). inversion Hm. reflexivity.
    + destruct (IH x Hx t0 Ht Hm) as (t' & Hi & Hm'). exists t'. split; auto. right. now right.
  - destruct Ht as [<-|Ht].
    + exfalso. cbn [body_text] in Hm. apply (internal_not_argument x (N.to_nat n) Hx). inversion Hm. reflexivity.
    + destruct (IH x Hx t0 Ht Hm) as (t' & Hi & Hm'). exists t'. split; auto. right. now right.
  - destruct Ht as [<-|Ht].
    + cbn [body_text] in Hm. inversion Hm; subst. destruct (IH1 x Hx t H3 H4) as (t' & Hi & Hm').
      exists (TGroup d ts). split; [now left|]. econstructor; eauto.
    + destruct (IH2 x Hx t0 Ht Hm) as (t' & Hi & Hm'). exists t'. split; auto. now right.
  - destruct Ht as [<-|Ht].
    + exists t. split; [now left|exact Hm].
    + destruct (IH x Hx t0 Ht Hm) as (t' & Hi & Hm'). exists t'. split; auto. now right.
Qed.

Lemma ctor_of_built {bm : BuildMode} literal_ok gi ho p i c : accepted gi -> orders_ok ho -> generate_parser literal_ok ho gi = Ok p ->
  ctor_of p i c -> exists r, nth_error (gi_rules gi) i = Some r /\ build_constructor (gi_rules gi) i = Ok c.
Proof.
  intros Ha Ho Hg (sc & Hsc & H).
  assert (Hcons : exists bs, constructs p i bs c).
  { destruct H as [(ms & rc & H1 & H2 & H3)|(m & ac & H1 & H2 & H3)];
      [exists (r_binds rc)|exists (a_binds ac)]; exists sc; split; auto; [left; exists ms, rc|right; exists m, ac]; auto. }
  destruct Hcons as [bs Hb]. destruct (vars_bound literal_ok gi ho p Ha Ho Hg i bs c Hb) as (r & H1 & H2 & _). eauto.
Qed.

Lemma generated_hygienic {bm : BuildMode} literal_ok gi ho p : accepted gi -> orders_ok ho -> generate_parser literal_ok ho gi = Ok p ->
  hygienic_rules (gi_rules gi) -> hygienic p.
Proof.
  intros Ha Ho Hg Hr i body x t Hc Hx Ht Hm. destruct (ctor_of_built _ _ _ _ _ _ Ha Ho Hg Hc) as (r & Hn & Hb).
  unfold build_constructor, index in Hb. rewrite Hn in Hb. cbn [bind] in Hb. destruct (pr_block r) as [[d ts]|] eqn:Hbl.
  - destruct (rewrite_total (pr_nodes r) d ts) as [[-> _]|[_ He]]; [|rewrite Hb in He; discriminate].
    apply rewrite_ok in Hb. destruct (substituted_mentions _ _ _ Hb x Hx t Ht Hm) as (t' & Hi & Hm').
    exact (Hr r Brace ts x t' (nth_error_In _ _ Hn) Hbl Hx Hi Hm').
  - destruct (pr_type r); [|discriminate]. unfold generate_default_constructor in Hb. destruct (negb _); discriminate.
Qed.

Lemma hygienic_clean p : hygienic p -> forall c, In c (p_states p) -> clean_state c.
Proof.
  intros Hh c Hc. split.
  - intros ms r Hi body x t He Hx Ht. apply (Hh (r_rule r) body x t); auto. exists c. split; auto. left. exists ms, r. auto.
  - intros m a Hi body x t He Hx Ht. apply (Hh (a_rule a) body x t); auto. exists c. split; auto. right. exists m, a. auto.
Qed.

(** ** Main *)
Section Main.
Context {bmg : BuildMode} (literal_ok : string -> bool) (gi : grammar_info) (p : program).
Context {bm : BuildMode} {E : Type} (R : rust) {SErr : Type}.
Variable into : SErr -> UErr R.
Variable input : nat -> option (tok R + SErr).
Variable bv : nat -> list ttree -> (string -> option (rvalue (Raw R) (Pay R) (UVal R) (UErr R) SErr)) -> val R + UErr R.
Hypothesis Hgen : generated (bm := bmg) literal_ok gi p.
Hypothesis Hdesc : describes R SErr bv.
Hypothesis Hdep : depends_on_named R SErr bv.
Hypothesis Hhyg : hygienic_rules (gi_rules gi).

Lemma emitted_runs vis name ety rt fuel :
  same_run (parse_fallible (bm := bm) (E := E) R into input fuel p)
    (run_emitted R into input bv fuel (emit vis name ety (gi_terminal_type gi) rt p)).
Proof.
  destruct Hgen as (_ & ho & Ha & Ho & Hg). unfold run_emitted, emit. cbn [em_token em_fns em_param em_body].
  apply (body_ok R into input bv (inner_type (gi_terminal_type gi)) name ety Hdesc Hdep p).
  - exact (generated_regular (bm := bmg) literal_ok ho gi p Hg).
  - apply hygienic_clean. exact (generated_hygienic (bm := bmg) literal_ok gi ho p Ha Ho Hg Hhyg).
Qed.

Lemma result_value_ok (r : val R + parser_error R) (v : val R) : result_value (SErr := SErr) r = VCon ["Ok"] [VVal v] -> r = inl v.
Proof. destruct r as [v'|[[t|]|t|e]]; cbn; intros H; inversion H; reflexivity. Qed.

Lemma emitted_value vis name ety rt fuel st v :
  run_emitted R into input bv fuel (emit vis name ety (gi_terminal_type gi) rt p) = (Ok (st, FVal R (VCon ["Ok"] [VVal v])) : result (E := E) R) ->
  exists ts d, (forall n, n <= List.length ts -> input n = of_list ts n) /\ parses_tokens R gi ts d /\ snd (Values.eval R gi d) = inl v.
Proof.
  intros Hr. pose proof (emitted_runs vis name ety rt fuel) as Hs. rewrite Hr in Hs. unfold same_run in Hs.
  destruct (parse_fallible R into input fuel p) as [[st' r]|e|w|] eqn:Hp; try (destruct Hs; discriminate); try discriminate.
  destruct Hs as [stk Hs]. inversion Hs as [[H1 H2]]. symmetry in H2. apply result_value_ok in H2. subst r.
  destruct (main_value literal_ok gi R p Hgen into input fuel st' v Hp) as (ts & d & H3 & H4 & H5 & _). eauto.
Qed.

Lemma emitted_defined vis name ety rt fuel :
  let m := run_emitted R into input bv fuel (emit vis name ety (gi_terminal_type gi) rt p) : result (E := E) R in
  m = Diverge \/ exists st r, m = Ok (st, FVal R (result_value r)).
Proof.
  pose proof (emitted_runs vis name ety rt fuel) as Hs. cbv zeta. unfold same_run in Hs.
  destruct (main_defined literal_ok gi (E := E) R p Hgen into input fuel) as [Hd|(st & r & Hd)]; rewrite Hd in Hs; auto.
  destruct Hs as (stack & Hs). right. exists (Some (mk_machine R (st_stream R st) stack)), r. exact Hs.
Qed.
End Main.

Lemma emitted_sentence {bmg : BuildMode} literal_ok gi p {bm : BuildMode} {E : Type} (R : rust) {SErr : Type} (into : SErr -> UErr R)
  (bv : nat -> list ttree -> (string -> option (rvalue (Raw R) (Pay R) (UVal R) (UErr R) SErr)) -> val R + UErr R) :
  generated (bm := bmg) literal_ok gi p -> describes R SErr bv -> depends_on_named R SErr bv -> hygienic_rules (gi_rules gi) ->
  forall vis name ety rt ts d,
  Observers.first_complete (bm := bmg) (source (gi_rules gi)) -> unambiguous_tokens R gi ts -> parses_tokens R gi ts d ->
  exists N, forall fuel, N < fuel -> exists st,
    run_emitted R into (of_list ts) bv fuel (emit vis name ety (gi_terminal_type gi) rt p) =
    (Ok (st, FVal R (result_value (match snd (Values.eval R gi d) with inl v => inl v | inr e => inr (UserError R e) end))) : result (E := E) R).
Proof.
  intros Hgen Hdesc Hdep Hhyg vis name ety rt ts d Hf Hu Hp.
  destruct (main_sentence literal_ok gi (E := E) R p Hgen into ts d Hf Hu Hp) as (N & st & Hrun & _).
  exists N. intros fuel Hl. pose proof (emitted_runs literal_ok gi p (E := E) R into (of_list ts) bv Hgen Hdesc Hdep Hhyg vis name ety rt fuel) as Hs.
  rewrite (Hrun fuel Hl) in Hs. destruct Hs as [stack Hs]. eexists. exact Hs.
Qed.
