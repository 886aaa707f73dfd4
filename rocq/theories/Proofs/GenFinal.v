(** The generated parser: what its runs compute. *)
From Coq Require Import Arith Bool String NArith List Lia Permutation.
From Verif Require Import Base.Prelude Spec.Grammar Spec.Validity Spec.Nullable Spec.Observers Spec.States Model.Error.
From Verif Require Import Model.BitSet Model.FixedMap Model.Vocabulary Model.IndexedGrammar Model.FirstMap.
From Verif Require Import Model.Position Model.Closure Model.LRTable Model.StateMap Model.ParseSimulator.
From Verif Require Import Model.TokenTree Model.Terminal Model.Constructor Model.CodeGen Model.Runtime Spec.Values.
From Verif Require Import Proofs.WP Proofs.BitSetProofs Proofs.FixedMapProofs Proofs.VocabProofs.
From Verif Require Import Proofs.IndexedProofs Proofs.IndexedBuild Proofs.IndexedMain Proofs.FirstProofs.
From Verif Require Import Proofs.ClosureProofs Proofs.ItemSets Proofs.TableProofs Proofs.TableBuild.
From Verif Require Import Proofs.Fuel Proofs.Machine Proofs.ParserFinal Proofs.RecognitionFinal Proofs.IndexedFinal Proofs.LR1Proofs Proofs.LR1Final Proofs.StatesFinal Proofs.TableFinal Proofs.StateMapFinal Proofs.GenTable Proofs.ConstructorProofs Proofs.GenCode Proofs.GenRun Proofs.GenPath.
Import ListNotations.

(** Runs read the stream only as far as they have called [next]. *)
Section Reading.
Context {bm : BuildMode} {E : Type} (R : rust) {SErr : Type}.
Variable into : SErr -> UErr R.
Variables input input' : nat -> option (tok R + SErr).
Variable p : program.
Variable N : nat.
Hypothesis Hagree : forall i, i < N -> input i = input' i.
Local Notation pstate := (pstate (SErr := SErr) R).
Local Notation calls st := (s_calls R (st_stream R st)).

Lemma exec_binds_stream bs : forall (st : pstate) vars st' vars', exec_binds (E := E) R bs st vars = Ok (st', vars') -> st_stream R st' = st_stream R st.
Proof.
  induction bs as [|b bs IH]; simpl; intros st vars st' vars' Hx; [injection Hx as <- <-; auto|].
  unfold pop_state in Hx. destruct (st_stack R st) as [|s rest]; [discriminate|]. cbn [bind] in Hx.
  destruct (extract R b s) as [v| | |]; try discriminate. cbn [bind] in Hx. apply IH in Hx. exact Hx.
Qed.

Lemma exec_ctor_stream i c vars (st : pstate) st' v : exec_ctor (E := E) R i c vars st = Ok (st', v) -> st_stream R st' = st_stream R st.
Proof. unfold exec_ctor. destruct (eval_ctor R i c vars); simpl; try discriminate. intros Hx. injection Hx as <- <-. auto. Qed.

Lemma exec_goto_stream gc v (st : pstate) st' : exec_goto (E := E) R gc v st = Ok st' -> st_stream R st' = st_stream R st.
Proof.
  destruct gc as [nx|arms]; simpl; [intros Hx; injection Hx as <-; auto|]. destruct (state R st) as [s| | |]; simpl; try discriminate.
  destruct (goto_arm arms (fst s)); try discriminate. intros Hx; injection Hx as <-; auto.
Qed.

Lemma exec_reduce_stream r (st : pstate) st' c : exec_reduce (E := E) R r st = Ok (st', c) -> st_stream R st' = st_stream R st.
Proof.
  unfold exec_reduce. destruct (exec_binds R (r_binds r) st []) as [[st1 vars]| | |] eqn:H1; simpl; try discriminate.
  destruct (exec_ctor R (r_rule r) (r_ctor r) vars st1) as [[st2 v]| | |] eqn:H2; simpl; try discriminate.
  apply exec_binds_stream in H1. apply exec_ctor_stream in H2. destruct v as [v|e].
  - destruct (exec_goto R (r_goto r) v st2) as [st3| | |] eqn:H3; simpl; try discriminate. apply exec_goto_stream in H3. intros Hx; injection Hx as <- <-. congruence.
  - intros Hx; injection Hx as <- <-. congruence.
Qed.

Lemma exec_accept_stream a (st : pstate) st' c : exec_accept (E := E) R a st = Ok (st', c) -> st_stream R st' = st_stream R st.
Proof.
  unfold exec_accept. destruct (exec_binds R (a_binds a) st []) as [[st1 vars]| | |] eqn:H1; simpl; try discriminate.
  destruct (verify_empty_stack R st1); simpl; try discriminate.
  destruct (exec_ctor R (a_rule a) (a_ctor a) vars st1) as [[st2 v]| | |] eqn:H2; simpl; try discriminate.
  apply exec_binds_stream in H1. apply exec_ctor_stream in H2. destruct v as [v|e]; intros Hx; injection Hx as <- <-; congruence.
Qed.

Lemma exec_match_ext c o (st st' : pstate) ctl : exec_match (E := E) R input c o st = Ok (st', ctl) ->
  calls st <= calls st' /\ (calls st' <= N -> exec_match (E := E) R input' c o st = Ok (st', ctl)).
Proof.
  unfold exec_match. destruct (find_shift R (sc_shift c) o) as [[[nx rhs] b]|].
  - destruct (eval_rhs R rhs b) as [tk| | |]; cbn [bind]; try discriminate. unfold advance.
    destruct (debug_assert _ _); cbn [bind]; try discriminate. intros Hx. injection Hx as <- <-. simpl. split; [lia|].
    intros Hn. rewrite (Hagree (calls st)) by lia. reflexivity.
  - destruct (find_reduce R (sc_reduce c) o) as [r|].
    + intros Hx. rewrite (exec_reduce_stream _ _ _ _ Hx). auto.
    + destruct (sc_accept c) as [[m a]|]; [destruct (matches R o m)|]; intros Hx.
      * rewrite (exec_accept_stream _ _ _ _ Hx). auto.
      * injection Hx as <- <-. auto.
      * injection Hx as <- <-. auto.
Qed.

Lemma exec_state_ext c (st st' : pstate) ctl : exec_state (E := E) R into input c st = Ok (st', ctl) ->
  calls st <= calls st' /\ (calls st' <= N -> exec_state (E := E) R into input' c st = Ok (st', ctl)).
Proof.
  unfold exec_state. destruct (peek_next R (st_stream R st)) as [[k|e]|]; [|intros Hx; injection Hx as <- <-; auto|apply exec_match_ext].
  destruct (sc_check c) as [ms|]; [|apply exec_match_ext].
  destruct (debug_assertions && _); [intros Hx; injection Hx as <- <-; auto|apply exec_match_ext].
Qed.

Definition state_in (x : pstate + pstate * (val R + parser_error R)) : pstate := match x with inl st => st | inr (st, _) => st end.

Lemma loop_step_ext (st : pstate) x : loop_step (E := E) R into input p st = Ok x ->
  calls st <= calls (state_in x) /\ (calls (state_in x) <= N -> loop_step (E := E) R into input' p st = Ok x).
Proof.
  unfold loop_step. destruct (state R st) as [s| | |]; cbn [bind]; try discriminate.
  destruct (index (p_states p) (fst s)) as [c| | |]; cbn [bind]; try discriminate.
  destruct (exec_state R into input c st) as [[st1 ctl]| | |] eqn:H1; cbn [bind]; try discriminate.
  intros Hx. apply exec_state_ext in H1 as (A & B). assert (Hs : state_in x = st1) by (destruct ctl; injection Hx as <-; reflexivity).
  rewrite Hs. split; auto. intros Hn. rewrite (B Hn). cbn [bind]. exact Hx.
Qed.

Lemma run_ext fuel : forall (st : pstate) st' r, while_loop fuel (loop_step (E := E) R into input p) st = Ok (st', r) ->
  calls st <= calls st' /\ (calls st' <= N -> while_loop fuel (loop_step (E := E) R into input' p) st = Ok (st', r)).
Proof.
  induction fuel as [|fuel IH]; simpl; intros st st' r Hx; [discriminate|].
  destruct (loop_step R into input p st) as [x| | |] eqn:H1; cbn [bind] in Hx; try discriminate. apply loop_step_ext in H1 as (A & B).
  destruct x as [st1|[st1 r1]]; simpl in A, B.
  - apply IH in Hx as (C & D). split; [lia|]. intros Hn. rewrite B by lia. cbn [bind]. auto.
  - injection Hx as <- <-. split; auto. intros Hn. rewrite B by lia. reflexivity.
Qed.
End Reading.

(** [parse] is [parse_fallible] on a stream without errors. *)
Section Infallible.
Context {bm : BuildMode} {E : Type} (R : rust) {S1 S2 : Type}.
Variable into1 : S1 -> UErr R.
Variable into2 : S2 -> UErr R.
Variable input : nat -> option (tok R).
Variable p : program.
Local Notation in1 := (fun n => option_map (@inl (tok R) S1) (input n)).
Local Notation in2 := (fun n => option_map (@inl (tok R) S2) (input n)).

Record alike (st1 : pstate (SErr := S1) R) (st2 : pstate (SErr := S2) R) : Prop := mk_alike {
  ak_stack : st_stack R st1 = st_stack R st2;
  ak_log : st_log R st1 = st_log R st2;
  ak_calls : s_calls R (st_stream R st1) = s_calls R (st_stream R st2);
  ak_next : exists o, s_next R (st_stream R st1) = option_map inl o /\ s_next R (st_stream R st2) = option_map inl o;
}.

Definition both {A B} (P : A -> B -> Prop) (x : outcome E A) (y : outcome E B) : Prop :=
  match x, y with
  | Ok a, Ok b => P a b
  | Err a, Err b => a = b
  | Panic a, Panic b => a = b
  | Diverge, Diverge => True
  | _, _ => False
  end.

Lemma both_bind {A B C D} (P : A -> B -> Prop) (Q : C -> D -> Prop) x y f h : both P x y -> (forall a b, P a b -> both Q (f a) (h b)) ->
  both Q (bind x f) (bind y h).
Proof. destruct x, y; simpl; tauto || auto. Qed.

Lemma both_refl {A} (x : outcome E A) : both eq x x.
Proof. destruct x; simpl; auto. Qed.

Definition alike2 {C} (x : pstate (SErr := S1) R * C) (y : pstate (SErr := S2) R * C) : Prop := alike (fst x) (fst y) /\ snd x = snd y.

Lemma binds_alike bs : forall st1 st2 vars, alike st1 st2 -> both alike2 (exec_binds R bs st1 vars) (exec_binds R bs st2 vars).
Proof.
  induction bs as [|b bs IH]; simpl; intros st1 st2 vars [A B C D]; [split; [constructor|]; auto|]. unfold pop_state. rewrite A.
  destruct (st_stack R st2) as [|s rest]; simpl; auto. destruct (extract R b s); simpl; auto. apply IH. constructor; auto.
Qed.

Lemma ctor_alike i c vars st1 st2 : alike st1 st2 -> both alike2 (exec_ctor R i c vars st1) (exec_ctor R i c vars st2).
Proof. unfold exec_ctor. intros [A B C D]. destruct (eval_ctor R i c vars); simpl; auto. split; auto. constructor; auto. simpl. congruence. Qed.

Lemma push_alike s st1 st2 : alike st1 st2 -> alike (push R s st1) (push R s st2).
Proof. intros [A B C D]. constructor; auto. simpl. congruence. Qed.

Lemma goto_alike gc v st1 st2 : alike st1 st2 -> both alike (exec_goto R gc v st1) (exec_goto R gc v st2).
Proof.
  intros H. destruct gc as [nx|arms]; simpl; [apply push_alike; auto|]. unfold state. rewrite (ak_stack _ _ H).
  destruct (hd_error (st_stack R st2)) as [s|]; simpl; auto. destruct (goto_arm arms (fst s)); simpl; auto. apply push_alike; auto.
Qed.

Lemma reduce_alike r st1 st2 : alike st1 st2 -> both alike2 (exec_reduce R r st1) (exec_reduce R r st2).
Proof.
  intros H. unfold exec_reduce. eapply both_bind; [apply binds_alike; eauto|]. intros [s1 v1] [s2 v2] (H1 & He). simpl in H1, He. subst v2.
  eapply both_bind; [apply ctor_alike; eauto|]. intros [s3 v3] [s4 v4] (H2 & He). simpl in H2, He. subst v4.
  destruct v3 as [v|e]; [|split; auto]. eapply both_bind; [apply goto_alike; eauto|]. intros; split; auto.
Qed.

Lemma accept_alike a st1 st2 : alike st1 st2 -> both alike2 (exec_accept R a st1) (exec_accept R a st2).
Proof.
  intros H. unfold exec_accept. eapply both_bind; [apply binds_alike; eauto|]. intros [s1 v1] [s2 v2] (H1 & He). simpl in H1, He. subst v2.
  eapply (both_bind eq); [unfold verify_empty_stack; rewrite (ak_stack _ _ H1); apply both_refl|]. intros _ _ _.
  eapply both_bind; [apply ctor_alike; eauto|]. intros [s3 v3] [s4 v4] (H2 & He). simpl in H2, He. subst v4. destruct v3; split; auto.
Qed.

Lemma match_alike c o st1 st2 : alike st1 st2 -> both alike2 (exec_match R in1 c o st1) (exec_match R in2 c o st2).
Proof.
  intros H. unfold exec_match. destruct (find_shift R (sc_shift c) o) as [[[nx rhs] b]|].
  - destruct (eval_rhs R rhs b); cbn [bind]; simpl; auto. unfold advance. destruct (ak_next _ _ H) as (o' & A & B). rewrite A, B.
    eapply (both_bind (fun s1 s2 => alike (mk_pstate R s1 (st_stack R st1) (st_log R st1)) (mk_pstate R s2 (st_stack R st2) (st_log R st2)))).
    + eapply (both_bind eq); [destruct o'; apply both_refl|]. intros _ _ _. simpl. destruct H as [HA HB HC HD]. constructor; auto; simpl; [congruence|].
      exists (input (s_calls R (st_stream R st2))). rewrite HC. auto.
    + intros s1 s2 H2. split; auto. apply push_alike; auto.
  - destruct (find_reduce R (sc_reduce c) o); [apply reduce_alike; auto|].
    destruct (sc_accept c) as [[m a]|]; [destruct (matches R o m); [apply accept_alike; auto|]|]; split; auto.
Qed.

Lemma state_alike c st1 st2 : alike st1 st2 -> both alike2 (exec_state R into1 in1 c st1) (exec_state R into2 in2 c st2).
Proof.
  intros H. unfold exec_state, peek_next. destruct (ak_next _ _ H) as (o & -> & ->). destruct o as [k|]; simpl; [|apply match_alike; auto].
  destruct (sc_check c) as [ms|]; [|apply match_alike; auto]. destruct (debug_assertions && _); [split; auto|apply match_alike; auto].
Qed.

Lemma step_alike st1 st2 : alike st1 st2 ->
  both (fun x y => match x, y with inl a, inl b => alike a b | inr a, inr b => alike2 a b | _, _ => False end)
    (loop_step R into1 in1 p st1) (loop_step R into2 in2 p st2).
Proof.
  intros H. unfold loop_step. unfold state. rewrite (ak_stack _ _ H). destruct (expect (hd_error (st_stack R st2)) _) as [s| | |]; cbn [bind]; try reflexivity; try exact I.
  destruct (index (p_states p) (fst s)) as [c| | |]; cbn [bind]; try reflexivity; try exact I.
  eapply both_bind; [apply state_alike; eauto|]. intros [s1 c1] [s2 c2] (H1 & He). simpl in H1, He. subst c2. destruct c1; simpl; auto; split; auto.
Qed.

Lemma run_alike fuel : forall st1 st2, alike st1 st2 ->
  both alike2 (while_loop fuel (loop_step R into1 in1 p) st1) (while_loop fuel (loop_step R into2 in2 p) st2).
Proof.
  induction fuel as [|fuel IH]; intros st1 st2 H; simpl; auto. eapply both_bind; [apply step_alike; eauto|].
  intros [a|a] [b|b] Hab; try tauto; auto.
Qed.

Lemma parse_alike fuel : both alike2 (parse_fallible R into1 in1 fuel p) (parse_fallible R into2 in2 fuel p).
Proof. apply run_alike. constructor; auto. simpl. eauto. Qed.

Lemma parse_observed fuel : observed (parse_fallible (E := E) R into1 in1 fuel p) = observed (parse_fallible (E := E) R into2 in2 fuel p).
Proof.
  pose proof (parse_alike fuel) as H. destruct (parse_fallible R into1 in1 fuel p) as [[s1 r1]| | |], (parse_fallible R into2 in2 fuel p) as [[s2 r2]| | |]; simpl in *; try tauto; try congruence.
  destruct H as ([A B C D] & He). simpl in *. congruence.
Qed.
End Infallible.

Lemma app_nth_mid {A} (u : list A) x v : nth_error (u ++ x :: v) (length u) = Some x.
Proof. rewrite nth_error_app2 by lia. rewrite Nat.sub_diag. reflexivity. Qed.

(** Trees with the same shape and leaves. *)
Lemma tmap_leaves {A B} (f : A -> B) : forall d : tree A, leaves (tmap f d) = map f (leaves d).
Proof.
  fix IH 1. intros [a|i ds]; simpl; auto. induction ds as [|d ds IHd]; simpl; auto. rewrite map_app, <- IHd, IH. reflexivity.
Qed.

Lemma tmap_leaves_inj {A B} (f : A -> B) : forall d1 d2 : tree A, tmap f d1 = tmap f d2 -> leaves d1 = leaves d2 -> d1 = d2.
Proof.
  fix IH 1. intros [a|i ds1] [b|j ds2]; simpl; try discriminate; [intros _ He; injection He as ->; reflexivity|].
  intros Hm Hl. injection Hm as -> Hm. f_equal. revert ds2 Hm Hl. induction ds1 as [|d1 ds1 IHd]; intros [|d2 ds2] Hm Hl; simpl in *; try discriminate; auto.
  injection Hm as H1 H2. assert (Hlen : length (leaves d1) = length (leaves d2)).
  { apply (f_equal leaves) in H1. rewrite !tmap_leaves in H1. apply (f_equal (@length _)) in H1. rewrite !map_length in H1. exact H1. }
  apply app_inv_length in Hl as (L1 & L2); auto. f_equal; [apply IH; auto|apply IHd; auto].
Qed.

(** Successful evaluation runs every constructor of the tree. *)
Lemma eval_postorder R gi : forall (d : dtree R) log v, eval R gi d = (log, inl v) -> map fst log = postorder d.
Proof.
  fix IH 1. intros [[s k]|i ds] log v He; simpl in *; [injection He as <- _; reflexivity|].
  destruct (in_order R (map (eval R gi) ds)) as [lg [vs|e]] eqn:Hd; [|discriminate]. injection He as <- _. rewrite map_app. simpl. f_equal.
  revert lg vs Hd. induction ds as [|d ds IHd]; simpl; intros lg vs Hd; [injection Hd as <- _; reflexivity|].
  destruct (eval R gi d) as [l1 [v1|e1]] eqn:H1; [|discriminate]. destruct (in_order R (map (eval R gi) ds)) as [l2 [v2|e2]] eqn:H2; [|discriminate].
  injection Hd as <- <-. rewrite map_app. f_equal; [eapply IH; eauto|eapply IHd; eauto].
Qed.

Lemma eval_some R gi : constructors_succeed R gi -> forall d : dtree R, exists log v, eval R gi d = (log, inl v).
Proof.
  intros Hc. fix IH 1. intros [[s k]|i ds]; simpl; [eauto|].
  assert (Hd : exists log vs, in_order R (map (eval R gi) ds) = (log, inl vs)).
  { induction ds as [|d ds (l2 & v2 & IHd)]; simpl; [eauto|]. destruct (IH d) as (l1 & v1 & H1). rewrite H1, IHd. eauto. }
  destruct Hd as (log & vs & ->). destruct (Hc i (combine (indices_of gi i) vs)) as (v & ->). eauto.
Qed.

Lemma accepted_setup_first {bm : BuildMode} gi : accepted gi -> exists F ks acts gts, setup gi F ks acts gts /\ (first_complete (source (gi_rules gi)) -> Fclosed (gi_grammar gi) F).
Proof.
  intros Hacc. destruct (accepted_setup (fun _ => true) gi Hacc) as (_ & _ & _ & _ & [Hix Hei Hge Heos _ _ Hvoc Hty]).
  destruct Hacc as [(f1 & H1) (f2 & H2) _ _]. destruct (table_built _ _ _ f1 f2 H1 H2) as (_ & F & ks & acts & gts & HF & HFb & Hok).
  exists F, ks, acts, gts. split; [constructor; auto|]. eapply first_complete_fuel; eauto.
Qed.

Lemma generated_ok {bm : BuildMode} literal_ok ho gi F ks acts gts p : setup gi F ks acts gts -> orders_ok ho ->
  generate_parser literal_ok ho gi = Ok p -> program_ok literal_ok gi acts gts p.
Proof.
  intros Hsu Hho Hg. pose proof (generate_wp literal_ok ho gi Hho True (or_introl I) (or_introl I) F ks acts gts Hsu) as Hw. rewrite Hg in Hw. exact Hw.
Qed.

Section Main.
Context {bm : BuildMode} {E : Type}.
Variable literal_ok : string -> bool.
Variable R : rust.
Variable gi : grammar_info.
Variable F : first_table.
Variable ks : list kernel.
Variable acts : nat -> aug nat -> option action.
Variable gts : nat -> nat -> option nat.
Hypothesis Hsu : setup gi F ks acts gts.
Variable prog : program.
Hypothesis Hprog : program_ok literal_ok gi acts gts prog.
Hypothesis Hdef : defaults_bound (gi_rules gi).
Local Notation g := (source (gi_rules gi)).
Local Notation ig := (gi_grammar gi).
Local Notation t := (gi_table gi).
Local Notation arel := (aug_rel (ivocab ig)).
Local Notation vstk := (vstk acts gts).
Local Notation istack := (istack R).
Local Notation bare := (bare R).
Local Notation toks := (toks R).
Local Notation forest := (forest R).
Local Notation kstep := (kstep literal_ok R gi acts gts).
Local Notation kpath := (kpath literal_ok R gi acts gts).
Local Notation kaccept := (kaccept R acts).
Local Notation kblocked := (kblocked R gi acts).
Local Notation single := (single R gi acts).
Local Notation item_ok := (item_ok literal_ok R gi).
Local Notation reads := (reads R gi).
Let Hix := su_ix _ _ _ _ _ Hsu.
Let Heps := su_eps _ _ _ _ _ Hsu.
Let Heos := su_eos _ _ _ _ _ Hsu.
Let HF := su_first _ _ _ _ _ Hsu.
Let Hok := su_ok _ _ _ _ _ Hsu.
Let Hwf := ix_wf _ _ Hix.

Lemma item_well_formed x : item_ok x -> well_formed R gi (snd x).
Proof.
  intros [(nd & _ & D) Hl]. split; [|exists (to_lr_node nd); exact D]. intros s k Hin. rewrite Forall_forall in Hl. apply (Hl _ Hin).
Qed.

Lemma forest_well_formed stk : Forall item_ok stk -> Forall (well_formed R gi) (forest stk).
Proof.
  intros Hi. rewrite forest_rev. apply Forall_rev in Hi. induction Hi; simpl; constructor; auto. apply item_well_formed; auto.
Qed.

Lemma holds_shows d v : holds R gi d v -> shows R gi d v.
Proof. destruct d as [[s k]|i ds]; auto. intros (lg & He). unfold shows. rewrite He. reflexivity. Qed.

Section Input.
Context {SErr : Type}.
Variable into : SErr -> UErr R.
Variable input : nat -> option (tok R + SErr).
Local Notation rel := (rel literal_ok R gi acts gts input).
Local Notation next_is := (next_is R input).
Local Notation kmove := (kmove literal_ok R gi acts gts input).
Local Notation kmoves := (kmoves literal_ok R gi acts gts input).
Local Notation kresult := (kresult literal_ok R gi acts gts into input).
Local Notation log_of := (log_of R gi).
Local Notation run fuel := (parse_fallible (E := E) R into input fuel prog).

Lemma run_cases fuel : run fuel = Diverge \/
  exists st res stk, run fuel = Ok (st, res) /\ kmoves [] stk /\ kresult stk res (st_log R st) /\
    st_stream R st = mk_stream R (S (length (toks stk))) (input (length (toks stk))) /\
    vstk (bare stk) /\ Forall item_ok stk /\ starts input (toks stk).
Proof.
  apply (run_exec (E := E) literal_ok R gi F ks acts gts Hsu prog Hprog Hdef into input). apply (rel_new literal_ok R gi acts gts prog Hprog).
Qed.

(** The states passed through. *)
Lemma visits_rel st : visits R into input prog st -> exists stk, rel st stk.
Proof.
  induction 1 as [|st st' _ (stk & IH) Hs]; [exists []; apply (rel_new literal_ok R gi acts gts prog Hprog)|].
  destruct (step_exec (E := unit) literal_ok R gi F ks acts gts Hsu prog Hprog Hdef into input _ _ IH) as [(s1 & k1 & E1 & _ & R1)|(s1 & r1 & E1 & _)]; rewrite E1 in Hs; [|discriminate].
  injection Hs as <-. eauto.
Qed.

Lemma log_postorder stk : (forall d, In d (forest stk) -> exists v, has_value R gi d v) -> map fst (log_of stk) = flat_map postorder (forest stk).
Proof.
  unfold GenRun.log_of. induction (forest stk) as [|d ds IH]; simpl; intros Hv; auto. rewrite map_app, IH by auto. f_equal.
  destruct (Hv d) as (v & lg & He); auto. rewrite He. simpl. eapply eval_postorder; eauto.
Qed.

Lemma front_values stk front : front_ok R gi stk front -> forall d, In d (forest stk) -> exists v, has_value R gi d v.
Proof.
  intros Hf d. rewrite forest_rev, map_rev, <- in_rev. induction Hf as [|x sv stk front (_ & Hh) _ IH]; simpl; [tauto|].
  intros [<-|Hin]; auto. destruct (holds_value _ _ _ _ Hh) as (v & Hv). eauto.
Qed.

Lemma removelast_snoc {A} (l : list A) x : removelast (l ++ [x]) = l.
Proof. apply removelast_last. Qed.

Lemma rel_visible st stk : rel st stk -> exists ds,
  Forall (well_formed R gi) ds /\ starts input (tokens_of R ds) /\
  st_stream R st = mk_stream R (S (length (tokens_of R ds))) (input (length (tokens_of R ds))) /\
  Forall2 (shows R gi) ds (rev (map snd (removelast (st_stack R st)))) /\
  map fst (st_log R st) = flat_map postorder ds.
Proof.
  intros Hr. exists (forest stk). destruct (rl_stack _ _ _ _ _ _ _ _ Hr) as (front & Hf & Hst).
  split; [apply forest_well_formed; apply (rl_items _ _ _ _ _ _ _ _ Hr)|].
  split; [exact (rl_input _ _ _ _ _ _ _ _ Hr)|]. split; [apply (rl_stream _ _ _ _ _ _ _ _ Hr)|]. split.
  - rewrite Hst, removelast_snoc, forest_rev, map_rev. clear -Hf. induction Hf as [|x sv stk front (_ & Hh) _ IH]; simpl; [constructor|].
    apply Forall2_app; auto. constructor; auto. apply holds_shows; auto.
  - rewrite (rl_log _ _ _ _ _ _ _ _ Hr). apply log_postorder. eapply front_values; eauto.
Qed.

Lemma run_value fuel st v : run fuel = Ok (st, inl v) -> exists ts d, starts input ts /\ input (length ts) = None /\ s_calls R (st_stream R st) = S (length ts) /\
  parses_tokens R gi ts d /\ eval R gi d = (st_log R st, inl v).
Proof.
  intros Hx. destruct (run_cases fuel) as [Hd|(st' & res & stk & Hr & _ & Hk & Hs & Hv & Hi & Hin)]; [congruence|]. rewrite Hx in Hr. injection Hr as <- <-.
  inversion Hk as [| | |log res B1 B2 B3 HH|]; subst. destruct res as [v'|e]; [|discriminate]. injection HH as ->.
  destruct (accept_tree literal_ok R gi F ks acts gts Hsu _ Hv Hi B2) as (Hp & _).
  exists (toks stk), (Node 0 (forest stk)). split; auto. split; [exact B1|]. rewrite Hs. auto.
Qed.

(** Overlapping patterns. *)
Lemma expects_iff q s : q < num_states t -> (expects gi q s <-> exists i x, tok_rel ig s i /\ acts q (Token i) = Some x).
Proof.
  intros Hq. unfold expects. split.
  - intros (a & x & Ha & Hg). apply (proj1 (augmented_token_to_id_spec _ _ _ (wf_voc _ Hwf))) in Ha as Hr. destruct a as [i| |]; simpl in Hr; try tauto.
    exists i, x. split; auto. rewrite (get_action_ok (E := unit) ig F t ks acts gts Hok _ _ Hq) in Hg; [congruence|].
    unfold vocab_size, label_id. simpl. assert (i < length (id_map (ivocab ig))) by (apply nth_error_Some; congruence). lia.
  - intros (i & x & Hr & Ha). exists (Token i), x. split; [apply (proj2 (augmented_token_to_id_spec _ _ _ (wf_voc _ Hwf))); exact Hr|].
    rewrite (get_action_ok (E := unit) ig F t ks acts gts Hok _ _ Hq); [congruence|].
    unfold vocab_size, label_id. simpl. assert (i < length (id_map (ivocab ig))) by (apply nth_error_Some; unfold tok_rel in Hr; congruence). lia.
Qed.

Lemma overlap_iff stk k : vstk (bare stk) ->
  (overlap R gi acts stk k <-> exists s s', s <> s' /\ expects gi (top (bare stk)) s /\ expects gi (top (bare stk)) s' /\ sym_matches R gi s k = true /\ sym_matches R gi s' k = true).
Proof.
  intros Hv. pose proof (ParserFinal.vstk_bound ig F t ks acts gts Hok _ Hv) as Hb. split.
  - intros (sy & sy' & i & i' & x & x' & Hne & A1 & B1 & A2 & B2 & A3 & B3). exists sy, sy'. split; auto.
    split; [apply expects_iff; eauto|]. split; [apply expects_iff; eauto|]. auto.
  - intros (sy & sy' & Hne & A1 & B1 & A3 & B3). apply expects_iff in A1 as (i & x & A1 & A2); auto. apply expects_iff in B1 as (i' & x' & B1 & B2); auto.
    exists sy, sy', i, i', x, x'. auto 10.
Qed.

Lemma rel_top st stk : rel st stk -> exists v rest, st_stack R st = (top (bare stk), v) :: rest.
Proof.
  intros Hr. destruct (rl_stack _ _ _ _ _ _ _ _ Hr) as (front & Hf & ->). destruct Hf as [|x [s v] stk front (Hs & _)]; simpl; [eauto|].
  destruct x as [[[s' X] tr] d]. simpl in *. subst. eauto.
Qed.

Lemma step_overlap st q v rest k : visits R into input prog st -> st_stack R st = (q, v) :: rest -> s_next R (st_stream R st) = Some (inl k) ->
  debug_assertions = true -> (exists ty, gi_terminal_type gi = TTEnum ty) ->
  ((exists st' , loop_step (E := E) R into input prog st = Ok (inr (st', inr (OverlappingTokenMatchers R k)))) <->
   exists s s', s <> s' /\ expects gi q s /\ expects gi q s' /\ sym_matches R gi s k = true /\ sym_matches R gi s' k = true).
Proof.
  intros Hvis Hst Hn Hdb Hty. destruct (visits_rel _ Hvis) as (stk & Hr). destruct (rel_top _ _ Hr) as (v' & rest' & Htop). rewrite Hst in Htop. injection Htop as -> _ _.
  rewrite <- (overlap_iff _ _ (rl_vstk _ _ _ _ _ _ _ _ Hr)). rewrite (rl_stream _ _ _ _ _ _ _ _ Hr) in Hn. simpl in Hn.
  pose proof (step_exec (E := E) literal_ok R gi F ks acts gts Hsu prog Hprog Hdef into input _ _ Hr) as X1. split.
  - intros (st' & Hl). rewrite Hl in X1. destruct X1 as [(s1 & k1 & E1 & _)|(s1 & r1 & E1 & M1 & S1)]; [discriminate|]. injection E1 as <- <-.
    inversion M1 as [|k' ty' B1 B2 B3 B4 HH| |log res B1 B2 B3 HH|]; subst; auto. destruct res; discriminate.
  - intros Ho. destruct X1 as [(s1 & k1 & E1 & M1 & R1)|(s1 & r1 & E1 & M1 & S1)].
    + exfalso. destruct M1 as (o & x & rs & w & A1 & A2 & A3 & A4 & A5). unfold GenRun.next_is in *. rewrite Hn in A1. apply (option_inl_inj (Some k)) in A1. subst o. eapply A2; eauto.
    + exists s1. rewrite E1. f_equal. f_equal. f_equal. destruct M1 as [e' B1|k' ty' B1 B2 B3 B4|o' x' rs e' log' B1 B2 B3 B4|log' res' B1 B2 B3|o' B1 B2 B3]; unfold GenRun.next_is in *; rewrite Hn in B1.
      * discriminate.
      * injection B1 as ->. reflexivity.
      * apply (option_inl_inj (Some k)) in B1. subst o'. exfalso. eapply B2; eauto.
      * discriminate.
      * apply (option_inl_inj (Some k)) in B1. subst o'. exfalso. eapply B2; eauto.
Qed.
End Input.
End Main.
