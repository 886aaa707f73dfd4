(** Runs of generated parsers on tokens that each stand for one terminal only:
    they end, and follow the LR machine. *)
From Coq Require Import Arith Bool String NArith List Lia Permutation.
From Verif Require Import Base.Prelude Spec.Grammar Spec.Validity Spec.Nullable Spec.Observers Spec.States Model.Error.
From Verif Require Import Model.BitSet Model.FixedMap Model.Vocabulary Model.IndexedGrammar Model.FirstMap.
From Verif Require Import Model.Position Model.Closure Model.LRTable Model.StateMap.
From Verif Require Import Model.TokenTree Model.Terminal Model.Constructor Model.CodeGen Model.Runtime Spec.Values.
From Verif Require Import Proofs.WP Proofs.BitSetProofs Proofs.FixedMapProofs Proofs.VocabProofs.
From Verif Require Import Proofs.IndexedProofs Proofs.IndexedBuild Proofs.IndexedMain Proofs.FirstProofs.
From Verif Require Import Proofs.ClosureProofs Proofs.ItemSets Proofs.TableProofs Proofs.TableBuild.
From Verif Require Import Proofs.Fuel Proofs.Machine Proofs.ParserFinal Proofs.RecognitionFinal Proofs.IndexedFinal Proofs.LR1Proofs Proofs.LR1Final Proofs.StatesFinal Proofs.TableFinal Proofs.StateMapFinal Proofs.GenTable Proofs.ConstructorProofs Proofs.GenCode Proofs.GenRun.
Import ListNotations.

Section Path.
Context {bm : BuildMode} {E : Type}.
Variable literal_ok : string -> bool.
Variable R : rust.
Variable gi : grammar_info.
Variable F : first_table.
Variable ks : list kernel.
Variable acts : nat -> aug nat -> option action.
Variable gts : nat -> nat -> option nat.
Hypothesis Hsu : setup gi F ks acts gts.
Variable prog : program.
Hypothesis Hprog : program_ok literal_ok gi acts gts prog.
Hypothesis Hdef : defaults_bound (gi_rules gi).
Local Notation g := (source (gi_rules gi)).
Local Notation ig := (gi_grammar gi).
Local Notation t := (gi_table gi).
Local Notation n := (num_states t).
Local Notation arel := (aug_rel (ivocab ig)).
Local Notation vstk := (vstk acts gts).
Local Notation istack := (istack R).
Local Notation bare := (bare R).
Local Notation toks := (toks R).
Local Notation forest := (forest R).
Local Notation kstep := (kstep literal_ok R gi acts gts).
Local Notation kaccept := (kaccept R acts).
Local Notation kblocked := (kblocked R gi acts).
Local Notation single := (single R gi acts).
Let Hix := su_ix _ _ _ _ _ Hsu.
Let Heps := su_eps _ _ _ _ _ Hsu.
Let Heos := su_eos _ _ _ _ _ Hsu.
Let HF := su_first _ _ _ _ _ Hsu.
Let Hok := su_ok _ _ _ _ _ Hsu.
Let Hwf := ix_wf _ _ Hix.

Inductive kpath : istack -> list (tok R) -> istack -> list (tok R) -> Prop :=
| kp_refl stk rem : kpath stk rem stk rem
| kp_step stk rem stk1 rem1 stk' rem' : kstep stk (hd_error rem) stk1 -> toks stk ++ rem = toks stk1 ++ rem1 ->
    kpath stk1 rem1 stk' rem' -> kpath stk rem stk' rem'.

Definition kfinal (stk : istack) (rem : list (tok R)) : Prop := (rem = [] /\ kaccept stk) \/ kblocked stk (hd_error rem).

Lemma kpath_trans a b c d e f : kpath a b c d -> kpath c d e f -> kpath a b e f.
Proof. induction 1; auto. intros. eapply kp_step; eauto. Qed.

Lemma kpath_toks a b c d : kpath a b c d -> toks a ++ b = toks c ++ d.
Proof. induction 1; auto. congruence. Qed.

Lemma kpath_inv a b c d : kpath a b c d -> vstk (bare a) -> Forall (item_ok literal_ok R gi) a -> vstk (bare c) /\ Forall (item_ok literal_ok R gi) c.
Proof.
  induction 1 as [|stk rem stk1 rem1 stk' rem' H1 H2 H3 IH]; auto. intros Hv Hi. apply IH.
  - eapply kstep_vstk; eauto.
  - eapply kstep_items; eauto.
Qed.

Lemma vstk_code stk : vstk stk -> exists c, nth_error (p_states prog) (top stk) = Some c /\ code_ok literal_ok gi acts gts (top stk) c.
Proof.
  intros Hv. pose proof (ParserFinal.vstk_bound ig F t ks acts gts Hok _ Hv) as Hb. destruct (po_states _ _ _ _ _ Hprog) as (Hl & Hc).
  rewrite <- Hl in Hb. apply nth_error_Some in Hb. destruct (nth_error (p_states prog) (top stk)) as [c|] eqn:Hx; [|congruence]. eauto.
Qed.

Lemma lift_shift stk sy i k s : vstk (bare stk) -> tok_rel ig sy i -> sym_matches R gi sy k = true -> acts (top (bare stk)) (Token i) = Some (Shift s) ->
  kstep stk (Some k) (((s, Terminal (Token i), Leaf i), Leaf (sy, k)) :: stk).
Proof.
  intros Hv Hr Hm Ha. destruct (vstk_code _ Hv) as (c & _ & Hc). destruct (co_shift_c _ _ _ _ _ _ Hc _ _ _ Hr Ha) as (p & rhs & _ & Hp & _).
  apply ks_shift; auto. split; eauto.
Qed.

Lemma lift_reduce stk o a a' s' : la_ok R gi a o = true -> arel a a' -> rstep ig acts gts a' (bare stk) s' ->
  exists stk', kstep stk o stk' /\ bare stk' = s' /\ toks stk' = toks stk.
Proof.
  intros Hl Hr (j & r & po & re & s & A & B & C & D & G & ->). apply map_eq_app in C as (po' & re' & -> & <- & <-).
  rewrite map_length in D. eexists. split; [|split]; [eapply (ks_reduce literal_ok R gi acts gts _ o a a' j r po' re' s); eauto| |].
  - rewrite (sbody_rule gi _ _ B). exact D.
  - reflexivity.
  - unfold GenRun.toks. rewrite forest_cons, flat_map_app, map_app, flat_map_one, forest_app, flat_map_app, map_app. reflexivity.
Qed.

Lemma lift_reduces a' s1 s2 : rsteps ig acts gts a' s1 s2 -> forall stk rem a, la_ok R gi a (hd_error rem) = true -> arel a a' -> bare stk = s1 ->
  exists stk', kpath stk rem stk' rem /\ bare stk' = s2 /\ toks stk' = toks stk.
Proof.
  induction 1 as [s|s1 s2 s3 H1 H2 IH]; intros stk rem a Hl Hr He.
  - exists stk. split; [constructor|auto].
  - subst s1. destruct (lift_reduce _ _ _ _ _ Hl Hr H1) as (stk1 & Hk & Hb & Ht). destruct (IH _ _ _ Hl Hr Hb) as (stk2 & Hp & Hb2 & Ht2).
    exists stk2. split; [|split; [auto|congruence]]. eapply kp_step; eauto. rewrite Ht. reflexivity.
Qed.

(** Some lookahead has an action, or none has. *)
Lemma blocked_dec stk o : kblocked stk o \/ exists a a' x, la_ok R gi a o = true /\ arel a a' /\ acts (top (bare stk)) a' = Some x.
Proof.
  destruct o as [k|].
  - pose (f := fun i => match nth_error (id_map (ivocab ig)) i, acts (top (bare stk)) (Token i) with Some sy, Some _ => sym_matches R gi sy k | _, _ => false end).
    destruct (find f (seq 0 (length (id_map (ivocab ig))))) as [i|] eqn:Hf.
    + right. apply find_some in Hf as (_ & Hf). unfold f in Hf. destruct (nth_error (id_map (ivocab ig)) i) as [sy|] eqn:Hs; [|discriminate].
      destruct (acts (top (bare stk)) (Token i)) as [x|] eqn:Ha; [|discriminate]. exists (Token sy), (Token i), x. auto.
    + left. intros a a' Hl Hr. destruct a as [sy| |]; try discriminate. destruct a' as [i| |]; simpl in Hr; try tauto.
      assert (Hin : In i (seq 0 (length (id_map (ivocab ig))))) by (apply in_seq; split; [lia|]; apply nth_error_Some; congruence).
      pose proof (find_none _ _ Hf _ Hin) as Hx. unfold f in Hx. rewrite Hr in Hx. destruct (acts (top (bare stk)) (Token i)); auto. simpl in Hl. congruence.
  - destruct (acts (top (bare stk)) EndOfStream) as [x|] eqn:Ha.
    + right. exists EndOfStream, EndOfStream, x. simpl. auto.
    + left. intros a a' Hl Hr. destruct a; try discriminate. destruct a'; simpl in Hr; try tauto. 
Qed.

Lemma kpath_final rem : forall stk, vstk (bare stk) -> exists stk' rem', kpath stk rem stk' rem' /\ kfinal stk' rem'.
Proof.
  induction rem as [|k rem IH]; intros stk Hv.
  - destruct (blocked_dec stk None) as [Hb|(a & a' & x & Hl & Hr & Ha)]; [exists stk, []; split; [constructor|right; auto]|].
    destruct a; try discriminate. destruct a'; simpl in Hr; try tauto.
    assert (Hp : progress ig acts gts EndOfStream (bare stk)).
    { destruct x as [s|j|]; [exists (bare stk); split; [constructor|left; eauto]|eapply reduce_progress; eauto|exists (bare stk); split; [constructor|right; auto]]. }
    destruct Hp as (s' & Hrs & Hg). destruct (lift_reduces _ _ _ Hrs stk [] EndOfStream eq_refl I eq_refl) as (stk' & Hp & Hb & _).
    exists stk', []. split; auto. left. split; auto. unfold GenRun.kaccept. rewrite Hb. destruct Hg as [(s & Hg)|Hg]; auto. exfalso.
    assert (Hv' : vstk s') by (eapply rsteps_vstk; eauto). destruct (act_shift ig F t ks acts gts Hok _ _ _ Hv' Hg) as (i & p & _ & Hn).
    apply (nextn_iff ig Heps) in Hn as (ns & Hs & _). apply (no_eos_rnodes ig Heos i). rewrite <- (firstn_skipn p (rnodes ig i)), Hs. apply in_or_app. simpl. auto.
  - destruct (blocked_dec stk (Some k)) as [Hb|(a & a' & x & Hl & Hr & Ha)]; [exists stk, (k :: rem); split; [constructor|right; auto]|].
    destruct a as [sy| |]; try discriminate. destruct a' as [i| |]; simpl in Hr; try tauto.
    assert (Hp : progress ig acts gts (Token i) (bare stk)).
    { destruct x as [s|j|]; [exists (bare stk); split; [constructor|left; eauto]|eapply reduce_progress; eauto|exists (bare stk); split; [constructor|right; auto]]. }
    destruct Hp as (s' & Hrs & Hg). destruct (lift_reduces _ _ _ Hrs stk (k :: rem) (Token sy) Hl Hr eq_refl) as (stk1 & Hp & Hb & Ht).
    assert (Hv1 : vstk (bare stk1)) by (rewrite Hb; eapply rsteps_vstk; eauto).
    destruct Hg as [(s & Hg)|Hg]; [|rewrite <- Hb in Hg; destruct (act_accept ig F t ks acts gts Hok _ _ Hv1 Hg) as (Hx & _); discriminate].
    rewrite <- Hb in Hg. pose proof (lift_shift _ _ _ _ _ Hv1 Hr Hl Hg) as Hk.
    destruct (IH _ (kstep_vstk literal_ok R gi F ks acts gts Hsu _ _ _ Hv1 Hk)) as (stk2 & rem2 & Hp2 & Hf).
    exists stk2, rem2. split; auto. eapply kpath_trans; [exact Hp|]. eapply kp_step; [exact Hk| |exact Hp2].
    unfold GenRun.toks. rewrite forest_cons, flat_map_app, map_app, <- app_assoc. reflexivity.
Qed.

(** The machine's steps are steps here, and conversely. *)
Definition reads (i : nat) (k : tok R) : Prop := exists sy, tok_rel ig sy i /\ sym_matches R gi sy k = true.

Lemma lift_msteps c c' : msteps ig acts gts c c' -> forall stk rem, vstk (bare stk) -> bare stk = fst c -> Forall2 reads (snd c) rem ->
  exists stk' rem', kpath stk rem stk' rem' /\ bare stk' = fst c' /\ Forall2 reads (snd c') rem'.
Proof.
  induction 1 as [c|c c1 c2 H1 H2 IH]; intros stk rem Hv Hb Hf; [exists stk, rem; split; [constructor|auto]|].
  assert (Hx : exists stk1 rem1, kstep stk (hd_error rem) stk1 /\ toks stk ++ rem = toks stk1 ++ rem1 /\ bare stk1 = fst c1 /\ Forall2 reads (snd c1) rem1).
  { destruct H1 as [s x w s' Ha|s w s' Hr]; simpl in *; subst s.
    - inversion Hf as [|? k ? rem1 (sy & Hsy & Hm) Hf1]; subst. eexists _, rem1. split; [apply (lift_shift _ sy x k s'); auto|]. split; [|split; auto].
      unfold GenRun.toks. rewrite forest_cons, flat_map_app, map_app, <- app_assoc. reflexivity.
    - assert (Hl : exists a, la_ok R gi a (hd_error rem) = true /\ arel a (la w)).
      { inversion Hf as [|x k ? ? (sy & Hsy & Hm)]; subst; [exists EndOfStream|exists (Token sy)]; simpl; auto. }
      destruct Hl as (a & Hl & Har). destruct (lift_reduce _ _ _ _ _ Hl Har Hr) as (stk1 & Hk & Hb1 & Ht). exists stk1, rem. rewrite Ht. auto. }
  destruct Hx as (stk1 & rem1 & Hk & Ht & Hb1 & Hf1). destruct (IH stk1 rem1) as (stk2 & rem2 & Hp & Hy); auto; [eapply kstep_vstk; eauto|].
  exists stk2, rem2. split; auto. eapply kp_step; eauto.
Qed.

Lemma single_unambiguous ts stk o : unambiguous_tokens R gi ts -> (forall k, o = Some k -> In k ts) -> single stk o.
Proof.
  intros Hu Ho a b a' b' x y Ha Hb Hra Hrb Hx Hy. destruct o as [k|].
  - destruct a as [s| |], b as [s'| |]; try discriminate. destruct a' as [i| |], b' as [i'| |]; simpl in Hra, Hrb; try tauto.
    f_equal. eapply Hu; eauto; eapply (su_voc _ _ _ _ _ Hsu); eauto.
  - destruct a, b; try discriminate. auto.
Qed.

(** Errors stay. *)
Lemma in_order_app {A} (a b : list (list (nat * env R) * (A + UErr R))) :
  in_order R (a ++ b) = match in_order R a with
    | (log, inr e) => (log, inr e)
    | (log, inl vs) => match in_order R b with (log', inr e) => (log ++ log', inr e) | (log', inl vs') => (log ++ log', inl (vs ++ vs')) end end.
Proof.
  induction a as [|[lg [v|e]] a IH]; simpl; auto.
  - destruct (in_order R b) as [? [?|?]]; reflexivity.
  - rewrite IH. destruct (in_order R a) as [la [va|ea]]; auto. destruct (in_order R b) as [lb [vb|eb]]; rewrite app_assoc; auto.
Qed.

Definition fails (stk : istack) (log : list (nat * env R)) (e : UErr R) : Prop := in_order R (map (eval R gi) (forest stk)) = (log, inr e).

Lemma fails_step stk o stk' log e : kstep stk o stk' -> fails stk log e -> fails stk' log e.
Proof.
  unfold fails. intros [k sy i s' H1 H2 H3|o' a a' j r popped rest s' H1 H2 H3 H4 -> H6 H7] Hf; rewrite forest_cons, map_app, in_order_app.
  - rewrite Hf. reflexivity.
  - rewrite forest_app, map_app, in_order_app in Hf. destruct (in_order R (map (eval R gi) (forest rest))) as [l1 [v1|e1]]; [|exact Hf].
    simpl. destruct (in_order R (map (eval R gi) (forest popped))) as [l2 [v2|e2]]; congruence.
Qed.

Lemma fails_path a b c d log e : kpath a b c d -> fails a log e -> fails c log e.
Proof. induction 1; auto. intros. apply IHkpath. eapply fails_step; eauto. Qed.

Section Follow.
Context {SErr : Type}.
Variable into : SErr -> UErr R.
Variable input : nat -> option (tok R + SErr).
Local Notation rel := (rel literal_ok R gi acts gts input).
Local Notation next_is := (next_is R input).
Local Notation step := (loop_step (E := E) R into input prog).
Local Notation log_of := (log_of R gi).
Local Notation kresult := (kresult literal_ok R gi acts gts into input).

Lemma holds_value d v : holds R gi d v -> exists v', has_value R gi d v'.
Proof. destruct d as [[sy k]|i ts]; simpl; [intros _|intros (lg & Hl)]; [eexists; exists []; reflexivity|exists v, lg; auto]. Qed.

Lemma rel_values st stk : rel st stk -> exists vs, in_order R (map (eval R gi) (forest stk)) = (log_of stk, inl vs).
Proof.
  intros Hr. destruct (rl_stack _ _ _ _ _ _ _ _ Hr) as (front & Hf & _).
  assert (Hv : exists vs, Forall2 (has_value R gi) (forest stk) vs).
  { rewrite forest_rev. clear -Hf. induction Hf as [|x sv stk front (_ & Hh) _ (vs & IH)]; simpl; [exists []; constructor|].
    destruct (holds_value _ _ Hh) as (v' & Hv). rewrite map_app. exists (vs ++ [v']). apply Forall2_app; auto. constructor; auto. }
  destruct Hv as (vs & Hv). exists vs. apply in_order_ok. auto.
Qed.

Lemma final_no_kstep stk rem s1 : kfinal stk rem -> ~ kstep stk (hd_error rem) s1.
Proof.
  intros [(-> & Ha)|Hb] Hk; [eapply kaccept_no_step; eauto|eapply kstep_not_blocked; eauto].
Qed.

Lemma follow_on stk rem stk' rem' : kpath stk rem stk' rem' -> kfinal stk' rem' ->
  (forall m, length (toks stk) <= m -> input m = option_map inl (nth_error (toks stk ++ rem) m)) ->
  (forall s r o, kpath stk rem s r -> kpath s r stk' rem' -> next_is s o -> single s o) ->
  forall st, rel st stk ->
  exists N st' res, (forall fuel, N < fuel -> while_loop fuel step st = Ok (st', res)) /\
    s_calls R (st_stream R st') <= S (length (toks stk ++ rem)) /\
    (kresult stk' res (st_log R st') \/ exists e, res = inr (UserError R e) /\ fails stk' (st_log R st') e).
Proof.
  intros Hp Hfin Hin Hs. assert (Hnext : forall stk rem, toks stk ++ rem = toks stk' ++ rem' -> (forall m, length (toks stk) <= m -> input m = option_map inl (nth_error (toks stk ++ rem) m)) -> next_is stk (hd_error rem)).
  { intros s r _ Hi. red. rewrite Hi by lia. rewrite nth_error_app2 by lia. rewrite Nat.sub_diag. destruct r; reflexivity. }
  induction Hp as [stk rem|stk rem stk1 rem1 stk' rem' Hk Ht Hp IH]; intros st Hr.
  - pose proof (Hnext _ _ eq_refl Hin) as Hn.
    destruct (step_exec (E := E) literal_ok R gi F ks acts gts Hsu prog Hprog Hdef into input _ _ Hr) as [(s1 & k1 & E1 & M1 & R1)|(s1 & r1 & E1 & M1 & S1)].
    + exfalso. destruct M1 as (o & x & rest & v & A1 & A2 & A3 & _). unfold GenRun.next_is in *. rewrite Hn in A1. apply option_inl_inj in A1. subst o. eapply final_no_kstep; eauto.
    + exists 0, s1, r1. split; [intros [|fuel] Hf; [lia|]; simpl; rewrite E1; reflexivity|]. split; auto.
      rewrite S1, (rl_stream _ _ _ _ _ _ _ _ Hr). simpl. rewrite app_length. lia.
  - pose proof (kpath_toks _ _ _ _ Hp) as Hpt. assert (Hs0 : forall o, next_is stk o -> single stk o) by (intros o; apply (Hs stk rem); [constructor|eapply kp_step; eauto]).
    assert (Hn : next_is stk (hd_error rem)) by (apply Hnext; [congruence|auto]).
    assert (Hlen : length (toks stk) <= length (toks stk1)).
    { destruct (kstep_toks _ _ _ _ _ _ _ _ Hk) as [->|(k & _ & ->)]; rewrite ?app_length; lia. }
    destruct (step_exec (E := E) literal_ok R gi F ks acts gts Hsu prog Hprog Hdef into input _ _ Hr) as [(s1 & k1 & E1 & M1 & R1)|(s1 & r1 & E1 & M1 & S1)].
    + assert (k1 = stk1) as ->.
      { destruct M1 as (o & x & rest & v & A1 & A2 & A3 & _). unfold GenRun.next_is in *. rewrite Hn in A1. apply option_inl_inj in A1. subst o. eapply kstep_fun; [exact Hsu|apply Hs0; exact Hn|exact A3|exact Hk]. }
      destruct (IH Hfin) with (st := s1) as (N & st' & res & HN & Hc & Hres); auto.
      { intros m Hm. rewrite <- Ht. apply Hin. lia. }
      { intros s r o P1 P2. apply (Hs s r); auto. eapply kp_step; eauto. }
      exists (S N), st', res. split; [|rewrite Ht; auto]. intros [|fuel] Hf; [lia|]. simpl. rewrite E1. cbn [bind]. apply HN. lia.
    + exists 0, s1, r1. split; [intros [|fuel] Hf; [lia|]; simpl; rewrite E1; reflexivity|]. split; [rewrite S1, (rl_stream _ _ _ _ _ _ _ _ Hr); simpl; rewrite app_length; lia|].
      right. destruct M1 as [e' B1|k' ty' B1 B2 B3 B4|o' x' rest' e' log' B1 B2 B3 B4|log' res' B1 B2 B3|o' B1 B2 B3]; unfold GenRun.next_is in *; rewrite Hn in B1.
      * destruct (hd_error rem); discriminate.
      * apply (option_inl_inj _ (Some k')) in B1. exfalso. eapply single_no_overlap; [apply (Hs0 (Some k')); unfold GenRun.next_is; rewrite Hn, B1; reflexivity|eassumption].
      * apply option_inl_inj in B1. subst o'. assert (He : stk1 = x' :: rest') by (eapply kstep_fun; [exact Hsu|apply Hs0; exact Hn|exact Hk|exact B3]). subst stk1.
        exists e'. split; auto. eapply fails_path; [exact Hp|]. unfold fails. rewrite forest_cons, map_app, in_order_app.
        assert (Hrest : exists vs, in_order R (map (eval R gi) (forest rest')) = (log_of rest', inl vs)).
        { destruct (rel_values _ _ Hr) as (vs & Hv). inversion B3; subst; eauto.
          rewrite forest_app, map_app, in_order_app in Hv. destruct (in_order R (map (eval R gi) (forest rest'))) as [l1 [v1|e1]] eqn:Hx; [|discriminate].
          exists v1. f_equal. clear -Hx. revert l1 v1 Hx. unfold GenRun.log_of. induction (forest rest') as [|d ds IH]; simpl; intros l1 v1 Hx; [congruence|].
          destruct (eval R gi d) as [lg [v|e]]; [|discriminate]. simpl. destruct (in_order R (map (eval R gi) ds)) as [l2 [v2|e2]]; [|discriminate].
          injection Hx as <- <-. rewrite (IH _ _ eq_refl). reflexivity. }
        destruct Hrest as (vs & ->). cbn [map in_order]. rewrite B4. rewrite log_of_cons, B4. reflexivity.
      * apply (option_inl_inj _ None) in B1. rewrite B1 in Hk. exfalso. eapply kaccept_no_step; eauto.
      * apply option_inl_inj in B1. subst o'. exfalso. eapply kstep_not_blocked; eauto.
Qed.

Lemma follow stk rem stk' rem' : kpath stk rem stk' rem' -> kfinal stk' rem' ->
  (forall m, length (toks stk) <= m -> input m = option_map inl (nth_error (toks stk ++ rem) m)) ->
  (forall stk o, next_is stk o -> single stk o) ->
  forall st, rel st stk ->
  exists N st' res, (forall fuel, N < fuel -> while_loop fuel step st = Ok (st', res)) /\
    s_calls R (st_stream R st') <= S (length (toks stk ++ rem)) /\
    (kresult stk' res (st_log R st') \/ exists e, res = inr (UserError R e) /\ fails stk' (st_log R st') e).
Proof. intros H1 H2 H3 H4. apply follow_on with (rem' := rem'); auto. Qed.
End Follow.
End Path.
