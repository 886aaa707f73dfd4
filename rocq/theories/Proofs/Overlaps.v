(** What generated parsers read, also when tokens stand for several terminals. *)
From Coq Require Import Arith Bool String NArith List Lia Permutation.
From Verif Require Import Base.Prelude Spec.Grammar Spec.Validity Spec.Nullable Spec.Observers Spec.States Model.Error.
From Verif Require Import Model.BitSet Model.FixedMap Model.Vocabulary Model.IndexedGrammar Model.FirstMap.
From Verif Require Import Model.Position Model.Closure Model.LRTable Model.StateMap Model.ParseSimulator.
From Verif Require Import Model.TokenTree Model.Terminal Model.Constructor Model.CodeGen Model.Runtime Spec.Values.
From Verif Require Import Proofs.WP Proofs.BitSetProofs Proofs.FixedMapProofs Proofs.VocabProofs.
From Verif Require Import Proofs.IndexedProofs Proofs.IndexedBuild Proofs.IndexedMain Proofs.FirstProofs.
From Verif Require Import Proofs.ClosureProofs Proofs.ItemSets Proofs.TableProofs Proofs.TableBuild.
From Verif Require Import Proofs.Fuel Proofs.Machine Proofs.MixedRuns Proofs.ParserFinal Proofs.RecognitionFinal Proofs.IndexedFinal Proofs.LR1Proofs Proofs.LR1Final Proofs.StatesFinal Proofs.TableFinal Proofs.StateMapFinal Proofs.GenTable Proofs.ConstructorProofs Proofs.GenCode Proofs.GenRun Proofs.GenPath Proofs.GenFinal Proofs.GenEnds Proofs.GenLang Proofs.GenMain Spec.Causes Proofs.Causes.
From Verif Require Import Spec.Overlaps.
Import ListNotations.

Section Overlap.
Context {bm : BuildMode} {E : Type}.
Variable literal_ok : string -> bool.
Variable R : rust.
Variable gi : grammar_info.
Variable F : first_table.
Variable ks : list kernel.
Variable acts : nat -> aug nat -> option action.
Variable gts : nat -> nat -> option nat.
Hypothesis Hsu : setup gi F ks acts gts.
Variable prog : program.
Hypothesis Hprog : program_ok literal_ok gi acts gts prog.
Hypothesis Hdef : defaults_bound (gi_rules gi).
Context {SErr : Type}.
Variable into : SErr -> UErr R.
Variable input : nat -> option (tok R + SErr).
Local Notation g := (source (gi_rules gi)).
Local Notation ig := (gi_grammar gi).
Local Notation t := (gi_table gi).
Local Notation arel := (aug_rel (ivocab ig)).
Local Notation vstk := (vstk acts gts).
Local Notation istack := (istack R).
Local Notation bare := (bare R).
Local Notation toks := (toks R).
Local Notation forest := (forest R).
Local Notation item_ok := (item_ok literal_ok R gi).
Local Notation kstep := (kstep literal_ok R gi acts gts).
Local Notation kmove := (kmove literal_ok R gi acts gts input).
Local Notation kmoves := (kmoves literal_ok R gi acts gts input).
Local Notation next_is := (next_is R input).
Local Notation begin_sentence := (begin_sentence gi).
Local Notation doubtful := (doubtful R gi).
Local Notation decided := (decided R gi).
Local Notation looks := (looks_for_doubt gi).
Local Notation run fuel := (parse_fallible (E := E) R into input fuel prog).
Let Hix := su_ix _ _ _ _ _ Hsu.
Let Heps := su_eps _ _ _ _ _ Hsu.
Let Heos := su_eos _ _ _ _ _ Hsu.
Let HF := su_first _ _ _ _ _ Hsu.
Let Hok := su_ok _ _ _ _ _ Hsu.
Let Hwf := ix_wf _ _ Hix.
Hypothesis HFc : Fclosed ig F.
Hypothesis Hpr : productive g.

(** The leaves of the trees on a stack. *)
Definition lvs (stk : istack) : list (user_symbol * tok R) := flat_map leaves (forest stk).
Definition rd (stk : istack) : list user_symbol := map fst (lvs stk).

Lemma kstep_leaves stk o stk' : kstep stk o stk' ->
  (exists i sy k s', o = Some k /\ tok_rel ig sy i /\ sym_matches R gi sy k = true /\ acts (top (bare stk)) (Token i) = Some (Shift s') /\
     bare stk' = (s', Terminal (Token i), Leaf i) :: bare stk /\ lvs stk' = lvs stk ++ [(sy, k)]) \/
  (exists a a', la_ok R gi a o = true /\ arel a a' /\ rstep ig acts gts a' (bare stk) (bare stk') /\ lvs stk' = lvs stk).
Proof.
  intros [k sy i s' H1 H2 H3|o' a a' j r popped rest s' H1 H2 H3 H4 -> H6 H7].
  - left. exists i, sy, k, s'. repeat split; auto; [apply H2|]. unfold lvs. rewrite forest_cons, flat_map_app. reflexivity.
  - right. exists a, a'. split; auto. split; auto. split.
    + exists j, r, (bare popped), (bare rest), s'. split; auto. split; auto. rewrite bare_app. split; auto.
      split; [rewrite bare_length, H6, (sbody_rule gi _ _ H4); reflexivity|]. auto.
    + unfold lvs. rewrite forest_cons, flat_map_app, flat_map_one, forest_app, flat_map_app. reflexivity.
Qed.

Lemma toks_lvs stk : toks stk = map snd (lvs stk).
Proof. reflexivity. Qed.

Lemma begins_stack stk : vstk (bare stk) -> Forall item_ok stk -> begin_sentence (rd stk).
Proof.
  intros Hv Hi. destruct (vstk_core gi F ks acts gts Hsu _ Hv) as (i & p & Hc). destruct (core_language gi F ks acts gts Hsu _ _ _ Hpr Hc) as (δ & (v & tv & Dv) & Hlang).
  destruct (productive_form gi F ks acts gts Hsu Hpr i (skipn p (rnodes ig i))) as (x & tx & Dx); [exists (firstn p (rnodes ig i)); rewrite firstn_skipn; auto|].
  assert (Hst : exists u tu, derives (igram ig) (rev (syms (bare stk))) u tu /\ Forall2 (tok_rel ig) (rd stk) u).
  { clear Hc Hlang Hv. unfold rd, lvs. induction Hi as [|y stk [(nd & Hn & D) _] _ (u & tu & Du & Hu)]; [exists [], []; split; constructor|].
    destruct (derives_fwd g ig Hix _ _ _ D [esym (fst y)]) as (w' & ts' & D' & W' & _); [constructor; [exact Hn|constructor]|].
    exists (u ++ w'), (tu ++ ts'). split; [simpl; apply derives_app; auto|]. rewrite forest_cons, flat_map_app, map_app, flat_map_one. apply Forall2_app; auto. }
  destruct Hst as (u & tu & Du & Hu). destruct (Hlang (u ++ x ++ v) (tu ++ tx ++ tv)) as (tr & Hp); [apply derives_app; auto; apply derives_app; auto|].
  destruct (parses_bwd g ig Hix _ _ Hp) as (w & tr' & Hp' & Hw & _). apply Forall2_app_inv_r in Hw as (us & vs & Hus & _ & ->).
  rewrite <- (toks_rel_fun_l ig _ _ _ Hu Hus) in Hp'. exists vs, tr'. exact Hp'.
Qed.

Lemma lift_reduces_leaves a' s1 s2 : rsteps ig acts gts a' s1 s2 -> forall stk k a, la_ok R gi a (Some k) = true -> arel a a' -> bare stk = s1 ->
  vstk (bare stk) -> Forall item_ok stk ->
  exists stk', bare stk' = s2 /\ lvs stk' = lvs stk /\ vstk (bare stk') /\ Forall item_ok stk'.
Proof.
  induction 1 as [s|s1 s2 s3 H1 H2 IH]; intros stk k a Hl Hr He Hv Hi.
  - exists stk. auto.
  - subst s1. destruct (lift_reduce literal_ok R gi acts gts _ _ _ _ _ Hl Hr H1) as (stk1 & Hk & Hb & Ht).
    assert (Hlv : lvs stk1 = lvs stk).
    { destruct (kstep_leaves _ _ _ Hk) as [(i & sy & k' & s' & _ & _ & _ & _ & _ & Hx)|(? & ? & _ & _ & _ & Hx)]; auto. exfalso.
      rewrite !toks_lvs, Hx, map_app in Ht. apply (f_equal (@length _)) in Ht. rewrite app_length in Ht. cbn [map length] in Ht. lia. }
    destruct (IH stk1 k a Hl Hr Hb) as (stk2 & A1 & A2 & A3 & A4).
    + eapply kstep_vstk; eauto.
    + eapply kstep_items; eauto.
    + exists stk2. split; auto. split; [congruence|auto].
Qed.

(** An action on a terminal that matches a token: sentences go on with it. *)
Lemma acts_begins stk sy i k x : vstk (bare stk) -> Forall item_ok stk -> tok_rel ig sy i -> sym_matches R gi sy k = true ->
  acts (top (bare stk)) (Token i) = Some x -> begin_sentence (rd stk ++ [sy]).
Proof.
  intros Hv Hi Hr Hm Ha. assert (Hp : progress ig acts gts (Token i) (bare stk)).
  { destruct x as [s|j|]; [exists (bare stk); split; [constructor|left; eauto]|eapply reduce_progress; eauto|exists (bare stk); split; [constructor|right; auto]]. }
  destruct Hp as (s' & Hrs & Hg). destruct (lift_reduces_leaves _ _ _ Hrs stk k (Token sy) Hm Hr eq_refl Hv Hi) as (stk1 & Hb & Hl & Hv1 & Hi1).
  destruct Hg as [(s & Hg)|Hg]; [|rewrite <- Hb in Hg; destruct (act_accept ig F t ks acts gts Hok _ _ Hv1 Hg) as (Hx & _); discriminate].
  rewrite <- Hb in Hg. pose proof (lift_shift literal_ok R gi F ks acts gts Hsu prog Hprog _ _ _ _ _ Hv1 Hr Hm Hg) as Hk.
  match type of Hk with _ _ _ ?S => set (stk2 := S) in Hk end. pose proof (begins_stack stk2 (kstep_vstk literal_ok R gi F ks acts gts Hsu _ _ _ Hv1 Hk) (kstep_items literal_ok R gi F ks acts gts Hsu _ _ _ Hv1 Hi1 Hk)) as Hbg.
  unfold rd, lvs, stk2 in Hbg. rewrite forest_cons, flat_map_app, map_app in Hbg. unfold rd. rewrite <- Hl. exact Hbg.
Qed.

Lemma overlap_doubtful stk k : vstk (bare stk) -> Forall item_ok stk -> overlap R gi acts stk k -> doubtful (rd stk) k.
Proof.
  intros Hv Hi (sy & sy' & i & i' & x & x' & Hne & A1 & B1 & A2 & B2 & A3 & B3). exists sy, sy'. split; auto. split; auto. split; auto.
  split; eapply acts_begins; eauto.
Qed.

(** Stacks right after a shift: the machine reaches them whatever comes next. *)
Definition fresh (stk : istack) (w : list nat) : Prop := forall v, msteps ig acts gts ([], w ++ v) (bare stk, v).

Lemma fresh_acts stk w sy : Forall2 (tok_rel ig) (rd stk) w -> fresh stk w -> begin_sentence (rd stk ++ [sy]) ->
  exists i x, tok_rel ig sy i /\ acts (top (bare stk)) (Token i) = Some x.
Proof.
  intros Hw Hf (vs & tr & Hp). destruct (parses_fwd g ig Hix _ _ Hp) as (w' & t' & P' & W' & _). rewrite <- app_assoc in W'.
  apply Forall2_app_inv_l in W' as (wu & wv & Wu & Wv & ->). rewrite (toks_rel_inj g ig Hix _ _ _ Wu Hw) in P'. simpl in Wv. inversion Wv as [|? i ? wv' Hi Wv']; subst.
  exists i. destruct (acts (top (bare stk)) (Token i)) as [x|] eqn:Ha; [eauto|]. exfalso.
  destruct (machine_complete ig Hwf Heps F t ks acts gts Hok HFc _ _ P') as (stk2 & Hms & Hacc & _).
  assert (He : (stk2, @nil nat) = (bare stk, i :: wv')).
  { eapply msteps_final_eq; [exact Hms|apply Hf|left; exact Hacc|right; exact Ha]. }
  discriminate.
Qed.

Lemma fresh_end stk w : Forall2 (tok_rel ig) (rd stk) w -> fresh stk w -> acts (top (bare stk)) EndOfStream = None -> ~ language g (rd stk).
Proof.
  intros Hw Hf Ha (tr & Hp). destruct (parses_fwd g ig Hix _ _ Hp) as (w' & t' & P' & W' & _). rewrite (toks_rel_inj g ig Hix _ _ _ W' Hw) in P'.
  destruct (machine_complete ig Hwf Heps F t ks acts gts Hok HFc _ _ P') as (stk2 & Hms & Hacc & _).
  pose proof (Hf []) as Hf0. rewrite app_nil_r in Hf0.
  assert (He : (stk2, @nil nat) = (bare stk, [])).
  { eapply msteps_final_eq; [exact Hms|exact Hf0|left; exact Hacc|right; exact Ha]. }
  injection He as ->. red in Hacc. simpl in Hacc. congruence.
Qed.

(** What holds of every stack of a run. *)
Record good (stk : istack) (w : list nat) : Prop := {
  gd_vstk : vstk (bare stk);
  gd_items : Forall item_ok stk;
  gd_word : Forall2 (tok_rel ig) (rd stk) w;
  gd_run : forall v x, acts (top (bare stk)) (la v) = Some x -> msteps ig acts gts ([], w ++ v) (bare stk, v);
  gd_fresh : fresh stk w \/ exists o a a' x, next_is stk o /\ la_ok R gi a o = true /\ arel a a' /\ acts (top (bare stk)) a' = Some x /\
    (looks -> forall k, o = Some k -> ~ doubtful (rd stk) k);
  gd_decided : looks -> decided (lvs stk) }.

Lemma next_is_fun stk o o' : next_is stk o -> next_is stk o' -> o = o'.
Proof. unfold GenRun.next_is. intros -> H. apply option_inl_inj in H. auto. Qed.

Lemma good_clear stk w o : good stk w -> next_is stk o -> clear_of_overlap R gi acts stk o -> looks -> forall k, o = Some k -> ~ doubtful (rd stk) k.
Proof.
  intros Hg Hn Hc Hl k -> Hd. destruct (gd_fresh _ _ Hg) as [Hf|(o & a & a' & x & Hn' & _ & _ & _ & Hnd)].
  - destruct Hl as (Hl1 & Hl2). apply (Hc Hl1 Hl2 k eq_refl). destruct Hd as (s & s' & Hne & M1 & M2 & B1 & B2).
    destruct (fresh_acts _ _ _ (gd_word _ _ Hg) Hf B1) as (i & x & A1 & A2). destruct (fresh_acts _ _ _ (gd_word _ _ Hg) Hf B2) as (i' & x' & A1' & A2').
    exists s, s', i, i', x, x'. auto 10.
  - pose proof (next_is_fun _ _ _ Hn Hn') as <-. exact (Hnd Hl k eq_refl Hd).
Qed.

Lemma good_nil : good [] [].
Proof.
  assert (Hf : fresh [] []) by (intros v; constructor). split; auto.
  - constructor.
  - constructor.
  - intros _ l1 s k l2 Hx. destruct l1; discriminate.
Qed.

Lemma good_move stk w stk' : good stk w -> kmove stk stk' -> exists w', good stk' w'.
Proof.
  intros Hg (o & x & rest & v & Hn & Hc & Hk & _). pose proof (good_clear _ _ _ Hg Hn Hc) as Hnd.
  pose proof (kstep_vstk literal_ok R gi F ks acts gts Hsu _ _ _ (gd_vstk _ _ Hg) Hk) as Hv'.
  pose proof (kstep_items literal_ok R gi F ks acts gts Hsu _ _ _ (gd_vstk _ _ Hg) (gd_items _ _ Hg) Hk) as Hi'.
  destruct (kstep_leaves _ _ _ Hk) as [(i & sy & k & s' & -> & Hr & Hm & Ha & Hb & Hl)|(a & a' & Hla & Hr & Hrs & Hl)].
  - exists (w ++ [i]). assert (Hf : fresh stk' (w ++ [i])).
    { intros v'. rewrite <- app_assoc. simpl. eapply msteps_trans; [apply (gd_run _ _ Hg (i :: v') _ Ha)|]. rewrite Hb. apply msteps_one. apply m_shift. exact Ha. }
    split; auto.
    + unfold rd. rewrite Hl, map_app. apply Forall2_app; [apply (gd_word _ _ Hg)|]. repeat constructor. exact Hr.
    + intros Hlk l1 s0 k0 l2 Hx. rewrite Hl in Hx. destruct l2 as [|y l2 _] using rev_ind.
      * apply app_inj_tail in Hx as (<- & Hx). injection Hx as <- <-. apply Hnd; auto.
      * rewrite app_comm_cons, app_assoc in Hx. apply app_inj_tail in Hx as (Hx & _). exact (gd_decided _ _ Hg Hlk _ _ _ _ Hx).
  - exists w. assert (Hrd : rd stk' = rd stk) by (unfold rd; rewrite Hl; reflexivity). split; auto.
    + rewrite Hrd. apply (gd_word _ _ Hg).
    + intros v' x' Hx. pose proof (rstep_back ig Hwf Heps F t ks acts gts Hok HFc _ _ _ _ _ (gd_vstk _ _ Hg) Hrs Hx) as Hb.
      pose proof Hb as (j & r & po & re & s & A & _). eapply msteps_trans; [apply (gd_run _ _ Hg v' _ A)|]. apply msteps_one. apply m_reduce. exact Hb.
    + right. destruct (step_expected gi F ks acts gts Hsu _ _ _ (gd_vstk _ _ Hg) Hrs) as (x' & Hx').
      exists o, a, a', x'. split; [unfold GenRun.next_is in *; rewrite toks_lvs, Hl; exact Hn|]. split; auto. split; auto. split; auto. rewrite Hrd. exact Hnd.
    + rewrite Hl. apply (gd_decided _ _ Hg).
Qed.

Lemma good_moves stk stk' w : kmoves stk stk' -> good stk w -> exists w', good stk' w'.
Proof.
  intros Hm. revert w. induction Hm as [|stk stk1 stk' Hk _ IH]; intros w Hg; [eauto|]. destruct (good_move _ _ _ Hg Hk) as (w' & Hg'). eauto.
Qed.

Lemma good_blocked stk w o : good stk w -> next_is stk o -> kblocked R gi acts stk o -> no_way_on R gi (rd stk) o.
Proof.
  intros Hg Hn Hb. destruct (gd_fresh _ _ Hg) as [Hf|(o' & a & a' & x & Hn' & Hl & Hr & Ha & _)].
  - destruct o as [k|]; simpl.
    + intros s Hm Hbg. destruct (fresh_acts _ _ _ (gd_word _ _ Hg) Hf Hbg) as (i & x & A1 & A2). rewrite (Hb (Token s) (Token i) Hm A1) in A2. discriminate.
    + apply (fresh_end _ _ (gd_word _ _ Hg) Hf). apply (Hb EndOfStream EndOfStream); simpl; auto.
  - pose proof (next_is_fun _ _ _ Hn Hn') as <-. rewrite (Hb a a' Hl Hr) in Ha. discriminate.
Qed.

Theorem run_explained fuel st r : run fuel = Ok (st, r) -> exists ds, explains R gi into input ds r.
Proof.
  intros Hrun. destruct (run_cases (E := E) literal_ok R gi F ks acts gts Hsu prog Hprog Hdef into input fuel) as [Hd|(st' & res & stk & Hr & Hm & Hk & Hs & Hv & Hi & Hin)]; [congruence|].
  rewrite Hrun in Hr. injection Hr as <- <-. destruct (good_moves _ _ _ Hm good_nil) as (w & Hg). clear Hrun.
  assert (Hbg : begin_sentence (rd stk)) by (apply begins_stack; auto).
  assert (Hex : forall ds res', flat_map leaves ds = lvs stk -> Forall (well_formed R gi) ds ->
    (looks -> forall k, res' = inr (OverlappingTokenMatchers R k) <-> input (length (toks stk)) = Some (inl k) /\ doubtful (rd stk) k) ->
    match res' with
    | inl v => input (length (toks stk)) = None /\ exists d, ds = [d] /\ parses_tokens R gi (toks stk) d /\ snd (eval R gi d) = inl v
    | inr err => error_cause R gi into ds (input (length (toks stk))) err /\ forall o, err = ParseError R o -> no_way_on R gi (rd stk) o
    end -> explains R gi into input ds res').
  { intros ds res' Hl Hw Ho Hc. unfold explains, reading, tokens_of. rewrite Hl. split; auto. split; auto. split; auto. split; auto.
    intros Hlk. split; [apply (gd_decided _ _ Hg Hlk)|auto]. }
  assert (Hnot : forall o (res' : val R + parser_error R), next_is stk o -> clear_of_overlap R gi acts stk o -> (forall k, res' <> inr (OverlappingTokenMatchers R k)) ->
    looks -> forall k, res' = inr (OverlappingTokenMatchers R k) <-> input (length (toks stk)) = Some (inl k) /\ doubtful (rd stk) k).
  { intros o res' Hn Hc Hne Hlk k. split; [intros Hx; exfalso; eapply Hne; eauto|]. intros (Hx & Hd). exfalso.
    eapply (good_clear _ _ _ Hg Hn Hc Hlk k); auto. apply (next_is_fun stk); auto. }
  pose proof (moves_values literal_ok R gi acts gts _ _ _ Hm (Forall_nil _)) as Hvals. apply forest_values in Hvals as Hfv.
  pose proof (forest_well_formed literal_ok R gi _ Hi) as Hw.
  inversion Hk as [e B1 HH HL|k ty B1 B2 B3 B4 HH HL|o x rest e log B1 B2 B3 B4 HH HL|log res B1 B2 B3 HH HL|o B1 B2 B3 HH HL]; subst.
  - exists (forest stk). apply Hex; auto.
    + intros _ k. rewrite B1. split; [discriminate|]. intros (Hx & _). discriminate.
    + rewrite B1. split; [constructor; auto|discriminate].
  - exists (forest stk). pose proof (overlap_doubtful _ _ Hv Hi B4) as Hdb. unfold GenRun.next_is in B1. apply Hex; auto.
    + intros _ k'. rewrite B1. simpl. split.
      * intros Hx. injection Hx as <-. auto.
      * intros (Hx & _). injection Hx as <-. reflexivity.
    + rewrite B1. split; [|discriminate]. destruct B4 as (sy & sy' & i & i' & x & x' & Hne & A1 & A2 & _ & _ & A5 & A6).
      apply cause_overlap with (s := sy) (s' := sy') (ty := ty); auto; eapply (su_voc _ _ _ _ _ Hsu); eauto.
  - pose proof (Hnot o (inr (UserError R e)) B1 B2 ltac:(discriminate)) as Hn'.
    pose proof (kstep_items literal_ok R gi F ks acts gts Hsu _ _ _ Hv Hi B3) as Hi'. pose proof (forest_well_formed literal_ok R gi _ Hi') as Hw'.
    inversion B3 as [k sy i s' C1 C2 C3|o' a a' j r popped rst s' C1 C2 C3 C4 C5 C6 C7]; subst; [discriminate B4|].
    simpl snd in B4. apply Forall_app in Hvals as (Hv1 & Hv2). apply forest_values in Hv1, Hv2.
    destruct (node_error R gi _ _ _ _ Hv1 B4) as (_ & vs & D1 & D2).
    exists (forest rest ++ [Node (original_index r) (forest popped)]). apply Hex; auto.
    + unfold lvs. rewrite forest_app, !flat_map_app, flat_map_one. reflexivity.
    + unfold GenRun.next_is in B1. rewrite B1. split; [eapply cause_constructor; eauto|discriminate].
  - destruct (accept_tree literal_ok R gi F ks acts gts Hsu _ Hv Hi B2) as (Hp & _). exists [Node 0 (forest stk)]. apply Hex.
    + rewrite flat_map_one. reflexivity.
    + constructor; [eapply root_well_formed; eauto|constructor].
    + apply (Hnot None); auto; [intros _ _ k Hx; discriminate|]. intros k. destruct res; discriminate.
    + unfold GenRun.next_is in B1. rewrite B1. destruct res as [v|e].
      * split; auto. exists (Node 0 (forest stk)). split; auto. split; auto. rewrite B3. reflexivity.
      * split; [|discriminate]. destruct (node_error R gi _ _ _ _ Hfv B3) as (_ & vs & D1 & D2). eapply (cause_constructor R gi into _ None []); eauto. reflexivity.
  - exists (forest stk). apply Hex; auto.
    + apply (Hnot o); auto. discriminate.
    + unfold GenRun.next_is in B1. rewrite B1. split; [constructor; auto|]. intros o' Hx. injection Hx as <-. eapply good_blocked; eauto.
Qed.
(** Sentences that can be read in one way only. *)
Lemma symbol_eq_dec (a b : user_symbol) : a = b \/ a <> b.
Proof. destruct (eq_dec a b); auto. Qed.

Lemma kpath_leaves a b c d : kpath literal_ok R gi acts gts a b c d -> exists l, lvs c = lvs a ++ l /\ b = map snd l ++ d.
Proof.
  induction 1 as [|stk rem stk1 rem1 stk' rem' Hk Ht Hp (l & IH1 & IH2)]; [exists []; rewrite app_nil_r; auto|].
  destruct (kstep_leaves _ _ _ Hk) as [(i & sy & k & s' & Ho & _ & _ & _ & _ & Hl)|(? & ? & _ & _ & _ & Hl)]; rewrite !toks_lvs, Hl in Ht.
  - rewrite map_app, <- app_assoc in Ht. apply app_inv_head in Ht. simpl in Ht. exists ((sy, k) :: l). rewrite IH1, Hl, <- app_assoc. split; auto. simpl. congruence.
  - apply app_inv_head in Ht. exists l. rewrite IH1, Hl. split; congruence.
Qed.

Lemma leaves_decided pre l1 l2 : map snd l1 = map snd l2 -> (forall s k, In (s, k) l1 -> sym_matches R gi s k = true) -> (forall s k, In (s, k) l2 -> sym_matches R gi s k = true) ->
  language g (map fst (pre ++ l1)) -> language g (map fst (pre ++ l2)) -> decided (pre ++ l1) -> l1 = l2.
Proof.
  revert pre l2. induction l1 as [|[s k] l1 IH]; intros pre [|[s' k'] l2] He M1 M2 L1 L2 Hd; simpl in He; try discriminate; auto. injection He as <- He.
  assert (s = s') as <-.
  { destruct (symbol_eq_dec s s') as [|Hne]; auto. exfalso. apply (Hd pre s k l1 eq_refl). exists s, s'. split; auto. split; [apply M1; simpl; auto|]. split; [apply M2; simpl; auto|].
    rewrite map_app in L1, L2. split; [exists (map fst l1)|exists (map fst l2)]; rewrite <- app_assoc; auto. }
  f_equal. apply (IH (pre ++ [(s, k)])); auto; try (rewrite <- app_assoc; auto); intros; [apply M1|apply M2]; simpl; auto.
Qed.

Theorem run_decided ts d : parses_tokens R gi ts d -> decided (leaves d) ->
  exists N st, (forall fuel, N < fuel -> parse_fallible (E := E) R into (of_list ts) fuel prog = Ok (st, match snd (eval R gi d) with inl v => inl v | inr e => inr (UserError R e) end)) /\
    st_log R st = fst (eval R gi d) /\ s_calls R (st_stream R st) <= S (length ts).
Proof.
  intros (Hts & Hm & Hp) Hdec. destruct (parses_fwd g ig Hix _ _ Hp) as (w' & t' & P' & W' & T').
  destruct (machine_complete ig Hwf Heps F t ks acts gts Hok HFc _ _ P') as (stk & Hms & Hacc & _).
  pose proof (reads_fwd R gi _ _ Hm W') as Hrd. rewrite Hts in Hrd.
  destruct (lift_msteps literal_ok R gi F ks acts gts Hsu prog Hprog _ _ Hms [] ts (vs_nil _ _) eq_refl Hrd) as (stk' & rem' & Hk & Hb & Hr). simpl in Hb, Hr. inversion Hr; subst rem'.
  assert (Ha : kaccept R acts stk') by (unfold GenRun.kaccept; rewrite Hb; exact Hacc).
  destruct (kpath_inv literal_ok R gi F ks acts gts Hsu _ _ _ _ Hk (vs_nil _ _) (Forall_nil _)) as (Hv & Hi).
  destruct (accept_tree literal_ok R gi F ks acts gts Hsu _ Hv Hi Ha) as ((Hts2 & Hm2 & Hp2) & _).
  pose proof (kpath_toks _ _ _ _ _ _ _ _ _ Hk) as Ht. simpl in Ht. rewrite app_nil_r in Ht.
  assert (Hl : leaves d = leaves (Node 0 (forest stk'))).
  { apply (leaves_decided []); auto; try congruence; simpl; eexists; eauto. }
  assert (He : d = Node 0 (forest stk')).
  { apply (tmap_leaves_inj fst); auto. rewrite <- Hl in Hp2. eapply (parses_unique gi F ks acts gts Hsu HFc); eauto. }
  assert (Hsi : forall s r o, kpath literal_ok R gi acts gts [] ts s r -> kpath literal_ok R gi acts gts s r stk' [] -> GenRun.next_is R (of_list (S := SErr) ts) s o -> single R gi acts s o).
  { intros s r o P1 P2 Hn. apply of_list_next in Hn. destruct o as [k|]; [|apply single_none].
    destruct (kpath_inv literal_ok R gi F ks acts gts Hsu _ _ _ _ P1 (vs_nil _ _) (Forall_nil _)) as (Hvs & His).
    destruct (kpath_leaves _ _ _ _ P2) as (l & A1 & A2). pose proof (kpath_toks _ _ _ _ _ _ _ _ _ P1) as P3. simpl in P3. rewrite app_nil_r in A2. rewrite P3 in Hn.
    rewrite nth_error_app2, Nat.sub_diag in Hn by lia. subst r. destruct l as [|[s0 k0] l]; [discriminate|]. simpl in Hn. injection Hn as <-.
    intros a b a' b' x y La Lb Ra Rb Xa Xb. destruct a as [sa| |], b as [sb| |]; try discriminate. destruct a' as [ia| |], b' as [ib| |]; simpl in Ra, Rb; try tauto.
    destruct (symbol_eq_dec sa sb) as [->|Hne]; auto. exfalso. refine (Hdec (lvs s) s0 k l _ _).
    - rewrite Hl. exact A1.
    - exists sa, sb. split; auto. split; auto. split; auto. split; [exact (acts_begins _ _ _ _ _ Hvs His Ra La Xa)|exact (acts_begins _ _ _ _ _ Hvs His Rb Lb Xb)]. }
  destruct (follow_on (E := E) literal_ok R gi F ks acts gts Hsu prog Hprog Hdef into (of_list ts) [] ts stk' [] Hk) with (st := state_new R (of_list (S := SErr) ts) (p_root prog, RUnit)) as (N & st & res & HN & Hc & Hres).
  { left. auto. } { intros m _. reflexivity. } { exact Hsi. } { apply (rel_new literal_ok R gi acts gts prog Hprog). }
  exists N, st. assert (Hx : st_log R st = fst (eval R gi (Node 0 (forest stk'))) /\ res = match snd (eval R gi (Node 0 (forest stk'))) with inl v => inl v | inr e => inr (UserError R e) end).
  { assert (Hnone : nth_error ts (length (toks stk')) = None) by (apply nth_error_None; rewrite Ht; auto).
    destruct Hres as [Hkr|(e & -> & Hf)].
    - destruct Hkr as [e' B1|k' ty' B1 B2 B3 B4|o' x' rest' e' log' B1 B2 B3 B4|log' res' B1 B2 B3|o' B1 B2 B3].
      + unfold of_list in B1. rewrite Hnone in B1. discriminate.
      + apply of_list_next in B1. congruence.
      + apply of_list_next in B1. rewrite Hnone in B1. subst o'. exfalso. eapply kaccept_no_step; eauto.
      + rewrite B3. auto.
      + apply of_list_next in B1. rewrite Hnone in B1. subst o'. exfalso. eapply kaccept_not_blocked; eauto.
    - unfold fails in Hf. simpl. rewrite Hf. auto. }
  rewrite He. destruct Hx as (Hlg & ->). split; auto.
Qed.
End Overlap.

Theorem generated_explained (bmg : BuildMode) literal_ok gi p : generated (bm := bmg) literal_ok gi p ->
  first_complete (bm := bmg) (source (gi_rules gi)) -> productive (source (gi_rules gi)) ->
  forall (bm : BuildMode) (E : Type) (R : rust) (SErr : Type) (into : SErr -> UErr R) input fuel st r,
  parse_fallible (E := E) R into input fuel p = Ok (st, r) -> exists ds, explains R gi into input ds r.
Proof.
  intros Hg Hfc Hpr bm E R SErr into input fuel st r Hr. destruct (generated_setup literal_ok gi p Hg) as (F & ks & acts & gts & Hsu & Hf & Hd & Hp).
  exact (run_explained literal_ok R gi F ks acts gts Hsu p (Hp _ p Hg) Hd into input (Hf Hfc) Hpr fuel st r Hr).
Qed.

Theorem decided_sentences (bmg : BuildMode) literal_ok gi p : generated (bm := bmg) literal_ok gi p ->
  first_complete (bm := bmg) (source (gi_rules gi)) -> productive (source (gi_rules gi)) ->
  forall (bm : BuildMode) (E : Type) (R : rust) (SErr : Type) (into : SErr -> UErr R) ts d,
  parses_tokens R gi ts d -> decided R gi (leaves d) ->
  exists N st, (forall fuel, N < fuel -> parse_fallible (E := E) R into (of_list ts) fuel p =
      Ok (st, match snd (eval R gi d) with inl v => inl v | inr e => inr (UserError R e) end)) /\
    st_log R st = fst (eval R gi d).
Proof.
  intros Hg Hfc Hpr bm E R SErr into ts d Ht Hd. destruct (generated_setup literal_ok gi p Hg) as (F & ks & acts & gts & Hsu & Hf & Hdef & Hp).
  destruct (run_decided (E := E) literal_ok R gi F ks acts gts Hsu p (Hp _ p Hg) Hdef into (of_list ts) (Hf Hfc) Hpr ts d Ht Hd) as (N & st & H1 & H2 & _). eauto.
Qed.
