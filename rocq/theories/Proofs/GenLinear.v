(** The generated parser takes steps linear in the length of the stream. *)
From Coq Require Import Arith Bool String NArith List Lia Permutation.
From Verif Require Import Base.Prelude Spec.Grammar Spec.Validity Spec.Nullable Spec.Observers Spec.States Model.Error.
From Verif Require Import Model.BitSet Model.FixedMap Model.Vocabulary Model.IndexedGrammar Model.FirstMap.
From Verif Require Import Model.Position Model.Closure Model.LRTable Model.StateMap Model.ParseSimulator.
From Verif Require Import Model.TokenTree Model.Terminal Model.Constructor Model.CodeGen Model.Runtime Spec.Values.
From Verif Require Import Proofs.WP Proofs.BitSetProofs Proofs.FixedMapProofs Proofs.VocabProofs.
From Verif Require Import Proofs.IndexedProofs Proofs.IndexedBuild Proofs.IndexedMain Proofs.FirstProofs.
From Verif Require Import Proofs.ClosureProofs Proofs.ItemSets Proofs.TableProofs Proofs.TableBuild.
From Verif Require Import Proofs.Fuel Proofs.Machine Proofs.MixedRuns Proofs.ParserFinal Proofs.RecognitionFinal Proofs.IndexedFinal Proofs.LR1Proofs Proofs.LR1Final Proofs.StatesFinal Proofs.TableFinal Proofs.StateMapFinal Proofs.GenTable Proofs.ConstructorProofs Proofs.GenCode Proofs.GenRun Proofs.GenPath Proofs.GenEnds Proofs.Amortize Proofs.Linear.
Import ListNotations.

Section Steps.
Context {bm : BuildMode} {E : Type}.
Variable literal_ok : string -> bool.
Variable R : rust.
Variable gi : grammar_info.
Variable F : first_table.
Variable ks : list kernel.
Variable acts : nat -> aug nat -> option action.
Variable gts : nat -> nat -> option nat.
Hypothesis Hsu : setup gi F ks acts gts.
Variable prog : program.
Hypothesis Hprog : program_ok literal_ok gi acts gts prog.
Hypothesis Hdef : defaults_bound (gi_rules gi).
Context {SErr : Type}.
Variable into : SErr -> UErr R.
Variable input : nat -> option (tok R + SErr).
Local Notation g := (source (gi_rules gi)).
Local Notation ig := (gi_grammar gi).
Local Notation t := (gi_table gi).
Local Notation arel := (aug_rel (ivocab ig)).
Local Notation vstk := (vstk acts gts).
Local Notation istack := (istack R).
Local Notation bare := (bare R).
Local Notation toks := (toks R).
Local Notation kstep := (kstep literal_ok R gi acts gts).
Local Notation kmove := (kmove literal_ok R gi acts gts input).
Local Notation single := (single R gi acts).
Local Notation clear := (clear_of_overlap R gi acts).
Local Notation next_is := (next_is R input).
Local Notation rcount := (rcount ig acts gts).
Let Hix := su_ix _ _ _ _ _ Hsu.
Let Heps := su_eps _ _ _ _ _ Hsu.
Let HF := su_first _ _ _ _ _ Hsu.
Let Hok := su_ok _ _ _ _ _ Hsu.
Let Hwf := ix_wf _ _ Hix.


Local Notation lookaheads := (lookaheads gi).
Hypothesis Hcond : Fclosed ig F \/ forall stk o, next_is stk o -> clear stk o -> single stk o.

(** Runs on any of some lookaheads that leave at least [h] entries. *)
Inductive mabove (As : list (aug nat)) (h : nat) : nat -> list entry -> list entry -> Prop :=
| ma_refl stk : mabove As h 0 stk stk
| ma_step n a s1 s2 s3 : In a As -> rstep ig acts gts a s1 s2 -> h <= length s2 -> mabove As h n s2 s3 -> mabove As h (S n) s1 s3.

Lemma mabove_one As h n s1 s2 : Fclosed ig F -> mabove As h n s1 s2 -> vstk s1 -> n = 0 \/ exists a, In a As /\ rabove ig acts gts a h n s1 s2.
Proof.
  intros Hcl. induction 1 as [stk|n a s1 s2 s3 Ha Hs Hh Hm IH]; intros Hv; auto. right.
  destruct IH as [->|(b & Hb & Hc)]; [eapply (rstep_vstk ig Hwf F t ks acts gts Hok); eauto|inversion Hm; subst; exists a; split; auto; econstructor; eauto; constructor|].
  inversion Hc as [|n' ? s2' ? Hs' Hh' Hc']; subst.
  - inversion Hm; subst. exists a. split; auto. econstructor; eauto. constructor.
  - exists b. split; auto. refine (ra_step _ _ _ b h _ s1 s2 s3 _ Hh Hc). pose proof Hs' as (j & r & po & re & s & A & _). eapply (rstep_back ig Hwf Heps F t ks acts gts Hok Hcl); eauto.
Qed.

(** Reductions in a row, on one peeked value. *)
Inductive kabove (o : option (tok R)) (h : nat) : nat -> istack -> istack -> Prop :=
| ka_refl stk : kabove o h 0 stk stk
| ka_step n s1 s2 s3 a a' : next_is s1 o -> clear s1 o -> la_ok R gi a o = true -> arel a a' -> rstep ig acts gts a' (bare s1) (bare s2) ->
    h <= length s2 -> kabove o h n s2 s3 -> kabove o h (S n) s1 s3.

Lemma kabove_snoc o h n s1 s2 s3 a a' : kabove o h n s1 s2 -> next_is s2 o -> clear s2 o -> la_ok R gi a o = true -> arel a a' ->
  rstep ig acts gts a' (bare s2) (bare s3) -> h <= length s3 -> kabove o h (S n) s1 s3.
Proof.
  intros Hm H1 H2 H3 H4 H5 H6. induction Hm as [stk|n s1 s2 s4 b b' A1 A2 A3 A4 A5 A6 Hm IH].
  - apply (ka_step o h 0 _ s3 _ a a'); auto. constructor.
  - apply (ka_step o h _ _ s2 _ b b'); auto.
Qed.

Lemma kabove_one o h n s1 s2 : kabove o h n s1 s2 -> vstk (bare s1) -> n = 0 \/ exists a', In a' lookaheads /\ rabove ig acts gts a' h n (bare s1) (bare s2).
Proof.
  destruct Hcond as [Hcl|Hsi].
  - intros Hk Hv. assert (Hm : mabove lookaheads h n (bare s1) (bare s2)).
    { clear Hv. induction Hk as [stk|n s1 s2 s3 a a' A1 A2 A3 A4 A5 A6 Hk IH]; [constructor|]. eapply ma_step; eauto; [eapply arel_in; eauto|rewrite bare_length; auto]. }
    apply (mabove_one _ _ _ _ _ Hcl Hm Hv).
  - intros Hk Hv. cut (n = 0 \/ exists a a', la_ok R gi a o = true /\ arel a a' /\ rabove ig acts gts a' h n (bare s1) (bare s2)).
    { intros [->|(a & a' & A1 & A2 & A3)]; auto. right. exists a'. split; auto. eapply arel_in; eauto. }
    induction Hk as [stk|n s1 s2 s3 a a' A1 A2 A3 A4 A5 A6 Hk IH]; auto. right. exists a, a'. split; auto. split; auto.
    assert (Hv2 : vstk (bare s2)) by (eapply (rstep_vstk ig Hwf F t ks acts gts Hok); eauto).
    econstructor; eauto; [rewrite bare_length; auto|]. destruct (IH Hv2) as [->|(b & b' & B1 & B2 & B3)]; [inversion Hk; subst; constructor|].
    inversion Hk as [|n' ? ? ? c c' C1 C2 C3 C4 C5 C6 Hk']; subst; [constructor|].
    destruct (step_expected gi F ks acts gts Hsu _ _ _ Hv A5) as (x & Hx). inversion B3 as [|? ? ? ? (j & r & po & re & s & A & _) _ _]; subst.
    assert (a = b) by (eapply (Hsi s2 o); eauto). subst b. assert (a' = b') by (eapply (arel_inj gi F ks acts gts Hsu); eauto). subst b'. auto.
Qed.

Variable M : nat.
Hypothesis HM : forall k, input M <> Some (inl k).

Definition kheight (stk : istack) : nat := length stk.
Definition kleft (stk : istack) : nat := M - length (toks stk).
Definition kvalid (stk : istack) : Prop := vstk (bare stk) /\ length (toks stk) <= M.
Definition kreduce (stk stk' : istack) : Prop := kmove stk stk' /\ toks stk' = toks stk.
Definition kread (stk stk' : istack) : Prop := kmove stk stk' /\ exists k, input (length (toks stk)) = Some (inl k) /\ toks stk' = toks stk ++ [k].

Lemma kmove_cases stk stk' : kmove stk stk' -> kreduce stk stk' \/ kread stk stk'.
Proof.
  intros Hm. pose proof Hm as (o & x & rest & v & Hn & Hc & Hk & _). destruct (kstep_toks _ _ _ _ _ _ _ _ Hk) as [Ht|(k & -> & Ht)]; [left; split; auto|right].
  split; auto. exists k. auto.
Qed.

Lemma kreduce_rstep stk stk' o : vstk (bare stk) -> kreduce stk stk' -> next_is stk o ->
  clear stk o /\ exists a a', la_ok R gi a o = true /\ arel a a' /\ rstep ig acts gts a' (bare stk) (bare stk').
Proof.
  intros Hv ((o' & x & rest & v & Hno & Hclr & Hks & _) & Ht) Hn.
  assert (o' = o) as -> by (unfold GenRun.next_is in Hn, Hno; rewrite Hn in Hno; apply option_inl_inj in Hno; auto).
  split; auto. destruct (kstep_rstep literal_ok R gi acts gts _ _ _ Hv Hks) as [(i & sy & k & s' & -> & _ & _ & _ & ->)|Hr]; [exfalso|exact Hr].
  apply (f_equal (@length _)) in Ht. unfold GenRun.toks in Ht. rewrite forest_cons, flat_map_app, map_app, app_length in Ht.
  cbn [snd flat_map leaves map app length] in Ht. apply (Nat.neq_succ_diag_l (length (map snd (flat_map leaves (forest R stk))))). rewrite <- Nat.add_1_r. exact Ht.
Qed.

Lemma kmove_vstk stk stk' : vstk (bare stk) -> kmove stk stk' -> vstk (bare stk').
Proof. intros Hv (o & x & rest & v & _ & _ & Hk & _). eapply (kstep_vstk literal_ok R gi F ks acts gts Hsu); eauto. Qed.

Lemma kmove_next stk stk' : kmove stk stk' -> exists o, next_is stk o.
Proof. intros (o & x & rest & v & Hn & _). eauto. Qed.

Lemma above_kabove h n stk stk' : above _ kheight kreduce h n stk stk' -> vstk (bare stk) ->
  toks stk' = toks stk /\ vstk (bare stk') /\ forall o, next_is stk o -> kabove o h n stk stk'.
Proof.
  induction 1 as [stk|n stk s1 s2 Ha IH Hr Hh]; intros Hv; [repeat split; auto; constructor|].
  destruct (IH Hv) as (Ht & Hv1 & Hk). split; [destruct Hr; congruence|]. split; [eapply kmove_vstk; [eauto|apply Hr]|].
  intros o Ho. assert (Ho1 : next_is s1 o) by (unfold GenRun.next_is in *; rewrite Ht; auto).
  destruct (kreduce_rstep _ _ _ Hv1 Hr Ho1) as (Hc & a & a' & A1 & A2 & A3). eapply kabove_snoc; eauto.
Qed.

Variable K : nat.
Hypothesis HK : forall a n s1 s2, In a lookaheads -> vstk s1 -> rabove ig acts gts a (length s1) n s1 s2 -> n <= K.

Lemma kmoves_bound n stk stk' : kvalid stk -> run _ kreduce kread n stk stk' -> n <= bound K (kheight stk) (kleft stk).
Proof.
  intros Hv Hr. apply (run_bound _ kheight kleft kvalid kreduce kread) with (c' := stk'); auto; clear n stk stk' Hv Hr.
  - intros s s' (Hv & Hle) Hr. pose proof Hr as (Hm & Ht). destruct (kmove_next _ _ Hm) as (o & Ho).
    destruct (kreduce_rstep _ _ _ Hv Hr Ho) as (_ & a & a' & _ & _ & Hs). unfold kvalid, kleft, kheight. rewrite Ht.
    split; [split; auto; eapply kmove_vstk; eauto|]. split; auto. rewrite <- !(bare_length R). eapply rstep_length; eauto.
  - intros s s' (Hv & Hle) (Hm & k & Hk & Ht). pose proof Hm as (o & x & rest & v & _ & _ & Hks & _).
    assert (Hlt : length (toks s) <> M) by (intros He; apply (HM k); congruence).
    assert (Hl2 : length (toks s') = S (length (toks s))) by (rewrite Ht, app_length, Nat.add_1_r; reflexivity).
    unfold kvalid, kleft, kheight. split; [split; [eapply kmove_vstk; eauto|lia]|]. split; [|lia].
    destruct (kstep_rstep literal_ok R gi acts gts _ _ _ Hv Hks) as [(i & sy & k' & s2 & -> & _ & _ & _ & ->)|(a & a' & _ & _ & Hr)]; [simpl; lia|].
    rewrite <- !(bare_length R). eapply rstep_length; eauto.
  - intros n s s' (Hv & Hle) Ha. destruct n as [|n]; [lia|]. destruct (above_kabove _ _ _ _ Ha Hv) as (_ & _ & Hk).
    assert (Ho : exists o, next_is s o).
    { assert (Hf : forall h m s1 s2, above _ kheight kreduce h m s1 s2 -> 0 < m -> exists o, next_is s1 o).
      { clear. induction 1 as [|m s1 s2 s3 Ha IH Hr Hh]; intros Hm; [lia|]. destruct m as [|m]; [|apply IH; lia].
        inversion Ha; subst. destruct Hr as (Hr & _). eapply kmove_next; eauto. }
      eapply Hf; eauto. lia. }
    destruct Ho as (o & Ho). destruct (kabove_one _ _ _ _ _ (Hk o Ho) Hv) as [Hx|(a' & Ha' & Hr)]; [lia|].
    unfold kheight in Hr. rewrite <- (bare_length R) in Hr. eapply HK; eauto.
Qed.

Lemma loop_run fuel : forall st stk, rel literal_ok R gi acts gts input st stk ->
  (exists st' res, while_loop fuel (loop_step (E := E) R into input prog) st = Ok (st', res)) \/ exists stk', run _ kreduce kread fuel stk stk'.
Proof.
  induction fuel as [|fuel IH]; intros st stk Hrel; [right; eexists; constructor|]. simpl.
  destruct (step_exec literal_ok R gi F ks acts gts Hsu prog Hprog Hdef (E := E) into input _ _ Hrel) as [(st' & stk' & Hx & Hk & Hrel')|(st' & res & Hx & _)]; rewrite Hx.
  - cbn [bind]. destruct (IH _ _ Hrel') as [Hok'|(s2 & Hr)]; auto. right. exists s2.
    destruct (kmove_cases _ _ Hk); [eapply run_reduce|eapply run_read]; eauto.
  - left. exists st', res. reflexivity.
Qed.

Theorem run_linear fuel : S (S K * (K + 3)) * S M <= fuel -> exists st res, parse_fallible (E := E) R into input fuel prog = Ok (st, res).
Proof.
  intros Hf. pose proof (rel_new literal_ok R gi acts gts prog Hprog input) as Hrel.
  destruct (loop_run fuel _ _ Hrel) as [(st & res & Hx)|(stk' & Hr)]; [exists st, res; exact Hx|exfalso].
  apply kmoves_bound in Hr; [|split; [apply vs_nil|simpl; lia]]. unfold bound, kheight, kleft in Hr. simpl in Hr. nia.
Qed.
End Steps.
