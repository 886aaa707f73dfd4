(** The generated parser ends on every stream that ends, also when tokens stand
    for several terminals. *)
From Coq Require Import Arith Bool String NArith List Lia Permutation.
From Verif Require Import Base.Prelude Spec.Grammar Spec.Validity Spec.Nullable Spec.Observers Spec.States Model.Error.
From Verif Require Import Model.BitSet Model.FixedMap Model.Vocabulary Model.IndexedGrammar Model.FirstMap.
From Verif Require Import Model.Position Model.Closure Model.LRTable Model.StateMap Model.ParseSimulator.
From Verif Require Import Model.TokenTree Model.Terminal Model.Constructor Model.CodeGen Model.Runtime Spec.Values.
From Verif Require Import Proofs.WP Proofs.BitSetProofs Proofs.FixedMapProofs Proofs.VocabProofs.
From Verif Require Import Proofs.IndexedProofs Proofs.IndexedBuild Proofs.IndexedMain Proofs.FirstProofs.
From Verif Require Import Proofs.ClosureProofs Proofs.ItemSets Proofs.TableProofs Proofs.TableBuild.
From Verif Require Import Proofs.Fuel Proofs.Machine Proofs.MixedRuns Proofs.ParserFinal Proofs.RecognitionFinal Proofs.IndexedFinal Proofs.LR1Proofs Proofs.LR1Final Proofs.StatesFinal Proofs.TableFinal Proofs.StateMapFinal Proofs.GenTable Proofs.ConstructorProofs Proofs.GenCode Proofs.GenRun Proofs.GenPath.
Import ListNotations.

Section Ends.
Context {bm : BuildMode} {E : Type}.
Variable literal_ok : string -> bool.
Variable R : rust.
Variable gi : grammar_info.
Variable F : first_table.
Variable ks : list kernel.
Variable acts : nat -> aug nat -> option action.
Variable gts : nat -> nat -> option nat.
Hypothesis Hsu : setup gi F ks acts gts.
Variable prog : program.
Hypothesis Hprog : program_ok literal_ok gi acts gts prog.
Hypothesis Hdef : defaults_bound (gi_rules gi).
Context {SErr : Type}.
Variable into : SErr -> UErr R.
Variable input : nat -> option (tok R + SErr).
Local Notation g := (source (gi_rules gi)).
Local Notation ig := (gi_grammar gi).
Local Notation t := (gi_table gi).
Local Notation arel := (aug_rel (ivocab ig)).
Local Notation vstk := (vstk acts gts).
Local Notation istack := (istack R).
Local Notation bare := (bare R).
Local Notation toks := (toks R).
Local Notation kstep := (kstep literal_ok R gi acts gts).
Local Notation kmove := (kmove literal_ok R gi acts gts input).
Local Notation single := (single R gi acts).
Local Notation clear := (clear_of_overlap R gi acts).
Local Notation next_is := (next_is R input).
Local Notation rcount := (rcount ig acts gts).
Let Hix := su_ix _ _ _ _ _ Hsu.
Let Heps := su_eps _ _ _ _ _ Hsu.
Let HF := su_first _ _ _ _ _ Hsu.
Let Hok := su_ok _ _ _ _ _ Hsu.
Let Hwf := ix_wf _ _ Hix.

Definition lookaheads : list (aug nat) := EndOfStream :: map Token (seq 0 (length (id_map (ivocab ig)))).

Lemma arel_in a a' o : la_ok R gi a o = true -> arel a a' -> In a' lookaheads.
Proof.
  intros Hl Hr. destruct a as [sy| |], a' as [i| |]; simpl in Hr; try tauto; [|destruct o; discriminate|left; auto].
  right. apply in_map, in_seq. split; [lia|]. apply nth_error_Some. congruence.
Qed.

(** Reductions in a row, on one peeked value. *)
Inductive kred (o : option (tok R)) : nat -> istack -> istack -> Prop :=
| kd_refl stk : kred o 0 stk stk
| kd_step n s1 s2 s3 a a' : next_is s1 o -> clear s1 o -> la_ok R gi a o = true -> arel a a' -> rstep ig acts gts a' (bare s1) (bare s2) ->
    kred o n s2 s3 -> kred o (S n) s1 s3.

Lemma kred_snoc o n s1 s2 s3 a a' : kred o n s1 s2 -> next_is s2 o -> clear s2 o -> la_ok R gi a o = true -> arel a a' ->
  rstep ig acts gts a' (bare s2) (bare s3) -> kred o (S n) s1 s3.
Proof.
  intros Hm H1 H2 H3 H4 H5. induction Hm as [stk|n s1 s2 s4 b b' A1 A2 A3 A4 A5 Hm IH].
  - apply (kd_step o 0 _ s3 _ a a'); auto. constructor.
  - apply (kd_step o _ _ s2 _ b b'); auto.
Qed.

Hypothesis Hcond : Fclosed ig F \/ forall stk o, next_is stk o -> clear stk o -> single stk o.

Lemma step_expected a s1 s2 : vstk s1 -> rstep ig acts gts a s1 s2 -> exists x, acts (top s2) a = Some x.
Proof.
  intros Hv Hs. pose proof Hs as (j & r & po & re & s & A & _). destruct (reduce_progress ig Hwf Heps F HF t ks acts gts Hok _ _ _ Hv A) as (e & Hr & Hg).
  inversion Hr as [|? s2' ? Hs' Hr']; subst.
  - exfalso. eapply good_no_step; eauto.
  - rewrite (rstep_fun ig acts gts _ _ _ _ Hs' Hs) in Hr'. inversion Hr' as [|? s3 ? (j' & r' & po' & re' & s' & A' & _) _]; subst; eauto.
    destruct Hg as [(q & Hg)|Hg]; eauto.
Qed.

Lemma kred_count o n s1 s2 : kred o n s1 s2 -> vstk (bare s1) -> n = 0 \/ exists a', In a' lookaheads /\ rcount a' n (bare s1) (bare s2).
Proof.
  destruct Hcond as [Hcl|Hsi].
  - intros Hk Hv. assert (Hm : mixed ig acts gts lookaheads n (bare s1) (bare s2)).
    { clear Hv. induction Hk as [stk|n s1 s2 s3 a a' A1 A2 A3 A4 A5 Hk IH]; [constructor|]. eapply mx_step; eauto. eapply arel_in; eauto. }
    apply (mixed_count ig Hwf Heps F t ks acts gts Hok Hcl _ _ _ _ Hm Hv).
  - intros Hk Hv. cut (n = 0 \/ exists a a', la_ok R gi a o = true /\ arel a a' /\ rcount a' n (bare s1) (bare s2)).
    { intros [->|(a & a' & A1 & A2 & A3)]; auto. right. exists a'. split; auto. eapply arel_in; eauto. }
    induction Hk as [stk|n s1 s2 s3 a a' A1 A2 A3 A4 A5 Hk IH]; auto. right. exists a, a'. split; auto. split; auto.
    assert (Hv2 : vstk (bare s2)) by (eapply (rstep_vstk ig Hwf F t ks acts gts Hok); eauto).
    econstructor; eauto. destruct (IH Hv2) as [->|(b & b' & B1 & B2 & B3)]; [inversion Hk; subst; constructor|].
    inversion Hk as [|n' ? ? ? c c' C1 C2 C3 C4 C5 Hk']; subst; [constructor|].
    destruct (step_expected _ _ _ Hv A5) as (x & Hx). inversion B3 as [|? ? ? ? (j & r & po & re & s & A & _) _]; subst.
    assert (a = b) by (eapply (Hsi s2 o); eauto). subst b. assert (a' = b') by (eapply (arel_inj gi F ks acts gts Hsu); eauto). subst b'. auto.
Qed.

Lemma kred_vstk o n s1 s2 : kred o n s1 s2 -> vstk (bare s1) -> vstk (bare s2).
Proof. induction 1 as [|n s1 s2 s3 a a' A1 A2 A3 A4 A5 Hk IH]; auto. intros Hv. apply IH. eapply (rstep_vstk ig Hwf F t ks acts gts Hok); eauto. Qed.

Lemma kmove_acc M : (forall k, input M <> Some (inl k)) -> forall d stk, M - length (toks stk) <= d -> length (toks stk) <= M -> vstk (bare stk) ->
  Acc (fun s' s => kmove s s') stk.
Proof.
  intros HM. induction d as [d IHd] using lt_wf_ind. intros stk Hd Hle Hv.
  destruct (counts_bound ig Hwf Heps F HF t ks acts gts Hok lookaheads (bare stk) Hv) as (N & HN).
  assert (Hin : forall o, next_is stk o -> forall c n stk', S N - n <= c -> kred o n stk stk' -> toks stk' = toks stk -> Acc (fun s' s => kmove s s') stk').
  { intros o Ho. induction c as [c IHc] using lt_wf_ind. intros n stk' Hc Hk Ht.
    pose proof (kred_vstk _ _ _ _ Hk Hv) as Hv'.
    assert (Hn : n <= N). { destruct (kred_count _ _ _ _ Hk Hv) as [->|(a' & Ha & Hr)]; [lia|]. eapply HN; eauto. }
    assert (Hn' : next_is stk' o) by (unfold GenRun.next_is in *; rewrite Ht; auto).
    constructor. intros stk2 (o' & x & rest & v & Hno & Hclr & Hks & _).
    assert (o' = o) as -> by (unfold GenRun.next_is in Hn', Hno; rewrite Hn' in Hno; apply option_inl_inj in Hno; auto).
    pose proof (kstep_vstk literal_ok R gi F ks acts gts Hsu _ _ _ Hv' Hks) as Hv2.
    destruct (kstep_toks _ _ _ _ _ _ _ _ Hks) as [Ht2|(k & -> & Ht2)].
    - destruct (kstep_rstep literal_ok R gi acts gts _ _ _ Hv' Hks) as [(i & sy & k & s' & -> & _ & _ & _ & ->)|(a & a' & A1 & A2 & A3)].
      + exfalso. apply (f_equal (@length _)) in Ht2. unfold GenRun.toks in Ht2. rewrite forest_cons, flat_map_app, map_app, app_length in Ht2. cbn [snd flat_map leaves map app length] in Ht2. apply (Nat.neq_succ_diag_l (length (map snd (flat_map leaves (forest R stk'))))). rewrite <- Nat.add_1_r. exact Ht2.
      + apply (IHc (N - n)) with (n := S n); try lia; [|congruence]. eapply kred_snoc; eauto.
    - assert (Hlt : length (toks stk) <> M). { intros He. apply (HM k). rewrite <- He. exact Ho. }
      assert (Hl2 : length (toks stk2) = S (length (toks stk))) by (rewrite Ht2, Ht, app_length, Nat.add_1_r; reflexivity).
      apply (IHd (M - length (toks stk2))); auto; lia. }
  constructor. intros stk2 Hm. pose proof Hm as (o & x & rest & v & Hno & _).
  assert (Hacc : Acc (fun s' s => kmove s s') stk) by (apply (Hin o Hno (S N) 0 stk); [lia|constructor|auto]). inversion Hacc. auto.
Qed.

Lemma loop_ends st stk : Acc (fun s' s => kmove s s') stk -> rel literal_ok R gi acts gts input st stk ->
  exists N st' res, forall fuel, N < fuel -> while_loop fuel (loop_step (E := E) R into input prog) st = Ok (st', res).
Proof.
  intros Ha. revert st. induction Ha as [stk _ IH]. intros st Hrel.
  destruct (step_exec literal_ok R gi F ks acts gts Hsu prog Hprog Hdef (E := E) into input _ _ Hrel) as [(st' & stk' & Hx & Hk & Hrel')|(st' & res & Hx & _)].
  - destruct (IH _ Hk _ Hrel') as (N & st2 & res & HN). exists (S N), st2, res. intros [|fuel] Hf; [lia|]. simpl. rewrite Hx. cbn [bind]. apply HN. lia.
  - exists 0, st', res. intros [|fuel] Hf; [lia|]. simpl. rewrite Hx. reflexivity.
Qed.

Theorem run_ends : (exists M, forall k, input M <> Some (inl k)) ->
  exists N st res, forall fuel, N < fuel -> parse_fallible (E := E) R into input fuel prog = Ok (st, res).
Proof.
  intros (M & HM). apply (loop_ends _ []).
  - apply (kmove_acc M HM M); simpl; try lia. constructor.
  - apply (rel_new literal_ok R gi acts gts prog Hprog).
Qed.
End Ends.
