(** The parse simulator runs the LR machine. *)
From Coq Require Import Arith Bool String NArith List Lia Permutation.
From Verif Require Import Base.Prelude Spec.Grammar Spec.Validity Model.Error.
From Verif Require Import Model.BitSet Model.FixedMap Model.Vocabulary Model.IndexedGrammar Model.FirstMap.
From Verif Require Import Model.Position Model.Closure Model.LRTable Model.ParseSimulator.
From Verif Require Import Proofs.WP Proofs.BitSetProofs Proofs.FixedMapProofs Proofs.VocabProofs.
From Verif Require Import Proofs.IndexedProofs Proofs.IndexedBuild Proofs.IndexedMain Proofs.FirstProofs.
From Verif Require Import Proofs.ClosureProofs Proofs.ItemSets Proofs.TableProofs Proofs.TableBuild.
From Verif Require Import Proofs.Fuel Proofs.Machine.
Import ListNotations.

(** Table accessors. *)
Section Access.
Context {bm : BuildMode} {E T L : Type} `{EqDec T}.
Variable g : indexed_grammar T L.
Variables (F : first_table) (t : lr_table) (ks : list kernel) (acts : nat -> aug nat -> option action) (gts : nat -> nat -> option nat).
Hypothesis Hok : table_ok g F t ks acts gts.

Lemma num_states_pos : 0 < num_states t.
Proof.
  destruct (to_root _ _ _ _ _ _ Hok) as (K & HK & _). rewrite (to_states _ _ _ _ _ _ Hok).
  apply nth_error_Some. congruence.
Qed.

Lemma mod_div_mul a b : b <> 0 -> (a * b) mod b = 0 /\ a * b / b = a.
Proof. intros Hb. split; [apply Nat.mod_mul; auto|apply Nat.div_mul; auto]. Qed.

Lemma table_vocab_size_ok : @table_vocab_size bm E t = Ok (vocab_size (ivocab g)).
Proof.
  unfold table_vocab_size. rewrite (to_len_a _ _ _ _ _ _ Hok). pose proof num_states_pos as Hp.
  destruct (num_states t =? 0) eqn:He; [apply Nat.eqb_eq in He; lia|].
  destruct (mod_div_mul (vocab_size (ivocab g)) (num_states t)) as (-> & Hd); [lia|].
  rewrite debug_assert_true. simpl. unfold checked_div. rewrite He, Hd. reflexivity.
Qed.

Lemma num_production_labels_ok : @num_production_labels bm E t = Ok (labels_count g).
Proof.
  unfold num_production_labels. rewrite (to_len_g _ _ _ _ _ _ Hok). pose proof num_states_pos as Hp.
  destruct (num_states t =? 0) eqn:He; [apply Nat.eqb_eq in He; lia|].
  destruct (mod_div_mul (labels_count g) (num_states t)) as (-> & Hd); [lia|].
  rewrite debug_assert_true. simpl. unfold checked_div. rewrite He, Hd. reflexivity.
Qed.

Lemma get_action_ok s a : s < num_states t -> label_id a < vocab_size (ivocab g) ->
  @get_action bm E t s a = Ok (acts s a).
Proof.
  intros Hs Ha. unfold get_action. rewrite table_vocab_size_ok. simpl.
  apply index_ok. apply (to_acts _ _ _ _ _ _ Hok); auto.
Qed.

Lemma get_goto_ok s l : s < num_states t -> l < labels_count g -> @get_goto bm E t s l = Ok (gts s l).
Proof.
  intros Hs Ha. unfold get_goto. rewrite num_production_labels_ok. simpl.
  apply index_ok. apply (to_gts _ _ _ _ _ _ Hok); auto.
Qed.

End Access.

(** What a successful [Parser::new] establishes. *)
Definition built {bm : BuildMode} {T L} `{EqDec T} `{EqDec L} (g : grammar T L) (p : parser T L) : Prop :=
  indexes g (pgrammar p) /\ valid_grammar g /\
  exists F ks acts gts, FInv (pgrammar p) F /\ (exists fuel, indexed_build fuel g = Ok (pgrammar p) /\ first_build (E := lr_error T L) fuel (pgrammar p) = Ok F) /\
    table_ok (pgrammar p) F (plr_table p) ks acts gts.

Section New.
Context {bm : BuildMode} {T L : Type} `{EqDec T} `{EqDec L}.

Theorem parser_new_built fuel (g : grammar T L) p : parser_new fuel g = Ok p -> built g p.
Proof.
  unfold parser_new. intros Hp.
  pose proof (indexed_build_spec True fuel g (or_introl I)) as Hi.
  destruct (indexed_build fuel g) as [ig|e|why|] eqn:Hig; try discriminate. simpl in Hp, Hi. destruct Hi as (Hix & Hv).
  destruct (table_build_ok ig (ix_wf _ _ Hix)) as (N & Ht). specialize (Ht True fuel (or_introl I)).
  destruct (table_build ig fuel) as [t|e|why|]; try discriminate. simpl in *. injection Hp as <-.
  destruct Ht as (F & ks & acts & gts & HF & HFb & Hok). split; auto. split; auto. simpl.
  exists F, ks, acts, gts. split; auto. split; eauto.
Qed.

Theorem parser_new_total (g : grammar T L) : exists N, forall fuel, N < fuel ->
  match parser_new fuel g with
  | Diverge => False
  | Panic _ => exists r, nth_error g 0 = Some r /\ uses r (symbol r)
  | _ => True
  end.
Proof.
  pose proof (indexed_build_spec False (S (length g)) g (or_intror (Nat.lt_succ_diag_r _))) as Hi.
  destruct (indexed_build (S (length g)) g) as [ig|e|why|] eqn:Hig; simpl in Hi; try tauto.
  - destruct Hi as (Hix & Hv). destruct (table_build_ok ig (ix_wf _ _ Hix)) as (N & Ht).
    exists (length g + N). intros fuel Hf. unfold parser_new.
    assert (Hig' : indexed_build fuel g = Ok ig) by (apply (le_ok _ _ _ (indexed_build_le (T:=T) (L:=L) (S (length g)) fuel ltac:(lia) g) Hig)).
    rewrite Hig'. simpl. assert (HN : N < fuel) by lia. specialize (Ht False fuel (or_intror HN)).
    destruct (table_build ig fuel); simpl in *; auto.
    destruct (ix_root_rule _ _ Hix) as (r & ir & Hg & Hir & Hl & _ & Hns). exists r. split; auto.
    unfold rnodes in Ht. rewrite Hir in Ht. destruct (Forall2_in_r _ _ _ _ Hns Ht) as (nd & Hin & Hrel).
    destruct nd as [a|l]; simpl in Hrel; [tauto|]. simpl in Hl.
    destruct (wf_root _ (ix_wf _ _ Hix)) as (ir' & mt & Hir' & Hs' & _). rewrite Hir in Hir'. injection Hir' as <-.
    rewrite Hs' in Hl. rewrite (ilabel_fun _ _ _ _ Hl Hrel). exact Hin.
  - exists (length g). intros fuel Hf. unfold parser_new.
    pose proof (indexed_build_le (T:=T) (L:=L) _ _ Hf g) as [Hx|Hx]; rewrite Hig in Hx; [discriminate|]. rewrite <- Hx. simpl. auto.
Qed.

Lemma parser_new_terminates (g : grammar T L) : exists N, forall fuel, N < fuel -> parser_new fuel g <> Diverge.
Proof.
  destruct (parser_new_total g) as (N & HN). exists N. intros fuel Hf Hd. specialize (HN fuel Hf). rewrite Hd in HN. exact HN.
Qed.

Theorem parser_new_panic fuel (g : grammar T L) why : parser_new fuel g = Panic why ->
  exists r, nth_error g 0 = Some r /\ uses r (symbol r).
Proof.
  intros Hp. destruct (parser_new_total g) as (N & HN). specialize (HN (S (fuel + N)) ltac:(lia)).
  destruct (parser_new_le (T:=T) (L:=L) fuel (S (fuel + N)) ltac:(lia) g) as [Hx|Hx]; [congruence|]. rewrite <- Hx, Hp in HN. auto.
Qed.

End New.

(** Running. *)
Section Run.
Context {bm : BuildMode} {E T L : Type} `{EqDec T} `{EqDec L}.
Variable ig : indexed_grammar T L.
Hypothesis Hwf : wf_ig ig.
Hypothesis Heos : no_eos (igram ig).
Hypothesis Heps : eps_trailing (igram ig).
Variable F : first_table.
Hypothesis HF : FInv ig F.
Variables (t : lr_table) (ks : list kernel) (acts : nat -> aug nat -> option action) (gts : nat -> nat -> option nat).
Hypothesis Hok : table_ok ig F t ks acts gts.

Local Notation vstk := (vstk acts gts).
Local Notation mstep := (mstep ig acts gts).
Local Notation msteps := (msteps ig acts gts).
Local Notation maccept := (maccept acts).
Local Notation stuck := (stuck acts).

(** Every lookahead is the end of the stream or a terminal of the grammar. *)
Lemma JF_term : (forall l a, JF ig F l a -> exists r, In r (rules ig) /\ In (Terminal a) (irhs r)) /\
  (forall ns a, JFs ig F ns a -> In (Terminal a) ns \/ exists r, In r (rules ig) /\ In (Terminal a) (irhs r)).
Proof.
  apply (JF_mutind ig F (fun l a _ => exists r, In r (rules ig) /\ In (Terminal a) (irhs r))
    (fun ns a _ => In (Terminal a) ns \/ exists r, In r (rules ig) /\ In (Terminal a) (irhs r))); simpl; auto.
  - intros j r a Hj _ _ [Hx|Hx]; auto. exists r. split; auto. eapply nth_error_In; eauto.
  - intros ns a _ [Hx|Hx]; auto.
  - intros l ns a _ _ [Hx|Hx]; auto.
Qed.

Lemma look_term γ i p a : look ig F γ i p a -> label_id a < vocab_size (ivocab ig).
Proof.
  induction 1 as [|γ i p l j a Hc Hl Hr Ha Hx|γ i p l j a Hlk IH Hl Hr Hx|γ i p X a Hlk IH Hn]; auto.
  - unfold vocab_size, label_id. simpl. lia.
  - apply (ffirst_JFs ig F _ a HF Ha) in Hx. apply (proj2 JF_term) in Hx as [Hx|(r & Hr' & Hx)].
    + assert (Hin : In (Terminal a) (rnodes ig i)) by (rewrite <- (firstn_skipn (p + 1) (rnodes ig i)); apply in_or_app; auto).
      apply rnodes_in in Hin as (r & Hr' & Hin). eapply wf_term; eauto. eapply nth_error_In; eauto.
    + eapply wf_term; eauto.
Qed.

Lemma act_bound stk a x : vstk stk -> acts (top stk) a = Some x -> label_id a < vocab_size (ivocab ig).
Proof.
  intros Hv Ha. destruct x as [s|j|].
  - destruct (act_shift _ _ _ _ _ _ Hok _ _ _ Hv Ha) as (i & p & _ & Hn).
    apply (nextn_iff ig Heps) in Hn as (ns & Hs & _).
    assert (Hin : In (Terminal a) (rnodes ig i)) by (rewrite <- (firstn_skipn p (rnodes ig i)), Hs; apply in_or_app; simpl; auto).
    apply rnodes_in in Hin as (r & Hr' & Hin). eapply wf_term; eauto. eapply nth_error_In; eauto.
  - destruct (act_reduce _ _ _ _ _ _ Hok _ _ _ Hv Ha) as (_ & p & Hl & _). eapply look_term; eauto.
  - destruct (act_accept _ _ _ _ _ _ Hok _ _ Hv Ha) as (-> & _). unfold vocab_size, label_id. simpl. lia.
Qed.

Lemma vstk_bound stk : vstk stk -> top stk < num_states t.
Proof.
  intros Hv. destruct (vstk_rep _ _ _ _ _ _ Hok _ Hv) as (K & HK & _). rewrite (to_states _ _ _ _ _ _ Hok).
  apply nth_error_Some. congruence.
Qed.

(** Input tokens as machine symbols; unknown ones get an id that occurs nowhere. *)
Definition id_of (x : T) : nat :=
  match token_to_id (ivocab ig) x with Some i => i | None => length (id_map (ivocab ig)) end.

Lemma id_of_unknown x stk : vstk stk -> token_to_id (ivocab ig) x = None -> acts (top stk) (Token (id_of x)) = None.
Proof.
  intros Hv Hx. destruct (acts (top stk) (Token (id_of x))) as [y|] eqn:Ha; auto.
  apply act_bound in Ha; auto. unfold id_of in Ha. rewrite Hx in Ha. unfold vocab_size, label_id in Ha. simpl in Ha. lia.
Qed.

Lemma ids_inv w w' : Forall2 (tok_rel ig) w w' -> map id_of w = w'.
Proof.
  induction 1 as [|x i w w' Hx Hw IH]; simpl; auto. f_equal; auto.
  unfold id_of. apply (proj2 (token_to_id_spec _ _ _ (wf_voc _ Hwf))) in Hx. rewrite Hx. auto.
Qed.

Lemma ids_rel w : Forall2 (tok_rel ig) w (map id_of w) \/ exists x, In x w /\ token_to_id (ivocab ig) x = None.
Proof.
  induction w as [|x w [IH|(y & Hy & Hn)]]; simpl; [left; constructor| |right; eauto].
  destruct (token_to_id (ivocab ig) x) as [i|] eqn:Hx; [|right; eauto].
  left. constructor; auto. unfold id_of. rewrite Hx. apply (token_to_id_spec _ _ _ (wf_voc _ Hwf)). auto.
Qed.

Definition est (e : entry) : nat := fst (fst e).

Definition simrel (c : list entry * list nat) (st : list nat * list inode * list T) : Prop :=
  let '(states, nodes, stream) := st in
  vstk (fst c) /\ states = map est (fst c) ++ [0] /\ nodes = syms (fst c) /\ snd c = map id_of stream.

Local Notation p := (mk_parser ig t).

Lemma rules_excluding_eps_strip r : rules_excluding_epsilon r = strip (irhs r).
Proof. reflexivity. Qed.

Lemma hd_states stk : hd_error (map est stk ++ [0]) = Some (top stk).
Proof. destruct stk as [|[[s X] tr] stk]; reflexivity. Qed.

Lemma nodes_match_ok (l : list inode) : nodes_match l (rev l) = true.
Proof.
  unfold nodes_match. rewrite <- (rev_length l), firstn_all, rev_involutive.
  apply forallb_forall. intros [a b] Hi. simpl.
  assert (Hx : forall (k : list inode), In (a, b) (combine k k) -> a = b).
  { induction k as [|x k IH]; simpl; [tauto|]. intros [Hy|Hy]; [congruence|auto]. }
  rewrite (Hx _ Hi). apply eqb_refl.
Qed.

Lemma nodes_match_app (l k : list inode) : nodes_match l (rev l ++ k) = true.
Proof.
  unfold nodes_match. destruct (firstn_app_rev (rev l) k (length l)) as (-> & _); [rewrite rev_length; auto|].
  rewrite rev_involutive. pose proof (nodes_match_ok l) as Hx. unfold nodes_match in Hx.
  rewrite <- (rev_length l), firstn_all, rev_involutive in Hx. auto.
Qed.

Lemma sim_step c st : simrel c st ->
  match @parse_step bm T L _ E p st with
  | Ok (inl st') => exists c', mstep c c' /\ simrel c' st'
  | Ok (inr true) => maccept c
  | Ok (inr false) => stuck c
  | _ => False
  end.
Proof.
  destruct c as [stk w], st as [[states nodes] stream]. intros (Hv & -> & -> & Hw). simpl in Hv, Hw. subst w. simpl.
  pose proof (hd_states stk) as Hhd. simpl fst. destruct (map est stk ++ [0]) as [|s0 rest] eqn:Hst; [discriminate|].
  injection Hhd as ->. pose proof (vstk_bound _ Hv) as Hb.
  assert (Htok : match augmented_token_to_id (ivocab ig) (match stream with x :: _ => Token x | [] => EndOfStream end) with
                 | Some a => a = la (map id_of stream)
                 | None => acts (top stk) (la (map id_of stream)) = None
                 end).
  { destruct stream as [|x stream]; simpl; auto. destruct (token_to_id (ivocab ig) x) as [i|] eqn:Hx.
    - unfold id_of. rewrite Hx. auto.
    - apply id_of_unknown; auto. }
  destruct (augmented_token_to_id _ _) as [a|] eqn:Ha; [|exact Htok]. subst a.
  apply (augmented_token_to_id_spec _ _ _ (wf_voc _ Hwf)) in Ha. pose proof (aug_rel_bound _ _ _ Ha) as Hbd.
  rewrite (get_action_ok ig _ _ _ _ _ Hok) by auto. simpl.
  destruct (acts (top stk) (la (map id_of stream))) as [[s|j|]|] eqn:Hact; simpl; auto.
  - (* shift *)
    destruct stream as [|x stream]; simpl in *.
    { exfalso. destruct (act_shift _ _ _ _ _ _ Hok _ _ _ Hv Hact) as (i & q & _ & Hn).
      apply (nextn_iff ig Heps) in Hn as (ns & Hs & _). apply (no_eos_rnodes ig Heos i).
      rewrite <- (firstn_skipn q (rnodes ig i)), Hs. apply in_or_app. simpl. auto. }
    eexists. split; [apply m_shift; exact Hact|]. simpl.
    split; [apply vs_shift; auto|]. rewrite <- Hst. auto.
  - (* reduce *)
    destruct (rstep_exists ig Heps _ _ _ _ _ Hok _ _ _ Hv Hact) as (stk' & Hr).
    pose proof Hr as (j' & r & po & re & s & A & B & C & D & G & Hs'). assert (j' = j) as -> by congruence.
    pose proof (popped_syms ig Heps _ _ _ _ _ Hok _ _ _ _ _ _ Hv A B C D) as Hp.
    unfold production_rule. rewrite (index_ok _ _ _ B). simpl.
    set (body := rules_excluding_epsilon r).
    change (body) with body in D, Hp.
    assert (Hsy : syms stk = rev (body) ++ syms re) by (rewrite C; etransitivity; [apply syms_app|]; rewrite Hp; auto).
    assert (Hle : (length (body) <=? length (syms stk)) = true).
    { apply Nat.leb_le. rewrite Hsy, app_length, rev_length. lia. }
    rewrite Hle, debug_assert_true. simpl. rewrite Hsy, nodes_match_app, debug_assert_true. simpl.
    assert (Hpop : pop_n (length (body)) (top stk :: rest) = map est re ++ [0]).
    { rewrite <- Hst, C. unfold pop_n. rewrite map_app, <- app_assoc. apply firstn_app_rev. rewrite map_length. auto. }
    assert (Hpop2 : pop_n (length (body)) (rev (body) ++ syms re) = syms re).
    { apply firstn_app_rev. rewrite rev_length. auto. }
    rewrite Hpop, Hpop2.
    assert (Hne : negb (length (map est re ++ [0]) =? 0) = true).
    { rewrite app_length. simpl. rewrite Nat.add_1_r. reflexivity. }
    rewrite Hne, debug_assert_true. simpl. rewrite hd_states. simpl.
    assert (Hvr : vstk re) by (rewrite C in Hv; eapply vstk_app; eauto).
    assert (Hlab : isymbol r < labels_count ig) by (eapply wf_sym; eauto; eapply nth_error_In; eauto).
    rewrite (get_goto_ok ig _ _ _ _ _ Hok) by (auto; apply vstk_bound; auto). simpl. rewrite G.
    exists (stk', map id_of stream). split; [apply m_reduce; auto|]. subst stk'. simpl.
    split; [|auto]. eapply (rstep_vstk ig Hwf) with (stk := stk); eauto.
Qed.

Lemma sim_run c c' : msteps c c' -> (maccept c' \/ stuck c') -> forall st, simrel c st ->
  exists n b, (forall fuel, while_loop fuel (@parse_step bm T L _ E p) st = if n <? fuel then Ok b else Diverge) /\
    (b = true -> maccept c') /\ (b = false -> stuck c').
Proof.
  induction 1 as [c|c c1 c2 Hs Hss IH]; intros Hf st Hrel.
  - pose proof (sim_step _ _ Hrel) as Hst.
    destruct (parse_step p st) as [[st'|b]|e|why|] eqn:Hps; try tauto.
    + destruct Hst as (c'' & Hs & _). exfalso. eapply final_no_step; eauto.
    + exists 0, b. split; [|destruct b; split; auto; discriminate].
      intros [|fuel]; simpl; auto. rewrite Hps. reflexivity.
  - pose proof (sim_step _ _ Hrel) as Hst.
    destruct (parse_step p st) as [[st'|b]|e|why|] eqn:Hps; try tauto.
    + destruct Hst as (c'' & Hs' & Hrel'). rewrite (mstep_fun _ _ _ _ _ _ Hs' Hs) in Hrel'.
      destruct (IH Hf _ Hrel') as (n & b & Hn & Hb). exists (S n), b. split; auto.
      intros [|fuel]; simpl; auto. rewrite Hps. simpl. rewrite Hn. reflexivity.
    + exfalso. eapply (final_no_step ig acts gts c c1); eauto. destruct b; auto.
Qed.

Theorem parse_stream_exact w : exists n b c, (forall fuel, @parse_stream bm T L _ E fuel p w = if n <? fuel then Ok b else Diverge) /\
  msteps ([], map id_of w) c /\ (b = true -> maccept c) /\ (b = false -> stuck c).
Proof.
  destruct (machine_terminates ig Hwf Heos Heps F HF _ _ _ _ Hok (map id_of w) [] (vs_nil _ _)) as (c & Hc & Hf).
  destruct (sim_run _ _ Hc Hf ([root_state], [], w)) as (n & b & Hn & Hb).
  { split; [apply vs_nil|]. auto. }
  exists n, b, c. auto.
Qed.

End Run.
