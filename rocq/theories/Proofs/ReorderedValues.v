(** The order of the rules after the first matters neither to what inputs mean nor to
    which constructors fail on them. *)
From Coq Require Import Arith Bool String NArith List Lia Permutation.
From Verif Require Import Base.Prelude Spec.Grammar Spec.Validity Spec.Nullable Spec.Observers Spec.Early Spec.LR1 Model.Error.
From Verif Require Import Model.IndexedGrammar Model.FirstMap Model.LRTable.
From Verif Require Import Model.TokenTree Model.Terminal Model.Constructor Model.CodeGen Model.Runtime Model.Symbol Model.FrontEnd Model.Diagnostics Model.Rust Model.Emit Model.Expand.
From Verif Require Import Spec.Values Spec.Macro Spec.Diagnostics Spec.EmittedCode Spec.Expansion Spec.Meaning Spec.Reordering.
From Verif Require Import Proofs.Reordered Proofs.LR1Proofs Proofs.LR1Final Proofs.MacroMain Proofs.Meaning Proofs.FailMain Proofs.MeaningMain Proofs.TestGrammars Proofs.ExpandMain.
Import ListNotations.

Lemma rules_numbering rs rs' : reordered_rules rs rs' -> exists f, numbering f rs rs'.
Proof.
  intros (r & rest & rest' & -> & -> & Hp). apply Permutation_nth_error in Hp as (_ & f & Hi & Hf).
  exists (fun i => match i with 0 => 0 | S i => S (f i) end). split; [reflexivity|]. split.
  - intros [|i] [|j] He; try discriminate; auto.
  - intros [|i]; simpl; auto.
Qed.

Lemma rules_sym rs rs' : reordered_rules rs rs' -> reordered_rules rs' rs.
Proof. intros (r & rest & rest' & H1 & H2 & Hp). exists r, rest', rest. split; auto. split; auto. now apply Permutation_sym. Qed.

Lemma rules_in rs rs' r : reordered_rules rs rs' -> In r rs' -> In r rs.
Proof. intros (r0 & rest & rest' & -> & -> & Hp) [<-|Hr]; [now left|right]. now apply (Permutation_in _ (Permutation_sym Hp)). Qed.

Lemma rules_source rs rs' : reordered_rules rs rs' -> reordered (source rs) (source rs').
Proof.
  intros (r & rest & rest' & -> & -> & Hp). exists (to_lr_production_rule r), (source rest), (source rest'). split; [reflexivity|]. split; [reflexivity|].
  now apply Permutation_map.
Qed.

(** A numbering has an inverse. *)
Lemma numbering_onto f rs rs' : reordered_rules rs rs' -> numbering f rs rs' -> forall i, i < List.length rs -> exists j, f j = i.
Proof.
  intros Hre (H0 & Hi & Hn) i Hlt.
  assert (Hl : List.length rs = List.length rs').
  { destruct Hre as (r & rest & rest' & -> & -> & Hp). cbn. now rewrite (Permutation_length Hp). }
  assert (Hinc : incl (seq 0 (List.length rs)) (map f (seq 0 (List.length rs)))).
  { apply NoDup_length_incl.
    - apply FinFun.Injective_map_NoDup; [exact Hi|apply seq_NoDup].
    - now rewrite map_length.
    - intros x Hx. apply in_map_iff in Hx as (j & <- & Hj). apply in_seq in Hj. apply in_seq. split; [lia|].
      assert (nth_error rs' j <> None) by (apply nth_error_Some; lia). rewrite Hn in H. apply nth_error_Some in H. lia. }
  assert (Hin : In i (seq 0 (List.length rs))) by (apply in_seq; lia). apply Hinc, in_map_iff in Hin as (j & Hj & _). eauto.
Qed.

Section Transfer.
Variables (A B C D : Type) (dec : EqDec A) (lit : string -> A) (pat : string -> B -> bool).
Variables u1 u2 : nat -> list cbody -> list (nat * rval A B C) -> rval A B C + D.
Variables d1 d2 : nat -> rval A B C -> rval A B C + D.
Let R1 := mk_rust A B C D dec lit pat u1 d1.
Let R2 := mk_rust A B C D dec lit pat u2 d2.
Variables gi1 gi2 : grammar_info.
Hypothesis Ht : gi_terminal_type gi1 = gi_terminal_type gi2.
Hypothesis Hto : forall i r, nth_error (gi_rules gi1) i = Some r -> exists j, nth_error (gi_rules gi2) j = Some r /\ (i = 0 -> j = 0) /\
  forall vars, rule_value R1 gi1 i vars = rule_value R2 gi2 j vars.
Hypothesis Hd : forall ns w ts, derives (source (gi_rules gi1)) ns w ts -> exists ts', derives (source (gi_rules gi2)) ns w ts'.
Hypothesis Hl : forall w, language (source (gi_rules gi1)) w -> language (source (gi_rules gi2)) w.

Lemma matches_moved s k : sym_matches R1 gi1 s k = sym_matches R2 gi2 s k.
Proof. unfold sym_matches. rewrite Ht. reflexivity. Qed.

Lemma means_moved : (forall l ts v, means R1 gi1 l ts v -> means R2 gi2 l ts v) /\ (forall ns ts vs, all_mean R1 gi1 ns ts vs -> all_mean R2 gi2 ns ts vs).
Proof.
  apply Meaning.means_ind2.
  - intros i r ts vs v Hi _ IH Hv. destruct (Hto i r Hi) as (j & Hj & _ & He). rewrite He in Hv. exact (means_rule R2 gi2 j r ts vs v Hj IH Hv).
  - exact (am_nil R2 gi2).
  - intros s k ns ts vs Hm _ IH. rewrite matches_moved in Hm. exact (am_symbol R2 gi2 s k ns ts vs Hm IH).
  - intros l ts v ns ts' vs _ H1 _ H2. exact (am_label R2 gi2 l ts v ns ts' vs H1 H2).
  - intros ns ts vs _ IH. exact (am_nothing R2 gi2 ns ts vs IH).
Qed.

Lemma input_moved ts v : input_means R1 gi1 ts v -> input_means R2 gi2 ts v.
Proof.
  intros (r & vs & H0 & Hm & Hv). destruct (Hto 0 r H0) as (j & Hj & Hz & He). rewrite (Hz eq_refl) in *. rewrite He in Hv. exists r, vs.
  split; [exact Hj|]. split; [now apply (proj2 means_moved)|exact Hv].
Qed.

Lemma fail_moved : (forall l ts rest u, label_fails R1 gi1 l ts rest u -> label_fails R2 gi2 l ts rest u) /\
  (forall ns ts rest u, nodes_fail R1 gi1 ns ts rest u -> nodes_fail R2 gi2 ns ts rest u).
Proof.
  apply FailMain.label_fails_ind2.
  - intros i r ts vs u Hi Hm Hv. destruct (Hto i r Hi) as (j & Hj & _ & He). rewrite He in Hv. exact (lf_rule R2 gi2 j r ts vs u Hj (proj2 means_moved _ _ _ Hm) Hv).
  - intros i r ts rest u Hi _ IH. destruct (Hto i r Hi) as (j & Hj & _ & He). exact (lf_nodes R2 gi2 j r ts rest u Hj IH).
  - intros l ts rest ns rest' trees u _ IH Hx. destruct (Hd _ _ _ Hx) as (trees' & Hx'). exact (nf_here R2 gi2 l ts rest ns rest' trees' u IH Hx').
  - intros s k ns ts rest u Hm _ IH. rewrite matches_moved in Hm. exact (nf_symbol R2 gi2 s k ns ts rest u Hm IH).
  - intros l ts v ns ts' rest u Hm _ IH. exact (nf_label R2 gi2 l ts v ns ts' rest u (proj1 means_moved _ _ _ Hm) IH).
  - intros ns ts rest u _ IH. exact (nf_nothing R2 gi2 ns ts rest u IH).
Qed.

Lemma ctor_moved ts u : constructor_fails R1 gi1 ts u -> constructor_fails R2 gi2 ts u.
Proof.
  intros (n & rest & Hn & (r & H0 & H) & Hb). exists n, rest. split; [exact Hn|]. split.
  - destruct (Hto 0 r H0) as (j & Hj & Hz & He). rewrite (Hz eq_refl) in *. exists r. split; [exact Hj|].
    destruct H as [H|(Hx & vs & Hm & Hv)]; [left; now apply (proj2 fail_moved)|right]. split; [exact Hx|].
    exists vs. split; [now apply (proj2 means_moved)|]. rewrite <- He. exact Hv.
  - change (could_begin R2 gi2 rest (nth_error (A := tok R1) ts n)). destruct rest as [|s rest], (nth_error ts n) as [k|]; [exact Hb|exact Hb| |exact Hb].
    change (sym_matches R1 gi1 s k = true) in Hb. change (sym_matches R2 gi2 s k = true). pose proof (matches_moved s k) as Hs. rewrite Hb in Hs. symmetry. exact Hs.
Qed.

Lemma begins_moved ts : begins_sentence R1 gi1 ts -> begins_sentence R2 gi2 ts.
Proof.
  intros (us & vs & H3 & H4). exists us, vs. split; [|now apply Hl]. clear - H3 Ht. induction H3 as [|x y l l' Hm _ IH]; constructor; [|exact IH].
  pose proof (matches_moved x y) as Hs. rewrite Hm in Hs. symmetry. exact Hs.
Qed.
End Transfer.

Section Both.
Variable R : rust.
Variable f : nat -> nat.
Variables gi gi' : grammar_info.
Hypothesis Ht : gi_terminal_type gi = gi_terminal_type gi'.
Hypothesis Hre : reordered_rules (gi_rules gi) (gi_rules gi').
Hypothesis Hf : numbering f (gi_rules gi) (gi_rules gi').
Local Notation R' := (renumber f R).

Lemma value_back i vars : rule_value R' gi' i vars = rule_value R gi (f i) vars.
Proof. unfold rule_value. rewrite (proj2 (proj2 Hf)). reflexivity. Qed.

Lemma from i r : nth_error (gi_rules gi') i = Some r -> exists j, nth_error (gi_rules gi) j = Some r /\ (i = 0 -> j = 0) /\
  forall vars, rule_value R' gi' i vars = rule_value R gi j vars.
Proof.
  intros Hi. exists (f i). rewrite <- (proj2 (proj2 Hf)). split; [exact Hi|]. split; [intros ->; exact (proj1 Hf)|]. intros vars. apply value_back.
Qed.

Lemma to i r : nth_error (gi_rules gi) i = Some r -> exists j, nth_error (gi_rules gi') j = Some r /\ (i = 0 -> j = 0) /\
  forall vars, rule_value R gi i vars = rule_value R' gi' j vars.
Proof.
  intros Hi. assert (Hlt : i < List.length (gi_rules gi)) by (apply nth_error_Some; congruence).
  destruct (numbering_onto f _ _ Hre Hf i Hlt) as (j & <-). exists j. rewrite (proj2 (proj2 Hf)). split; [exact Hi|]. split.
  - intros H0. destruct Hf as (Hz & Hi' & _). apply Hi'. congruence.
  - intros vars. symmetry. apply value_back.
Qed.

Lemma derives_back ns w ts : derives (source (gi_rules gi')) ns w ts -> exists ts', derives (source (gi_rules gi)) ns w ts'.
Proof. destruct (reordered_renames _ _ (rules_source _ _ Hre)) as (h & Hh). apply (derives_rn h); auto. Qed.
Lemma derives_forth ns w ts : derives (source (gi_rules gi)) ns w ts -> exists ts', derives (source (gi_rules gi')) ns w ts'.
Proof. destruct (reordered_renames _ _ (rules_source _ _ (rules_sym _ _ Hre))) as (h & Hh). apply (derives_rn h); auto. Qed.

Lemma language_both w : language (source (gi_rules gi)) w <-> language (source (gi_rules gi')) w.
Proof. apply language_reordered, rules_source, Hre. Qed.

End Both.

Section Equivalences.
Variable R : rust.
Variable f : nat -> nat.
Variables gi gi' : grammar_info.
Hypothesis Ht : gi_terminal_type gi = gi_terminal_type gi'.
Hypothesis Hre : reordered_rules (gi_rules gi) (gi_rules gi').
Hypothesis Hf : numbering f (gi_rules gi) (gi_rules gi').
Local Notation R' := (renumber f R).

Lemma input_both ts v : input_means R gi ts v <-> input_means R' gi' ts v.
Proof.
  destruct R as [A B C D dec lit pat uc d]. split.
  - exact (input_moved A B C D dec lit pat uc (fun i => uc (f i)) d (fun i => d (f i)) gi gi' Ht (to (mk_rust A B C D dec lit pat uc d) f gi gi' Hre Hf) ts v).
  - exact (input_moved A B C D dec lit pat (fun i => uc (f i)) uc (fun i => d (f i)) d gi' gi (eq_sym Ht) (from (mk_rust A B C D dec lit pat uc d) f gi gi' Hf) ts v).
Qed.

Lemma ctor_both ts u : constructor_fails R gi ts u <-> constructor_fails R' gi' ts u.
Proof.
  destruct R as [A B C D dec lit pat uc d]. split.
  - exact (ctor_moved A B C D dec lit pat uc (fun i => uc (f i)) d (fun i => d (f i)) gi gi' Ht (to (mk_rust A B C D dec lit pat uc d) f gi gi' Hre Hf) (derives_forth gi gi' Hre) ts u).
  - exact (ctor_moved A B C D dec lit pat (fun i => uc (f i)) uc (fun i => d (f i)) d gi' gi (eq_sym Ht) (from (mk_rust A B C D dec lit pat uc d) f gi gi' Hf) (derives_back gi gi' Hre) ts u).
Qed.

Lemma begins_both ts : begins_sentence R gi ts <-> begins_sentence R' gi' ts.
Proof.
  destruct R as [A B C D dec lit pat uc d]. split.
  - exact (begins_moved A B C D dec lit pat uc (fun i => uc (f i)) d (fun i => d (f i)) gi gi' Ht (fun w => proj1 (language_both gi gi' Hre w)) ts).
  - exact (begins_moved A B C D dec lit pat (fun i => uc (f i)) uc (fun i => d (f i)) d gi' gi (eq_sym Ht) (fun w => proj2 (language_both gi gi' Hre w)) ts).
Qed.

Lemma terminal_back s : terminal_in (gi_rules gi') s -> terminal_in (gi_rules gi) s.
Proof. intros (r & Hr & Hs). exists r. split; [|exact Hs]. eapply rules_in; eauto. Qed.

Lemma unambiguous_both ts : unambiguous_tokens R gi ts -> unambiguous_tokens R' gi' ts.
Proof.
  intros H k s s' Hk Hs Hs' Hm Hm'. apply terminal_back in Hs, Hs'. apply (H k s s' Hk Hs Hs').
  - rewrite <- Hm. unfold sym_matches. rewrite Ht. reflexivity.
  - rewrite <- Hm'. unfold sym_matches. rewrite Ht. reflexivity.
Qed.

(** Where a parser stops is determined. *)
Lemma begins_less ts n m : n <= m -> begins_sentence R gi (firstn m ts) -> begins_sentence R gi (firstn n ts).
Proof.
  intros Hle (us & vs & H1 & H2). exists (firstn n us), (skipn n us ++ vs). split.
  - assert (He : firstn n ts = firstn n (firstn m ts)) by (rewrite firstn_firstn; f_equal; lia). rewrite He. clear - H1. revert n us H1. generalize (firstn m ts). intros l n. revert l.
    induction n as [|n IH]; intros l us H1; [constructor|]. destruct H1; cbn; constructor; auto.
  - rewrite app_assoc, firstn_skipn. exact H2.
Qed.
End Equivalences.

Lemma stops_once (R : rust) gi (ts : list (tok R)) n m : begins_sentence R gi (firstn n ts) -> n <= List.length ts -> 
  (m < List.length ts -> ~ begins_sentence R gi (firstn (S m) ts)) -> n <= m.
Proof.
  intros Hb Hn Hm. destruct (le_lt_dec n m) as [|Hlt]; [auto|]. exfalso. apply Hm; [lia|]. apply (begins_less R gi ts (S m) n); auto.
Qed.

Lemma rules_productive rs rs' : reordered_rules rs rs' -> productive (source rs) -> productive (source rs').
Proof.
  intros Hre Hp r Hr. pose proof (rules_source _ _ Hre) as Hs. destruct (Hp r (reordered_in _ _ _ Hs Hr)) as (w & ts & D).
  destruct (reordered_renames _ _ (reordered_sym _ _ Hs)) as (h & Hh). destruct (derives_rn h _ _ Hh _ _ _ D) as (ts' & D'). eauto.
Qed.

Lemma lr1_valid {T L} `{EqDec T} `{EqDec L} (g : Grammar.grammar T L) : productive g -> valid_grammar g -> (forall r, nth_error g 0 = Some r -> ~ uses r (symbol r)) ->
  (conflict_free g <-> lr1_grammar g).
Proof.
  intros Hp Hv Hr. apply conflict_free_iff; auto; [destruct Hv as (? & ? & _ & _ & Hl & _); auto|apply valid_rest; auto].
Qed.

Lemma root_source rs : root_unused rs -> forall r, nth_error (source rs) 0 = Some r -> ~ uses r (symbol r).
Proof.
  intros Hu r Hr Hx. destruct rs as [|r0 rs]; [discriminate|]. injection Hr as <-. apply (Hu r0 eq_refl). unfold uses in Hx. cbn in Hx.
  apply in_map_iff in Hx as ([s|l|] & He & Hi); try discriminate. injection He as ->. exact Hi.
Qed.

Lemma error_once {E SErr} (R : rust) (m : Rust.result (E := E) (SErr := SErr) R) e e' : gives_error R m e -> gives_error R m e' -> e = e'.
Proof.
  intros (st & ->) (st' & H). injection H as _ H. destruct e as [[t|]|t|u], e' as [[t'|]|t'|u']; cbn in H; try discriminate; try (injection H as ->); reflexivity.
Qed.

Section Macros.
Context {span : Type}.
Variable call_site : span.
Variable join_spans : span -> span -> option span.
Variable print : list ttree -> string.
Variable lex_error : string -> string.
Variable literal_ok : string -> bool.
Context {bm : BuildMode}.
Variables ho ho' : hash_orders.
Hypothesis Ho : orders_ok ho.
Hypothesis Ho' : orders_ok ho'.
Local Notation grammar := (Expand.grammar span call_site join_spans print lex_error literal_ok).
Local Notation pub_grammar := (Expand.pub_grammar span call_site join_spans print lex_error literal_ok).

Lemma macros_unique fuel ts em d : reads_as print (trees ts) d -> defaults_bound (d_rules d) ->
  first_complete (bm := bm) (source (d_rules d)) -> grammar ho fuel ts = Ok (Item span em) \/ pub_grammar ho fuel ts = Ok (Item span em) ->
  forall (R : rust) gi toks v v', gi_terminal_type gi = d_terminal_type d -> gi_rules gi = d_rules d -> unambiguous_tokens R gi toks ->
  input_means R gi toks v -> input_means R gi toks v' -> v = v'.
Proof.
  intros Rd Db Fc H R gi toks v v' Gt Gr Hu Hv Hv'. apply macros_item in H as [vis H].
  destruct (expand_built (bm := bm) call_site join_spans print lex_error literal_ok ho fuel ts vis em Ho H) as (d' & p & P & Ne & B & ->).
  destruct (macro_generated print literal_ok ho fuel _ p d Ho Rd Db B) as (gi' & Gt' & Gr' & _ & Hg). rewrite <- Gr' in Fc.
  assert (T : gi_terminal_type gi = gi_terminal_type gi') by congruence. assert (Rr : gi_rules gi = gi_rules gi') by congruence.
  apply (meaning_unique literal_ok gi' p Hg Fc R toks v v').
  - now apply (unambiguous_same R gi gi').
  - now apply (input_same R gi gi').
  - now apply (input_same R gi gi').
Qed.

Theorem reordered_runs fuel fuel' ts ts' em em' d d' f :
  reads_as print (trees ts) d -> reads_as print (trees ts') d' ->
  d_terminal_type d = d_terminal_type d' -> reordered_rules (d_rules d) (d_rules d') -> numbering f (d_rules d) (d_rules d') ->
  defaults_bound (d_rules d) -> hygienic_rules (d_rules d) -> first_complete (bm := bm) (source (d_rules d)) -> first_complete (bm := bm) (source (d_rules d')) ->
  grammar ho fuel ts = Ok (Item span em) \/ pub_grammar ho fuel ts = Ok (Item span em) ->
  grammar ho' fuel' ts' = Ok (Item span em') \/ pub_grammar ho' fuel' ts' = Ok (Item span em') ->
  exists C, forall (bmr : BuildMode) (E : Type) (R : rust) (SErr : Type) (into : SErr -> UErr R) bv, describes R SErr bv -> depends_on_named R SErr bv ->
  forall gi toks steps, gi_terminal_type gi = d_terminal_type d -> gi_rules gi = d_rules d -> unambiguous_tokens R gi toks -> C * S (List.length toks) <= steps ->
  let m := run_emitted (bm := bmr) R into (of_list toks) bv steps em : Rust.result (E := E) R in
  let m' := run_emitted (bm := bmr) (renumber f R) into (of_list toks) (fun i => bv (f i)) steps em' : Rust.result (E := E) (renumber f R) in
  (exists v : val R, gives_value R m v /\ gives_value (renumber f R) m' v) \/
  (exists e e', gives_error R m e /\ gives_error (renumber f R) m' e' /\ (productive (source (d_rules d)) -> same_error f R e e')).
Proof.
  intros Rd Rd' Tt Hre Hnum Db Hy Fc Fc' It It'.
  assert (Db' : defaults_bound (d_rules d')) by (intros r ty Hr; apply Db; eapply rules_in; eauto).
  assert (Hy' : hygienic_rules (d_rules d')) by (intros r x t y z Hr; eapply Hy, rules_in; eauto).
  destruct (macros_mean call_site join_spans print lex_error literal_ok ho Ho fuel ts em d Rd Db Hy Fc It) as (gi1 & C1 & Gt1 & Gr1 & H1).
  destruct (macros_mean call_site join_spans print lex_error literal_ok ho' Ho' fuel' ts' em' d' Rd' Db' Hy' Fc' It') as (gi2 & C2 & Gt2 & Gr2 & H2).
  exists (C1 + C2). intros bmr E R SErr into bv De Dn gi toks steps Gt Gr Hu Hs m m'.
  assert (T : gi_terminal_type gi1 = gi_terminal_type gi2) by congruence.
  assert (Re : reordered_rules (gi_rules gi1) (gi_rules gi2)) by congruence.
  assert (Nu : numbering f (gi_rules gi1) (gi_rules gi2)) by congruence.
  assert (Hu1 : unambiguous_tokens R gi1 toks) by (apply (unambiguous_same R gi gi1); congruence || exact Hu).
  pose proof (unambiguous_both R f gi1 gi2 T Re toks Hu1) as Hu2.
  assert (Hs1 : C1 * S (List.length toks) <= steps) by (rewrite Nat.mul_add_distr_r in Hs; lia).
  assert (Hs2 : C2 * S (List.length toks) <= steps) by (rewrite Nat.mul_add_distr_r in Hs; lia).
  destruct (H1 bmr E R SErr into bv De Dn toks steps Hu1 Hs1) as (O1 & F1).
  assert (De' : describes (renumber f R) SErr (fun i => bv (f i))) by (intros i body vars; exact (De (f i) body vars)).
  assert (Dn' : depends_on_named (renumber f R) SErr (fun i => bv (f i))) by (intros i body e e' He; exact (Dn (f i) body e e' He)).
  destruct (H2 bmr E (renumber f R) SErr into (fun i => bv (f i)) De' Dn' toks steps Hu2 Hs2) as (O2 & F2).
  fold m in O1, F1. fold m' in O2, F2.
  destruct O1 as [(v & Hv & Gv)|(Nv & e & Re1 & Ge)].
  - left. exists v. split; [exact Gv|]. destruct O2 as [(v' & Hv' & Gv')|(Nv' & _)].
    + apply (input_both R f gi1 gi2 T Re Nu) in Hv'.
      assert (v = v') as ->; [|exact Gv'].
      apply (macros_unique fuel ts em d Rd Db Fc It R gi1 toks); auto.
    + exfalso. apply (Nv' v). apply (input_both R f gi1 gi2 T Re Nu). exact Hv.
  - right. destruct O2 as [(v' & Hv' & _)|(Nv' & e' & Re2 & Ge')].
    { exfalso. apply (Nv v'). apply (input_both R f gi1 gi2 T Re Nu). exact Hv'. }
    exists e, e'. split; [exact Ge|]. split; [exact Ge'|]. intros Pr.
    assert (Pr1 : productive (source (gi_rules gi1))) by (rewrite Gr1; exact Pr).
    assert (Pr2 : productive (source (gi_rules gi2))) by exact (rules_productive _ _ Re Pr1).
    destruct (Re1 Pr1) as [(u & -> & Hc)|(n & Hn & -> & Hc & Hb & Hx)].
    + apply (ctor_both R f gi1 gi2 T Re Nu) in Hc. rewrite (error_once _ _ _ _ Ge' (F2 u Hc)). constructor.
    + destruct (Re2 Pr2) as [(u & -> & Hc')|(n' & Hn' & -> & _ & Hb' & Hx')].
      { exfalso. apply (Hc u). apply (ctor_both R f gi1 gi2 T Re Nu). exact Hc'. }
      assert (n = n') as <-; [|exact (same_parse_error f R (nth_error toks n))].
      apply Nat.le_antisymm.
      * apply (stops_once R gi1 toks n n'); auto. intros Hl Hy1. apply (Hx' Hl). apply (begins_both R f gi1 gi2 T Re). exact Hy1.
      * apply (stops_once R gi1 toks n' n); auto. apply (begins_both R f gi1 gi2 T Re). exact Hb'.
Qed.

Theorem reordered_items ts ts' d d' :
  parse_declarations print (tokenize_from_stream (trees ts)) = Ok d -> parse_declarations print (tokenize_from_stream (trees ts')) = Ok d' ->
  d_terminal_type d = d_terminal_type d' -> reordered_rules (d_rules d) (d_rules d') ->
  root_unused (d_rules d) -> first_complete (source (d_rules d)) -> first_complete (source (d_rules d')) -> productive (source (d_rules d)) ->
  (forall r, In r (d_rules d) -> good_rule r) -> (forall s, terminal_in (d_rules d) s -> good_terminal literal_ok (d_terminal_type d) s) ->
  exists N, forall fuel, N < fuel ->
  ((exists em, grammar ho fuel ts = Ok (Item span em)) <-> (exists em', grammar ho' fuel ts' = Ok (Item span em'))) /\
  ((exists e, grammar ho fuel ts = Ok (CompileError span e)) <-> (exists e', grammar ho' fuel ts' = Ok (CompileError span e'))).
Proof.
  intros P P' Tt Hre Ru Fc Fc' Pr Gr Gt. pose proof (rules_source _ _ Hre) as Hs. pose proof (rules_productive _ _ Hre Pr) as Pr'.
  assert (Ru' : root_unused (d_rules d')).
  { destruct Hre as (r & rest & rest' & E1 & E2 & _). rewrite E1 in Ru. rewrite E2. intros r0 Hr0. apply (Ru r0). exact Hr0. }
  assert (Gr' : forall r, In r (d_rules d') -> good_rule r) by (intros r Hr; apply Gr; eapply rules_in; eauto).
  assert (Gt' : forall s, terminal_in (d_rules d') s -> good_terminal literal_ok (d_terminal_type d') s).
  { intros s (r & Hr & Hx). rewrite <- Tt. apply Gt. exists r. split; [eapply rules_in; eauto|exact Hx]. }
  destruct (macros_accept call_site join_spans print lex_error literal_ok ho Ho ts d P Ru Fc Pr Gr Gt) as (N & HN).
  destruct (macros_accept call_site join_spans print lex_error literal_ok ho' Ho' ts' d' P' Ru' Fc' Pr' Gr' Gt') as (N' & HN').
  assert (V : valid_grammar (source (d_rules d)) /\ lr1_grammar (source (d_rules d)) <-> valid_grammar (source (d_rules d')) /\ lr1_grammar (source (d_rules d'))).
  { split; intros (H1 & H2).
    - pose proof (valid_reordered _ _ Hs H1) as H1'. split; [exact H1'|]. apply (lr1_valid _ Pr' H1' (root_source _ Ru')).
      apply (conflict_free_reordered _ _ Hs). now apply (lr1_valid _ Pr H1 (root_source _ Ru)).
    - pose proof (valid_reordered _ _ (reordered_sym _ _ Hs) H1) as H1'. split; [exact H1'|]. apply (lr1_valid _ Pr H1' (root_source _ Ru)).
      apply (conflict_free_reordered _ _ Hs). now apply (lr1_valid _ Pr' H1 (root_source _ Ru')). }
  exists (N + N'). intros fuel Hf. destruct (HN fuel ltac:(lia)) as (A1 & A2), (HN' fuel ltac:(lia)) as (B1 & B2).
  rewrite A1, A2, B1, B2, V. tauto.
Qed.
End Macros.
