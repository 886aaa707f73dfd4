(** Running a generated program: each round of the loop is a step of an
    abstract machine whose stack holds parse trees. *)
From Coq Require Import Arith Bool String NArith List Lia Permutation.
From Verif Require Import Base.Prelude Spec.Grammar Spec.Validity Spec.Nullable Spec.Observers Spec.States Model.Error.
From Verif Require Import Model.BitSet Model.FixedMap Model.Vocabulary Model.IndexedGrammar Model.FirstMap.
From Verif Require Import Model.Position Model.Closure Model.LRTable Model.StateMap.
From Verif Require Import Model.TokenTree Model.Terminal Model.Constructor Model.CodeGen Model.Runtime Spec.Values.
From Verif Require Import Proofs.WP Proofs.BitSetProofs Proofs.FixedMapProofs Proofs.VocabProofs.
From Verif Require Import Proofs.IndexedProofs Proofs.IndexedBuild Proofs.IndexedMain Proofs.FirstProofs.
From Verif Require Import Proofs.ClosureProofs Proofs.ItemSets Proofs.TableProofs Proofs.TableBuild.
From Verif Require Import Proofs.Fuel Proofs.Machine Proofs.ParserFinal Proofs.RecognitionFinal Proofs.IndexedFinal Proofs.LR1Proofs Proofs.LR1Final Proofs.StatesFinal Proofs.TableFinal Proofs.StateMapFinal Proofs.GenTable Proofs.ConstructorProofs Proofs.GenCode.
Import ListNotations.

(** Patterns. *)
Section Patterns.
Variable literal_ok : string -> bool.
Variable R : rust.
Variable gi : grammar_info.
Local Notation build_pattern := (try_build_pattern literal_ok (gi_terminal_type gi)).
Local Notation matcher_of := (token_matcher literal_ok (gi_terminal_type gi)).

Ltac pat_cases := unfold try_build_pattern, as_literal, as_pattern, as_ident, sym_matches; destruct (gi_terminal_type gi) as [ty|ty].

Lemma pattern_matches sy mode p k : mode <> Rhs -> build_pattern sy mode = Ok p ->
  (match match_pat R p k with Some _ => true | None => false end) = sym_matches R gi sy k.
Proof.
  intros Hm. pat_cases.
  - destruct (sparen sy); try discriminate. destruct (literal_ok (sname sy)); try discriminate. intros Hp. injection Hp as <-.
    destruct k as [n f|r]; simpl; auto. destruct (Raw_dec R r (literal_value R (sname sy))); auto.
  - destruct (string_is_identifier (sname sy)); simpl; [|discriminate].
    destruct k as [n f|r]; simpl; [|destruct (sparen sy), mode; intros Hp; injection Hp as <-; reflexivity].
    destruct (sparen sy) as [pat| |]; destruct mode; try congruence; intros Hp; injection Hp as <-; simpl; destruct f as [f|]; simpl; rewrite ?andb_false_r, ?andb_true_r; auto;
      unfold eqb; destruct (eq_dec (sname sy) n) as [Hn|Hn]; destruct (eq_dec n (sname sy)); simpl; try congruence; auto; try (destruct (pat_matches R pat f); auto).
Qed.

Lemma pattern_named sy p rhs k b : build_pattern sy Named = Ok p -> build_pattern sy Rhs = Ok rhs -> match_pat R p k = Some b ->
  forall E, eval_rhs (E := E) R rhs b = Ok k.
Proof.
  pat_cases.
  - destruct (sparen sy); try discriminate. destruct (literal_ok (sname sy)); try discriminate. intros Hp Hr. injection Hp as <-. injection Hr as <-.
    destruct k as [n f|r]; simpl; try discriminate. destruct (Raw_dec R r (literal_value R (sname sy))) as [->|]; [reflexivity|discriminate].
  - destruct (string_is_identifier (sname sy)); simpl; [|discriminate].
    destruct (sparen sy) as [pat| |]; intros Hp Hr; injection Hp as <-; injection Hr as <-; destruct k as [n [f|]|r]; simpl; try discriminate; unfold eqb;
      destruct (eq_dec (sname sy) n) as [->|]; simpl; try discriminate; [destruct (pat_matches R pat f); try discriminate| |]; intros Hb E; injection Hb as <-; reflexivity.
Qed.

Lemma pattern_field sy mode p k : build_pattern sy mode = Ok p -> sym_matches R gi sy k = true ->
  match node_field (PNSymbol sy) with
  | None => leaf_value R sy k = RTok k
  | Some name => exists f, k = TVariant name (Some f) /\ leaf_value R sy k = RPay f
  end.
Proof.
  pat_cases; unfold node_field, leaf_value.
  - destruct (sparen sy); try discriminate. auto.
  - intros _. destruct k as [n f|r]; [|discriminate]. intros Hm. apply andb_true_iff in Hm as (Hn & Hf). 
    unfold eqb in Hn. destruct (eq_dec n (sname sy)) as [->|]; [|discriminate].
    destruct (sparen sy) as [pat| |]; auto; destruct f as [f|]; try discriminate; eauto.
Qed.

Lemma matcher_some sy p : matcher_of (Token sy) Unnamed = Ok p -> exists pc, p = MSome pc /\ build_pattern sy Unnamed = Ok pc.
Proof. simpl. unfold try_build_matcher. destruct (build_pattern sy Unnamed) as [pc| | |]; simpl; try discriminate. intros Hp. injection Hp as <-. eauto. Qed.

(** Which peeked values a lookahead stands for. *)
Definition la_ok (a : aug user_symbol) (o : option (tok R)) : bool :=
  match a, o with
  | Token sy, Some k => sym_matches R gi sy k
  | EndOfStream, None => true
  | _, _ => false
  end.

Lemma matcher_la a m o : matcher_of a Unnamed = Ok m -> matches R o m = la_ok a o.
Proof.
  destruct a as [sy| |]; intros Hm; [|discriminate|].
  - apply matcher_some in Hm as (pc & -> & Hp). unfold matches, match_matcher. destruct o as [k|]; [|reflexivity]. simpl.
    apply (pattern_matches sy Unnamed); auto. discriminate.
  - simpl in Hm. injection Hm as <-. destruct o; reflexivity.
Qed.
End Patterns.

Lemma find_shift_some R arms o next rhs b : find_shift R arms o = Some (next, rhs, b) -> exists m, In (m, next, rhs) arms /\ match_matcher R m o = Some b.
Proof.
  induction arms as [|[[m n'] r'] arms IH]; simpl; [discriminate|]. destruct (match_matcher R m o) as [b'|] eqn:Hm.
  - intros He. injection He as -> -> ->. exists m. auto.
  - intros Hf. destruct (IH Hf) as (m' & Hin & Hx). eauto.
Qed.

Lemma find_shift_none R arms o : find_shift R arms o = None -> forall m next rhs, In (m, next, rhs) arms -> match_matcher R m o = None.
Proof.
  induction arms as [|[[m n'] r'] arms IH]; simpl; [intros _ m next rhs []|]. destruct (match_matcher R m o) as [b'|] eqn:Hm; [discriminate|].
  intros Hf m0 next rhs [He|Hin]; [congruence|eauto].
Qed.

Lemma find_reduce_some R arms o r : find_reduce R arms o = Some r -> exists ms m, In (ms, r) arms /\ In m ms /\ matches R o m = true.
Proof.
  induction arms as [|[ms r'] arms IH]; simpl; [discriminate|]. destruct (existsb (matches R o) ms) eqn:He.
  - intros Hx. injection Hx as ->. apply existsb_exists in He as (m & Hm & Hx). eauto 6.
  - intros Hf. destruct (IH Hf) as (ms' & m & Hin & Hx). eauto 6.
Qed.

Lemma find_reduce_none R arms o : find_reduce R arms o = None -> forall ms r m, In (ms, r) arms -> In m ms -> matches R o m = false.
Proof.
  induction arms as [|[ms r'] arms IH]; simpl; [intros _ ms r m []|]. destruct (existsb (matches R o) ms) eqn:He; [discriminate|].
  intros Hf ms0 r m [Hx|Hin] Hm; [|eauto]. injection Hx as -> ->. destruct (matches R o m) eqn:Hx; auto.
  assert (Ht : existsb (matches R o) ms0 = true) by (apply existsb_exists; eauto). congruence.
Qed.

Lemma to_lr_node_inj a b : to_lr_node a = to_lr_node b -> a = b.
Proof. destruct a, b; simpl; intros He; try discriminate; try injection He as ->; auto. Qed.

Lemma strip_lr ns : strip (map to_lr_node ns) = map to_lr_node (filter (fun nd => negb (pnode_is_epsilon nd)) ns).
Proof. induction ns as [|[l|s|] ns IH]; simpl; auto; f_equal; auto. Qed.

Section Run.
Context {bm : BuildMode} {E : Type}.
Variable literal_ok : string -> bool.
Variable R : rust.
Variable gi : grammar_info.
Variable F : first_table.
Variable ks : list kernel.
Variable acts : nat -> aug nat -> option action.
Variable gts : nat -> nat -> option nat.
Hypothesis Hsu : setup gi F ks acts gts.
Variable prog : program.
Hypothesis Hprog : program_ok literal_ok gi acts gts prog.
Hypothesis Hdef : defaults_bound (gi_rules gi).
Local Notation g := (source (gi_rules gi)).
Local Notation ig := (gi_grammar gi).
Local Notation t := (gi_table gi).
Local Notation n := (num_states t).
Local Notation sbody := (sbody ig).
Local Notation prel := (prel gi).
Local Notation arel := (aug_rel (ivocab ig)).
Local Notation vstk := (vstk acts gts).
Local Notation build_pattern := (try_build_pattern literal_ok (gi_terminal_type gi)).
Let Hix := su_ix _ _ _ _ _ Hsu.
Let Heps := su_eps _ _ _ _ _ Hsu.
Let Heos := su_eos _ _ _ _ _ Hsu.
Let HF := su_first _ _ _ _ _ Hsu.
Let Hok := su_ok _ _ _ _ _ Hsu.
Let Hwf := ix_wf _ _ Hix.

(** Stack entries with the tree over tokens they were built from. *)
Definition item := (entry * dtree R)%type.
Definition istack := list item.
Definition bare (stk : istack) : list entry := map fst stk.
Definition forest (stk : istack) : list (dtree R) := rev (map snd stk).
Definition toks (stk : istack) : list (tok R) := map snd (flat_map leaves (forest stk)).

Definition leaf_ok (x : user_symbol * tok R) : Prop :=
  sym_matches R gi (fst x) (snd x) = true /\ exists p, build_pattern (fst x) Named = Ok p.

Record item_ok (x : item) : Prop := mk_item_ok {
  it_node : exists nd, prel nd (esym (fst x)) /\ derives g [to_lr_node nd] (map fst (leaves (snd x))) [tmap fst (snd x)];
  it_leaves : Forall leaf_ok (leaves (snd x));
}.

(** Steps of the abstract machine on a peeked value. *)
Inductive kstep (stk : istack) : option (tok R) -> istack -> Prop :=
| ks_shift k sy i s' : tok_rel ig sy i -> leaf_ok (sy, k) -> acts (top (bare stk)) (Token i) = Some (Shift s') ->
    kstep stk (Some k) (((s', Terminal (Token i), Leaf i), Leaf (sy, k)) :: stk)
| ks_reduce o a a' j r popped rest s' : la_ok R gi a o = true -> arel a a' -> acts (top (bare stk)) a' = Some (Reduce j) ->
    nth_error (rules ig) j = Some r -> stk = popped ++ rest -> length popped = length (sbody j) ->
    gts (top (bare rest)) (isymbol r) = Some s' ->
    kstep stk o (((s', Production (isymbol r), Node j (rev (trees (bare popped)))), Node (original_index r) (forest popped)) :: rest).

Definition kaccept (stk : istack) : Prop := acts (top (bare stk)) EndOfStream = Some Accept.
Definition kblocked (stk : istack) (o : option (tok R)) : Prop :=
  forall a a', la_ok R gi a o = true -> arel a a' -> acts (top (bare stk)) a' = None.
Definition overlap (stk : istack) (k : tok R) : Prop :=
  exists sy sy' i i' x x', sy <> sy' /\ tok_rel ig sy i /\ tok_rel ig sy' i' /\
    acts (top (bare stk)) (Token i) = Some x /\ acts (top (bare stk)) (Token i') = Some x' /\
    sym_matches R gi sy k = true /\ sym_matches R gi sy' k = true.

Lemma forest_app a b : forest (a ++ b) = forest b ++ forest a.
Proof. unfold forest. rewrite map_app, rev_app_distr. reflexivity. Qed.

Lemma forest_cons x b : forest (x :: b) = forest b ++ [snd x].
Proof. reflexivity. Qed.

Lemma bare_app a b : bare (a ++ b) = bare a ++ bare b.
Proof. apply map_app. Qed.

Lemma bare_length a : length (bare a) = length a.
Proof. apply map_length. Qed.

Lemma forest_length a : length (forest a) = length a.
Proof. unfold forest. rewrite rev_length. apply map_length. Qed.

Lemma sbody_rule j r : nth_error (rules ig) j = Some r -> sbody j = strip (irhs r).
Proof. intros Hr. unfold LR1Proofs.sbody. rewrite (rnodes_rule gi _ _ Hr). reflexivity. Qed.

Lemma prel_fun nd nd' X : prel nd X -> prel nd' X -> is_epsilon X = false -> nd = nd'.
Proof.
  unfold GenCode.prel. intros H1 H2 He. apply to_lr_node_inj. destruct X as [[i| |]|k]; try discriminate; destruct nd as [l|s|], nd' as [l'|s'|]; simpl in *; try tauto.
  - congruence.
  - rewrite (ilabel_fun _ _ _ _ H1 H2). reflexivity.
Qed.

Lemma items_derive xs : Forall item_ok xs -> forall nds, Forall2 prel nds (map (fun x => esym (fst x)) xs) ->
  Forall (fun nd => pnode_is_epsilon nd = false) nds ->
  derives g (map to_lr_node nds) (map fst (flat_map leaves (map snd xs))) (map (tmap fst) (map snd xs)).
Proof.
  induction 1 as [|x xs [(nd & Hn & D) _] _ IH]; intros nds Hf Hne; inversion Hf as [|nd' ? nds' ? Hn' Hf']; subst; [constructor|].
  inversion Hne as [|? ? He Hne']; subst. simpl. rewrite map_app.
  assert (nd' = nd) as -> by (apply (prel_fun _ _ _ Hn' Hn); rewrite (prel_eps literal_ok gi _ _ Hn'); auto).
  exact (derives_app g [to_lr_node nd] _ _ _ _ _ D (IH _ Hf' Hne')).
Qed.

Lemma Forall2_strip ns Xs : Forall2 prel ns Xs -> Forall2 prel (filter (fun nd => negb (pnode_is_epsilon nd)) ns) (strip Xs).
Proof.
  induction 1 as [|nd X ns Xs Hn _ IH]; simpl; [constructor|]. rewrite (prel_eps literal_ok gi _ _ Hn). destruct (pnode_is_epsilon nd); simpl; auto.
Qed.

Lemma items_rule xs pr r : Forall item_ok xs -> Forall2 prel (pr_nodes pr) (irhs r) -> map (fun x => esym (fst x)) xs = strip (irhs r) ->
  derives g (rhs (to_lr_production_rule pr)) (map fst (flat_map leaves (map snd xs))) (map (tmap fst) (map snd xs)).
Proof.
  intros Hx Hf Hs. apply derives_strip. simpl. rewrite strip_lr. apply items_derive; auto.
  - rewrite Hs. apply Forall2_strip. auto.
  - apply Forall_forall. intros nd Hin. apply filter_In in Hin as (_ & Hin). destruct (pnode_is_epsilon nd); auto; discriminate.
Qed.

Lemma forest_syms popped : map (fun x : item => esym (fst x)) (rev popped) = rev (syms (bare popped)).
Proof. unfold syms, bare. rewrite map_rev, map_map. reflexivity. Qed.

Lemma forest_rev popped : forest popped = map snd (rev popped).
Proof. unfold forest. rewrite map_rev. reflexivity. Qed.

Lemma kstep_rstep stk o stk' : vstk (bare stk) -> kstep stk o stk' ->
  (exists i sy k s', o = Some k /\ tok_rel ig sy i /\ leaf_ok (sy, k) /\ acts (top (bare stk)) (Token i) = Some (Shift s') /\
     stk' = ((s', Terminal (Token i), Leaf i), Leaf (sy, k)) :: stk) \/
  (exists a a', la_ok R gi a o = true /\ arel a a' /\ rstep ig acts gts a' (bare stk) (bare stk')).
Proof.
  intros Hv [k sy i s' H1 H2 H3|o' a a' j r popped rest s' H1 H2 H3 H4 -> H6 H7]; [left; eauto 12|right].
  exists a, a'. split; auto. split; auto. exists j, r, (bare popped), (bare rest), s'. split; auto. split; auto. rewrite bare_app. split; auto.
  split; [rewrite bare_length, H6, (sbody_rule _ _ H4); reflexivity|]. auto.
Qed.

Lemma kstep_vstk stk o stk' : vstk (bare stk) -> kstep stk o stk' -> vstk (bare stk').
Proof.
  intros Hv Hk. destruct (kstep_rstep _ _ _ Hv Hk) as [(i & sy & k & s' & -> & H1 & H2 & H3 & ->)|(a & a' & _ & _ & Hr)].
  - simpl. apply vs_shift; auto.
  - exact (rstep_vstk ig Hwf F t ks acts gts Hok _ _ _ Hv Hr).
Qed.

Lemma popped_rule stk popped rest a' j r : vstk (bare stk) -> acts (top (bare stk)) a' = Some (Reduce j) -> nth_error (rules ig) j = Some r ->
  stk = popped ++ rest -> length popped = length (sbody j) -> map (fun x : item => esym (fst x)) (rev popped) = strip (irhs r).
Proof.
  intros Hv Ha Hr -> Hl. rewrite forest_syms. rewrite bare_app in *.
  rewrite (popped_syms ig Heps F t ks acts gts Hok _ (bare popped) (bare rest) a' j r Hv Ha Hr eq_refl).
  - apply rev_involutive.
  - rewrite bare_length, Hl, (sbody_rule _ _ Hr). auto.
Qed.

Lemma kstep_items stk o stk' : vstk (bare stk) -> Forall item_ok stk -> kstep stk o stk' -> Forall item_ok stk'.
Proof.
  intros Hv Hi [k sy i s' H1 H2 H3|o' a a' j r popped rest s' H1 H2 H3 H4 H5 H6 H7].
  - constructor; auto. constructor; simpl; auto. exists (PNSymbol sy). split; auto. simpl. repeat constructor.
  - pose proof (popped_rule _ _ _ _ _ _ Hv H3 H4 H5 H6) as Hs. subst stk. apply Forall_app in Hi as (Hi1 & Hi2). constructor; auto.
    destruct (rule_source gi Hix _ _ H4) as (pr & Hpr & Hf & Hl). apply Forall_rev in Hi1.
    constructor; cbn [fst snd esym].
    + exists (PNProduction (pr_name pr)). split; [exact Hl|]. cbn [to_lr_node].
      pose proof (items_rule _ _ _ Hi1 Hf Hs) as D. rewrite <- forest_rev in D.
      assert (Hn : nth_error g (original_index r) = Some (to_lr_production_rule pr)) by (unfold source; rewrite nth_error_map, Hpr; reflexivity).
      pose proof (derives_production g _ _ _ _ [] [] [] Hn D (derives_nil g)) as D'. rewrite app_nil_r in D'. exact D'.
    + simpl. rewrite forest_rev. clear -Hi1. induction Hi1 as [|x l [_ Hx] _ IH]; simpl; [constructor|]. apply Forall_app. auto.
Qed.

Lemma flat_map_one {A B} (f : A -> list B) x : flat_map f [x] = f x.
Proof. simpl. apply app_nil_r. Qed.

Lemma kstep_toks stk o stk' : kstep stk o stk' -> toks stk' = toks stk \/ exists k, o = Some k /\ toks stk' = toks stk ++ [k].
Proof.
  intros [k sy i s' H1 H2 H3|o' a a' j r popped rest s' H1 H2 H3 H4 -> H6 H7]; [right; exists k; split; auto|left];
    unfold toks; rewrite forest_cons, flat_map_app, map_app, flat_map_one; auto.
  rewrite forest_app, flat_map_app, map_app. reflexivity.
Qed.

Lemma accept_tree stk : vstk (bare stk) -> Forall item_ok stk -> kaccept stk ->
  parses_tokens R gi (toks stk) (Node 0 (forest stk)) /\ length stk = length (sbody 0).
Proof.
  intros Hv Hi Ha. destruct (act_accept ig F t ks acts gts Hok _ _ Hv Ha) as (_ & p & Hc & Hn).
  pose proof (core_root_gen ig Hwf Heps acts gts _ _ Hv Hc Hn) as Hs.
  destruct (ix_root_rule g ig Hix) as (r0 & r & Hr0 & Hr & _ & Ho & _). simpl in Ho.
  destruct (rule_source gi Hix _ _ Hr) as (pr & Hpr & Hf & _). rewrite Ho in Hpr. rewrite (rnodes_rule gi _ _ Hr) in Hs.
  apply Forall_rev in Hi as Hi'. pose proof (items_rule (rev stk) pr r Hi' Hf) as D. rewrite forest_syms, Hs, rev_involutive, <- forest_rev in D. specialize (D eq_refl).
  split.
  - split; [reflexivity|]. split.
    + intros s k Hin. assert (Hx : Forall leaf_ok (leaves (Node 0 (forest stk)))).
      { simpl. rewrite forest_rev. clear -Hi'. induction Hi' as [|x l [_ Hx] _ IH]; simpl; [constructor|]. apply Forall_app. auto. }
      rewrite Forall_forall in Hx. apply (Hx _ Hin).
    + exists (to_lr_production_rule pr), (map (tmap fst) (forest stk)). split; [unfold source; rewrite nth_error_map, Hpr; reflexivity|]. auto.
  - apply (f_equal (@length inode)) in Hs. rewrite (sbody_rule _ _ Hr). etransitivity; [|etransitivity; [exact Hs|apply rev_length]].
    unfold syms. rewrite map_length, bare_length. reflexivity.
Qed.

(** Values on the run-time stack. *)
Definition holds (d : dtree R) (v : val R) : Prop :=
  match d with
  | Leaf (_, k) => v = RTok k
  | Node _ _ => exists log, eval R gi d = (log, inl v)
  end.

Definition has_value (d : dtree R) (v : val R) : Prop := exists log, eval R gi d = (log, inl v).

Lemma in_order_ok (ds : list (dtree R)) vs : Forall2 has_value ds vs ->
  in_order R (map (eval R gi) ds) = (concat (map (fun d => fst (eval R gi d)) ds), inl vs).
Proof. induction 1 as [|d v ds vs (log & Hd) _ IH]; simpl; auto. rewrite Hd, IH. reflexivity. Qed.

Lemma node_indices_ok pns Xs es : Forall2 prel pns (Xs ++ es) -> (forall X, In X Xs -> is_epsilon X = false) -> Forall (fun nd => nd = Terminal Epsilon) es ->
  node_indices pns = seq 0 (length Xs).
Proof.
  intros Hf HX He. apply Forall2_app_inv_r' in Hf as (k1 & k2 & -> & F1 & F2). unfold node_indices.
  assert (H2 : forall i, node_indices_from i k2 = []).
  { clear F1 HX. revert es F2 He. induction k2 as [|nd k2 IH]; intros es F2 He i; auto. inversion F2 as [|? X ? es' Hn F2']; subst. inversion He; subst.
    apply (prel_eps literal_ok gi) in Hn. destruct nd; try discriminate. simpl. eapply IH; eauto. }
  generalize 0. induction F1 as [|nd X k1 Xs Hn _ IH]; intros i; simpl; [apply H2|].
  apply (prel_eps literal_ok gi) in Hn. rewrite (HX X) in Hn by (simpl; auto). destruct nd; try discriminate; f_equal; apply IH; intros; apply HX; simpl; auto.
Qed.

Lemma rule_indices j r : nth_error (rules ig) j = Some r -> indices_of gi (original_index r) = seq 0 (length (sbody j)).
Proof.
  intros Hr. destruct (rule_source gi Hix _ _ Hr) as (pr & Hpr & Hf & _). unfold indices_of. rewrite Hpr.
  rewrite <- (rnodes_rule gi _ _ Hr) in Hf. destruct (rnodes_split ig Heps j) as (es & Hs & Hes). rewrite Hs in Hf.
  eapply node_indices_ok; eauto. apply sbody_neps.
Qed.

Lemma eval_ctor_ok i c vs : build_constructor (gi_rules gi) i = Ok c -> length vs = length (indices_of gi i) ->
  eval_ctor (E := E) R i c (combine (indices_of gi i) vs) = Ok (rule_value R gi i (combine (indices_of gi i) vs)).
Proof.
  unfold build_constructor, index, rule_value, indices_of. destruct (nth_error (gi_rules gi) i) as [pr|] eqn:Hr; [|discriminate]. cbn [bind].
  destruct (pr_block pr) as [b|] eqn:Hb.
  - intros Hc _. rewrite Hc. destruct b as [del ts]. unfold rewrite_provided_constructor in Hc. destruct (negb (eqb del Brace)); [discriminate|].
    destruct (substitute_vars _ _ _); try discriminate. simpl in Hc. injection Hc as <-. reflexivity.
  - destruct (pr_type pr) as [ty|] eqn:Hty; [|intros Hc; injection Hc as <-; reflexivity].
    unfold generate_default_constructor. destruct (Datatypes.length (pr_nodes pr) =? 1) eqn:Hl; [|discriminate]. simpl. intros Hc. injection Hc as <-.
    apply Nat.eqb_eq in Hl. assert (Hne : pr_nodes pr <> [PNEpsilon]) by (eapply Hdef; eauto; eapply nth_error_In; eauto).
    destruct (pr_nodes pr) as [|nd [|]]; try discriminate. destruct nd; [| |congruence]; simpl; intros Hv; destruct vs as [|v [|]]; try discriminate; reflexivity.
Qed.

Section Exec.
Context {SErr : Type}.
Variable into : SErr -> UErr R.
Variable input : nat -> option (tok R + SErr).
Local Notation pstate := (@pstate R SErr).

Definition front_ok (stk : istack) (front : list (nat * val R)) : Prop :=
  Forall2 (fun x sv => fst sv = est (fst x) /\ holds (snd x) (snd sv)) stk front.

Definition log_of (stk : istack) : list (nat * env R) := concat (map (fun d => fst (eval R gi d)) (forest stk)).

Record rel (st : pstate) (stk : istack) : Prop := mk_rel {
  rl_vstk : vstk (bare stk);
  rl_items : Forall item_ok stk;
  rl_stack : exists front, front_ok stk front /\ st_stack R st = front ++ [(0, RUnit)];
  rl_log : st_log R st = log_of stk;
  rl_stream : st_stream R st = mk_stream R (S (length (toks stk))) (input (length (toks stk)));
  rl_input : forall i k, nth_error (toks stk) i = Some k -> input i = Some (inl k);
}.

Lemma log_of_app a b : log_of (a ++ b) = log_of b ++ log_of a.
Proof. unfold log_of. rewrite forest_app, map_app, concat_app. reflexivity. Qed.

Lemma log_of_cons x b : log_of (x :: b) = log_of b ++ fst (eval R gi (snd x)).
Proof. unfold log_of. rewrite forest_cons, map_app, concat_app. simpl. rewrite app_nil_r. reflexivity. Qed.

Lemma rel_new : rel (state_new R input (p_root prog, RUnit)) [].
Proof.
  rewrite (po_root _ _ _ _ _ Hprog). constructor; simpl; auto; try constructor.
  - exists []. split; auto. constructor.
  - intros [|i] k Hk; discriminate.
Qed.

(** The value that a binding takes from a stack entry. *)
Lemma extract_ok x nd v p arms : item_ok x -> prel nd (esym (fst x)) -> pnode_is_epsilon nd = false -> holds (snd x) v -> In (est (fst x)) arms ->
  exists w, extract (E := E) R (mk_bind p arms (node_field nd)) (est (fst x), v) = Ok w /\ has_value (snd x) w.
Proof.
  intros [(nd' & Hn' & D) Hl] Hn He Hv Hin. rewrite (prel_fun _ _ _ Hn' Hn) in D by (rewrite (prel_eps literal_ok gi _ _ Hn); auto). clear nd' Hn'.
  unfold extract. cbn [b_arms b_destruct]. destruct (in_dec Nat.eq_dec (est (fst x)) arms); [|tauto]. destruct x as [e d]. cbn [fst snd] in *.
  destruct nd as [l|sy|]; [| |discriminate].
  - cbn [node_field]. exists v. split; auto. destruct d as [[s k]|j ts]; [inversion D|]. exact Hv.
  - assert (Hd : exists k, d = Leaf (sy, k)).
    { destruct d as [[s k]|j ts]; simpl in D; inversion D; subst. eauto. }
    destruct Hd as (k & ->). simpl in Hv. subst v. simpl in Hl. inversion Hl as [|? ? (Hm & q & Hq) _]; subst. simpl in Hm, Hq.
    pose proof (pattern_field literal_ok R gi sy Named q k Hq Hm) as Hfld. destruct (node_field (PNSymbol sy)) as [name|].
    + destruct Hfld as (f & -> & Hlv). rewrite eqb_refl. exists (RPay f). split; auto. exists []. simpl. rewrite Hlv. reflexivity.
    + exists (RTok k). split; auto. exists []. simpl. rewrite Hfld. reflexivity.
Qed.

Lemma vstk_edge e es : vstk (e :: es) -> top es < n /\ iedge acts gts (top es) (esym e) (est e).
Proof.
  intros Hv. split; [exact (vstk_bound ig F t ks acts gts Hok _ (vstk_tail _ _ _ _ Hv))|]. inversion Hv; subst; simpl; auto.
Qed.

Lemma exec_binds_ok pns p ss bs fin : bound gi acts gts pns p ss bs fin -> forall popped rest front (st : pstate) vars,
  length popped = p -> vstk (bare (popped ++ rest)) -> In (top (bare (popped ++ rest))) ss -> Forall item_ok popped ->
  front_ok popped front ->
  st_stack R st = front ++ vars ->
  forall env0, exists vs, exec_binds (E := E) R bs st env0 = Ok (mk_pstate R (st_stream R st) vars (st_log R st), combine (seq 0 p) vs ++ env0) /\
    Forall2 has_value (forest popped) vs /\ In (top (bare rest)) fin.
Proof.
  induction 1 as [ss|p ss arms nd bs ss' fin Hnd He Harms Hss Hb IH]; intros popped rest front st tl Hl Hv Hin Hi Hfr Hst env0.
  - destruct popped; [|discriminate]. inversion Hfr; subst. simpl in *. exists []. split; [destruct st; simpl in *; subst; auto|]. split; auto. constructor.
  - destruct popped as [|x popped]; [discriminate|]. injection Hl as Hl. inversion Hfr as [|? [s v] ? front' (Hs & Hh) Hfr']; subst. simpl in Hs, Hh. subst s.
    inversion Hi as [|? ? Hix0 Hi']; subst. simpl in Hv. destruct (vstk_edge _ _ Hv) as (Hlt & Hed).
    assert (Htop : top (bare ((x :: popped) ++ rest)) = est (fst x)) by (destruct x as [[[s0 X0] t0] d0]; reflexivity). rewrite Htop in Hin.
    destruct (Hss _ Hin) as (_ & _ & Hx). destruct (Hx _ _ Hlt Hed) as (Hprel & Hin').
    destruct (extract_ok x nd v (length popped) arms Hix0 Hprel He Hh) as (w & Hw & Hval); [apply Harms; auto|].
    cbn [exec_binds]. unfold pop_state. rewrite Hst. cbn [app bind]. rewrite Hw. cbn [bind b_var].
    destruct (IH popped rest front' (mk_pstate R (st_stream R st) (front' ++ tl) (st_log R st)) tl eq_refl (vstk_tail _ _ _ _ Hv) Hin' Hi' Hfr' eq_refl ((length popped, w) :: env0))
      as (vs & Hex & Hvs & Hfin).
    exists (vs ++ [w]). split.
    + rewrite Hex. cbn [st_stream st_log]. f_equal. f_equal. change (S (length popped)) with (1 + length popped). rewrite Nat.add_comm, seq_app.
      rewrite combine_app; [rewrite <- app_assoc; reflexivity|].
      apply Forall2_len in Hvs. rewrite seq_length, <- Hvs. unfold forest. rewrite rev_length, map_length. reflexivity.
    + split; auto. rewrite forest_cons. apply Forall2_app; auto.
Qed.

Lemma front_split stk popped rest front : front_ok stk front -> stk = popped ++ rest ->
  exists f1 f2, front = f1 ++ f2 /\ front_ok popped f1 /\ front_ok rest f2.
Proof. intros Hf ->. apply Forall2_app_inv_l in Hf as (f1 & f2 & H1 & H2 & ->). eauto. Qed.

Lemma eval_node i ds vs : Forall2 has_value ds vs ->
  eval R gi (Node i ds) = (concat (map (fun d => fst (eval R gi d)) ds) ++ [(i, combine (indices_of gi i) vs)], rule_value R gi i (combine (indices_of gi i) vs)).
Proof. intros Hv. cbn [eval]. rewrite (in_order_ok _ _ Hv). reflexivity. Qed.

Lemma top_stack stk front : front_ok stk front -> exists s v, hd_error (front ++ [(0, RUnit)]) = Some (s, v) /\ s = top (bare stk).
Proof.
  intros Hf. destruct Hf as [|x [s0 v0] stk front (H1 & _) _]; simpl; [eauto|]. exists s0, v0. split; auto. simpl in H1. rewrite H1. destruct x as [[[s X] d] t0]. reflexivity.
Qed.

Lemma goto_exec (st : pstate) rest front gc l s' fin v : front_ok rest front -> st_stack R st = front ++ [(0, RUnit)] -> In (top (bare rest)) fin ->
  goto_ok gi gts fin l gc -> gts (top (bare rest)) l = Some s' -> exec_goto (E := E) R gc v st = Ok (push R (s', v) st).
Proof.
  intros Hf Hst Hin (_ & Hg) Hs'. destruct gc as [nx|arms]; simpl in *; [|destruct Hg as (Hg & _)].
  - rewrite (Hg _ Hin) in Hs'. congruence.
  - unfold state. rewrite Hst. destruct (top_stack _ _ Hf) as (s0 & v0 & -> & ->). cbn [expect bind fst]. rewrite (Hg _ _ Hin Hs'). reflexivity.
Qed.

(** One reduction. *)
Lemma reduce_exec st stk o a a' j rc : rel st stk -> la_ok R gi a o = true -> arel a a' -> acts (top (bare stk)) a' = Some (Reduce j) ->
  reduce_ok gi acts gts (top (bare stk)) j rc ->
  exists stk' x rest, kstep stk o stk' /\ stk' = x :: rest /\
    ((exists v log, eval R gi (snd x) = (log, inl v) /\ exists st', exec_reduce (E := E) R rc st = Ok (st', Continue R) /\ rel st' stk') \/
     (exists e log, eval R gi (snd x) = (log, inr e) /\ exists st', exec_reduce (E := E) R rc st = Ok (st', Failed R (UserError R e)) /\
        st_log R st' = log_of stk' /\ st_stream R st' = st_stream R st)).
Proof.
  intros Hrel Hla Har Ha [(r & pr & fin & Hr & Hpr & Hrr & Hc & Hb & Hg)]. destruct Hrel as [Hv Hi (front & Hf & Hst) Hlog Hstr Hinp].
  destruct (rstep_exists ig Heps F t ks acts gts Hok _ _ _ Hv Ha) as (bs' & j' & r' & po & re & s' & A1 & B1 & C1 & D1 & E1 & _).
  rewrite Ha in A1. injection A1 as <-. rewrite Hr in B1. injection B1 as <-.
  assert (Hsp : exists popped rest, stk = popped ++ rest /\ bare popped = po /\ bare rest = re).
  { unfold bare in *. apply map_eq_app in C1 as (l1 & l2 & -> & <- & <-). eauto. }
  destruct Hsp as (popped & rest & -> & <- & <-). rewrite bare_length in D1. rewrite <- (sbody_rule _ _ Hr) in D1.
  set (x := ((s', Production (isymbol r), Node j (rev (trees (bare popped)))), Node (original_index r) (forest popped)) : item).
  assert (Hk : kstep (popped ++ rest) o (x :: rest)) by (eapply ks_reduce; eauto).
  exists (x :: rest), x, rest. split; auto. split; auto.
  destruct (front_split _ _ _ _ Hf eq_refl) as (f1 & f2 & -> & Hf1 & Hf2). pose proof Hi as Hi0. apply Forall_app in Hi as (Hi1 & Hi2).
  rewrite <- app_assoc in Hst.
  destruct (exec_binds_ok _ _ _ _ _ Hb popped rest f1 st (f2 ++ [(0, RUnit)]) D1 Hv (or_introl eq_refl) Hi1 Hf1 Hst []) as (vs & Hex & Hvs & Hfin).
  pose proof (rule_indices _ _ Hr) as Hind. rewrite app_nil_r, <- Hind in Hex.
  assert (Hlen : length vs = length (indices_of gi (original_index r))).
  { apply Forall2_len in Hvs. rewrite Hind, seq_length. etransitivity; [symmetry; exact Hvs|]. etransitivity; [apply forest_length|exact D1]. }
  pose proof (eval_node (original_index r) _ _ Hvs) as Hev. unfold exec_reduce. rewrite Hex. cbn [bind]. unfold exec_ctor. rewrite Hrr, (eval_ctor_ok _ _ _ Hc Hlen). cbn [bind].
  set (vars := combine (indices_of gi (original_index r)) vs) in *. cbn [st_stream st_stack st_log].
  assert (Hlog' : st_log R st ++ [(original_index r, vars)] = log_of (x :: rest)).
  { rewrite log_of_cons. unfold x. cbn [snd]. rewrite Hev. cbn [fst]. rewrite Hlog, log_of_app, app_assoc. reflexivity. }
  destruct (rule_value R gi (original_index r) vars) as [v|e] eqn:Hrv.
  - left. exists v, (concat (map (fun d => fst (eval R gi d)) (forest popped)) ++ [(original_index r, vars)]). split; [exact Hev|].
    eexists. split.
    + erewrite (goto_exec _ rest f2); [reflexivity|exact Hf2|reflexivity|exact Hfin|exact Hg|exact E1].
    + assert (Htk : toks (x :: rest) = toks (popped ++ rest)) by (destruct (kstep_toks _ _ _ Hk) as [Ht|(k & _ & _)]; auto;
        unfold toks; rewrite forest_cons, forest_app, !flat_map_app, flat_map_one; reflexivity).
      constructor.
      * exact (kstep_vstk _ _ _ Hv Hk).
      * exact (kstep_items _ _ _ Hv Hi0 Hk).
      * exists ((s', v) :: f2). split; [|reflexivity]. constructor; auto. split; auto. simpl. eexists. exact Hev.
      * exact Hlog'.
      * rewrite Htk. exact Hstr.
      * rewrite Htk. exact Hinp.
  - right. exists e, (concat (map (fun d => fst (eval R gi d)) (forest popped)) ++ [(original_index r, vars)]). split; [exact Hev|].
    eexists. split; [reflexivity|]. split; auto.
Qed.

Lemma accept_exec st stk ac : rel st stk -> kaccept stk -> accept_ok gi acts gts (top (bare stk)) ac ->
  exists log res, eval R gi (Node 0 (forest stk)) = (log, res) /\
  exists st', exec_accept (E := E) R ac st = Ok (st', match res with inl v => Accepted R v | inr e => Failed R (UserError R e) end) /\ st_log R st' = log /\
    st_stream R st' = st_stream R st.
Proof.
  intros Hrel Hacc [(r & pr & fin & Hr & Hpr & Ho & Har & Hc & Hb)]. destruct Hrel as [Hv Hi (front & Hf & Hst) Hlog Hstr Hinp].
  destruct (accept_tree _ Hv Hi Hacc) as (_ & Hl).
  destruct (exec_binds_ok _ _ _ _ _ Hb stk [] front st [(0, RUnit)] Hl) with (env0 := @nil (nat * val R)) as (vs & Hex & Hvs & _); auto.
  { rewrite app_nil_r. auto. } { rewrite app_nil_r. simpl. auto. }
  pose proof (rule_indices _ _ Hr) as Hind. rewrite Ho in Hind. rewrite app_nil_r, <- Hind in Hex.
  assert (Hlen : length vs = length (indices_of gi 0)).
  { apply Forall2_len in Hvs. rewrite Hind, seq_length. etransitivity; [symmetry; exact Hvs|]. etransitivity; [apply forest_length|exact Hl]. }
  eexists _, _. split; [apply (eval_node 0 _ _ Hvs)|].
  unfold exec_accept. rewrite Hex. cbn [bind]. unfold verify_empty_stack, debug_assert. cbn [st_stack length Nat.eqb].
  unfold exec_ctor. rewrite Har, (eval_ctor_ok _ _ _ Hc Hlen). cbn [st_stream st_stack st_log].
  destruct debug_assertions; cbn [bind]; destruct (rule_value R gi 0 _); eexists; (split; [reflexivity|]); cbn [st_log st_stream]; rewrite Hlog; auto.
Qed.

(** In builds with debug assertions, overlapping patterns are excluded. *)
Definition clear_of_overlap (stk : istack) (o : option (tok R)) : Prop :=
  debug_assertions = true -> (exists ty, gi_terminal_type gi = TTEnum ty) -> forall k, o = Some k -> ~ overlap stk k.

Definition next_is (stk : istack) (o : option (tok R)) : Prop := input (length (toks stk)) = option_map inl o.

(** The parser moves on, or ends. *)
Definition kmove (stk stk' : istack) : Prop :=
  exists o x rest v, next_is stk o /\ clear_of_overlap stk o /\ kstep stk o stk' /\ stk' = x :: rest /\ has_value (snd x) v.

Inductive kresult (stk : istack) : val R + parser_error R -> list (nat * env R) -> Prop :=
| kr_stream e : input (length (toks stk)) = Some (inr e) -> kresult stk (inr (UserError R (into e))) (log_of stk)
| kr_overlap k ty : next_is stk (Some k) -> debug_assertions = true -> gi_terminal_type gi = TTEnum ty -> overlap stk k ->
    kresult stk (inr (OverlappingTokenMatchers R k)) (log_of stk)
| kr_user o x rest e log : next_is stk o -> clear_of_overlap stk o -> kstep stk o (x :: rest) -> eval R gi (snd x) = (log, inr e) ->
    kresult stk (inr (UserError R e)) (log_of (x :: rest))
| kr_accept log res : next_is stk None -> kaccept stk -> eval R gi (Node 0 (forest stk)) = (log, res) ->
    kresult stk (match res with inl v => inl v | inr e => inr (UserError R e) end) log
| kr_blocked o : next_is stk o -> clear_of_overlap stk o -> kblocked stk o -> kresult stk (inr (ParseError R o)) (log_of stk).

Lemma count_overlap ms k syms : NoDup syms -> Forall2 (fun sy m => token_matcher literal_ok (gi_terminal_type gi) (Token sy) Unnamed = Ok m) syms ms ->
  (1 <? count_matches R ms (Some k)) = true <->
  exists sy sy', sy <> sy' /\ In sy syms /\ In sy' syms /\ sym_matches R gi sy k = true /\ sym_matches R gi sy' k = true.
Proof.
  intros Hnd Hf. assert (Hc : count_matches R ms (Some k) = length (filter (fun sy => sym_matches R gi sy k) syms)).
  { unfold count_matches. clear Hnd. induction Hf as [|sy m syms ms Hm _ IH]; simpl; auto. rewrite (matcher_la literal_ok R gi _ _ _ Hm). simpl.
    destruct (sym_matches R gi sy k); simpl; congruence. }
  rewrite Hc, Nat.ltb_lt. set (l := filter _ syms). assert (Hl : NoDup l) by (apply NoDup_filter; auto).
  assert (Hin : forall sy, In sy l <-> In sy syms /\ sym_matches R gi sy k = true) by (intros sy; apply filter_In). split.
  - intros Hlt. destruct l as [|a [|b l']]; simpl in Hlt; try lia. exists a, b. inversion Hl as [|? ? Hx _]; subst.
    destruct (proj1 (Hin a)) as (A1 & A2); [simpl; auto|]. destruct (proj1 (Hin b)) as (B1 & B2); [simpl; auto|].
    split; [intros ->; apply Hx; simpl; auto|]. auto.
  - intros (a & b & Hne & A1 & B1 & A2 & B2). assert (Hi : incl [a; b] l).
    { intros x [<-|[<-|[]]]; apply Hin; auto. }
    apply NoDup_incl_length in Hi; [simpl in Hi; lia|]. repeat constructor; simpl; intuition.
Qed.

Lemma match_exec st stk c o : rel st stk -> next_is stk o -> clear_of_overlap stk o -> code_ok literal_ok gi acts gts (top (bare stk)) c ->
  exists st' ctl, exec_match (E := E) R input c o st = Ok (st', ctl) /\
    match ctl with
    | Continue _ => exists stk', kmove stk stk' /\ rel st' stk'
    | Accepted _ v => kresult stk (inl v) (st_log R st') /\ st_stream R st' = st_stream R st
    | Failed _ e => kresult stk (inr e) (st_log R st') /\ st_stream R st' = st_stream R st
    end.
Proof.
  intros Hrel Hnext Hclear Hc. unfold exec_match.
  destruct (find_shift R (sc_shift c) o) as [[[s' rhs] b]|] eqn:Hfs.
  - apply find_shift_some in Hfs as (m & Hin & Hm). destruct (co_shift _ _ _ _ _ _ Hc _ _ _ Hin) as (sy & i & p & Htr & Ha & Hp & -> & Hrhs).
    destruct o as [k|]; [|discriminate]. simpl in Hm. rewrite (pattern_named literal_ok R gi _ _ _ _ _ Hp Hrhs Hm). cbn [bind].
    assert (Hmatch : sym_matches R gi sy k = true).
    { rewrite <- (pattern_matches literal_ok R gi sy Named p k); auto; [rewrite Hm; auto|discriminate]. }
    assert (Hleaf : leaf_ok (sy, k)) by (split; simpl; eauto).
    pose (x := ((s', Terminal (Token i), Leaf i), Leaf (sy, k)) : item).
    assert (Hk : kstep stk (Some k) (x :: stk)) by (apply ks_shift; auto).
    destruct Hrel as [Hv Hi (front & Hf & Hst) Hlog Hstr Hinp]. unfold advance. rewrite Hstr. cbn [s_next s_calls]. rewrite Hnext. cbn [option_map].
    unfold debug_assert. assert (Hd : (if debug_assertions then Ok (E := E) tt else Ok tt) = Ok tt) by (destruct debug_assertions; auto). rewrite Hd. cbn [bind].
    eexists _, _. split; [reflexivity|]. exists (x :: stk). split.
    + exists (Some k), x, stk, (leaf_value R sy k). split; auto. split; auto. split; [exact Hk|]. split; auto. exists []. reflexivity.
    + assert (Htk : toks (x :: stk) = toks stk ++ [k]).
      { unfold toks. rewrite forest_cons, flat_map_app, map_app. reflexivity. }
      constructor.
      * exact (kstep_vstk _ _ _ Hv Hk).
      * exact (kstep_items _ _ _ Hv Hi Hk).
      * exists ((s', RTok k) :: front). split; [|simpl; rewrite Hst; reflexivity]. constructor; auto. simpl. auto.
      * rewrite log_of_cons. simpl. rewrite app_nil_r. auto.
      * rewrite Htk, app_length. simpl. rewrite Nat.add_1_r. reflexivity.
      * rewrite Htk. intros i' k' Hk'. destruct (Nat.lt_ge_cases i' (length (toks stk))) as [Hlt|Hge].
        -- rewrite nth_error_app1 in Hk' by auto. auto.
        -- rewrite nth_error_app2 in Hk' by auto. destruct (i' - length (toks stk)) as [|d] eqn:Hd'; simpl in Hk'; [|destruct d; discriminate].
           injection Hk' as <-. replace i' with (length (toks stk)) by lia. exact Hnext.
  - pose proof (find_shift_none _ _ _ Hfs) as Hns. destruct (find_reduce R (sc_reduce c) o) as [rc|] eqn:Hfr.
    + apply find_reduce_some in Hfr as (ms & m & Hin & Hm & Hmm). destruct (co_reduce _ _ _ _ _ _ Hc _ _ Hin) as (j & Hj & Hro & Hms).
      destruct (Hms _ Hm) as (a & a' & Har & Ha & Hmat). rewrite (matcher_la literal_ok R gi _ _ _ Hmat) in Hmm.
      destruct (reduce_exec _ _ _ _ _ _ _ Hrel Hmm Har Ha Hro) as (stk' & x & rest & Hk & -> & [(v & log & Hev & st' & Hex & Hrel')|(e & log & Hev & st' & Hex & Hlog' & Hstr')]).
      * rewrite Hex. eexists _, _. split; [reflexivity|]. exists (x :: rest). split; auto. exists o, x, rest, v. split; auto. split; auto. split; auto. split; auto. eexists; eauto.
      * rewrite Hex. eexists _, _. split; [reflexivity|]. split; auto. rewrite Hlog'. eapply kr_user; eauto.
    + pose proof (find_reduce_none _ _ _ Hfr) as Hnr.
      assert (Hblocked : (o = None -> acts (top (bare stk)) EndOfStream <> Some Accept) -> kblocked stk o).
      { intros Hna a a' Hla Har. destruct (acts (top (bare stk)) a') as [[s'|j|]|] eqn:Ha; auto; exfalso.
        - destruct (act_shift_token literal_ok gi Hix Heps F ks acts gts Hok _ _ _ (vstk_bound _ _ _ _ _ _ Hok _ (rl_vstk _ _ Hrel)) Ha) as (i & ->).
          destruct a as [sy| |]; simpl in Har; try tauto. destruct (co_shift_c _ _ _ _ _ _ Hc _ _ _ Har Ha) as (p & rhs & Hin & Hp & _).
          apply Hns in Hin. destruct o as [k|]; simpl in Hla, Hin; [|discriminate].
          rewrite <- (pattern_matches literal_ok R gi sy Named p k) in Hla; [rewrite Hin in Hla|discriminate|auto]. discriminate.
        - destruct (co_reduce_c _ _ _ _ _ _ Hc _ _ _ Har Ha) as (ms & rc & m & Hin & _ & Hm & Hmat). apply (Hnr _ _ _ Hin) in Hm.
          rewrite (matcher_la literal_ok R gi _ _ _ Hmat) in Hm. congruence.
        - destruct (act_accept ig F t ks acts gts Hok _ _ (rl_vstk _ _ Hrel) Ha) as (-> & _). destruct a as [sy| |]; simpl in Har; try tauto.
          destruct o as [k|]; simpl in Hla; [discriminate|]. apply Hna; auto. }
      assert (Hfail : kblocked stk o -> kresult stk (inr (ParseError R o)) (st_log R st)) by (intros Hb; rewrite (rl_log _ _ Hrel); apply kr_blocked; auto).
      destruct (sc_accept c) as [[m ac]|] eqn:Hsa.
      * destruct (co_accept _ _ _ _ _ _ Hc _ _ Hsa) as (Ha & -> & Hao). destruct o as [k|].
        -- simpl. eexists _, _. split; [reflexivity|]. split; auto. apply Hfail, Hblocked. discriminate.
        -- simpl. destruct (accept_exec _ _ _ Hrel Ha Hao) as (log & res & Hev & st' & Hex & Hlog & Hstr). rewrite Hex. eexists _, _. split; [reflexivity|].
           rewrite <- Hlog in Hev. pose proof (kr_accept _ _ _ Hnext Ha Hev) as Hkr. destruct res; simpl in *; auto.
      * eexists _, _. split; [reflexivity|]. split; auto. apply Hfail, Hblocked. intros _ Ha. destruct (co_accept_c _ _ _ _ _ _ Hc Ha) as (ac & Hx & _). congruence.
Qed.

Lemma step_exec st stk : rel st stk ->
  (exists st' stk', loop_step (E := E) R into input prog st = Ok (inl st') /\ kmove stk stk' /\ rel st' stk') \/
  (exists st' res, loop_step (E := E) R into input prog st = Ok (inr (st', res)) /\ kresult stk res (st_log R st') /\ st_stream R st' = st_stream R st).
Proof.
  intros Hrel. unfold loop_step, state. destruct (rl_stack _ _ Hrel) as (front & Hf & Hst). rewrite Hst.
  destruct (top_stack _ _ Hf) as (s & v & -> & ->). cbn [expect bind fst].
  pose proof (vstk_bound _ _ _ _ _ _ Hok _ (rl_vstk _ _ Hrel)) as Hlt.
  destruct (po_states _ _ _ _ _ Hprog) as (Hlen & Hstates). rewrite <- Hlen in Hlt. apply nth_error_Some in Hlt.
  destruct (nth_error (p_states prog) (top (bare stk))) as [c|] eqn:Hc; [|congruence]. unfold index. rewrite Hc. cbn [bind]. apply Hstates in Hc.
  assert (Hm : forall o, next_is stk o -> clear_of_overlap stk o ->
    let m := '(st, ctl) <- exec_match (E := E) R input c o st ;; match ctl with Continue _ => Ok (inl st) | Accepted _ v => Ok (inr (st, inl v)) | Failed _ e => Ok (inr (st, inr e)) end in
    (exists st' stk', m = Ok (inl st') /\ kmove stk stk' /\ rel st' stk') \/
    (exists st' res, m = Ok (inr (st', res)) /\ kresult stk res (st_log R st') /\ st_stream R st' = st_stream R st)).
  { intros o Hn Hcl m. destruct (match_exec _ _ _ _ Hrel Hn Hcl Hc) as (st' & ctl & Hex & Hctl). unfold m. rewrite Hex. cbn [bind]. destruct ctl as [|w|e].
    - destruct Hctl as (stk' & Hk & Hr'). left. eauto 6.
    - right. destruct Hctl as (Hk & Hs'). exists st', (inl w). auto.
    - right. destruct Hctl as (Hk & Hs'). exists st', (inr e). auto. }
  unfold exec_state, peek_next. assert (Hpk : s_next R (st_stream R st) = input (length (toks stk))) by (rewrite (rl_stream _ _ Hrel); reflexivity). rewrite Hpk.
  destruct (input (length (toks stk))) as [[k|e]|] eqn:Hin.
  - destruct (sc_check c) as [ms|] eqn:Hck.
    + destruct (co_check _ _ _ _ _ _ Hc _ Hck) as ((ty & Htt) & sys & Hnd & Hsys & Hf2). pose proof (count_overlap ms k sys Hnd Hf2) as Hco.
      assert (Hov : (1 <? count_matches R ms (Some k)) = true <-> overlap stk k).
      { rewrite Hco. split.
        - intros (sy & sy' & Hne & A1 & B1 & A2 & B2). apply Hsys in A1 as (i & x & Hi & Hx), B1 as (i' & x' & Hi' & Hx'). exists sy, sy', i, i', x, x'. auto 10.
        - intros (sy & sy' & i & i' & x & x' & Hne & A1 & B1 & A2 & B2 & A3 & B3). exists sy, sy'. split; auto. split; [apply Hsys; eauto|]. split; [apply Hsys; eauto|auto]. }
      destruct debug_assertions eqn:Hda; simpl andb.
      * destruct (1 <? count_matches R ms (Some k)) eqn:Hcm.
        -- right. cbn [bind]. eexists _, _. split; [reflexivity|]. split; auto. rewrite (rl_log _ _ Hrel).
           eapply kr_overlap; eauto. apply Hov; auto.
        -- apply (Hm (Some k) Hin). intros _ _ k' He. injection He as <-. intros Ho. apply Hov in Ho. congruence.
      * apply (Hm (Some k) Hin). intros He. congruence.
    + apply (Hm (Some k) Hin). intros _ (ty & Htt) k' He (sy & sy' & i & i' & x & x' & _ & A1 & _ & A2 & _).
      destruct (co_nocheck _ _ _ _ _ _ Hc Hck) as [(ty' & Ht')|Hno]; [congruence|]. eapply Hno; eauto.
  - right. cbn [bind]. eexists _, _. split; [reflexivity|]. split; auto. rewrite (rl_log _ _ Hrel). apply kr_stream. auto.
  - apply (Hm None Hin). intros _ _ k He. discriminate.
Qed.

Inductive kmoves : istack -> istack -> Prop :=
| km_refl stk : kmoves stk stk
| km_step stk stk' stk'' : kmove stk stk' -> kmoves stk' stk'' -> kmoves stk stk''.

Lemma run_exec fuel : forall st stk, rel st stk ->
  while_loop fuel (loop_step (E := E) R into input prog) st = Diverge \/
  exists st' res stk', while_loop fuel (loop_step (E := E) R into input prog) st = Ok (st', res) /\ kmoves stk stk' /\ kresult stk' res (st_log R st') /\
    st_stream R st' = mk_stream R (S (length (toks stk'))) (input (length (toks stk'))) /\
    vstk (bare stk') /\ Forall item_ok stk' /\ (forall i k, nth_error (toks stk') i = Some k -> input i = Some (inl k)).
Proof.
  induction fuel as [|fuel IH]; intros st stk Hrel; simpl; auto.
  destruct (step_exec _ _ Hrel) as [(st' & stk' & -> & Hk & Hrel')|(st' & res & -> & Hk & Hs)]; cbn [bind].
  - destruct (IH _ _ Hrel') as [Hd|(st2 & res & stk2 & Hx & Hm & Hy)]; auto. right. exists st2, res, stk2. split; auto. split; auto. eapply km_step; eauto.
  - right. exists st', res, stk. split; auto. split; [apply km_refl|]. split; auto. rewrite Hs. split; [apply (rl_stream _ _ Hrel)|].
    split; [apply (rl_vstk _ _ Hrel)|]. split; [apply (rl_items _ _ Hrel)|apply (rl_input _ _ Hrel)].
Qed.

End Exec.

(** At most one expected lookahead stands for the next token. *)
Definition single (stk : istack) (o : option (tok R)) : Prop :=
  forall a b a' b' x y, la_ok R gi a o = true -> la_ok R gi b o = true -> arel a a' -> arel b b' ->
    acts (top (bare stk)) a' = Some x -> acts (top (bare stk)) b' = Some y -> a = b.

Lemma arel_inj a b c : arel a b -> arel a c -> b = c.
Proof.
  intros H1 H2. destruct a as [s| |], b as [i| |], c as [j| |]; simpl in *; try tauto; auto. f_equal. eapply (tok_rel_inj g ig Hix); eauto.
Qed.

Lemma single_none stk : single stk None.
Proof. intros a b a' b' x y Ha Hb. destruct a, b; simpl in *; try discriminate. auto. Qed.

Lemma single_clear stk o : ~ (exists k, o = Some k /\ overlap stk k) -> single stk o.
Proof.
  intros Hno a b a' b' x y Ha Hb Hra Hrb Hx Hy. destruct o as [k|]; [|eapply single_none; eauto].
  destruct a as [sa| |], b as [sb| |]; simpl in Ha, Hb; try discriminate. destruct a' as [ia| |], b' as [ib| |]; simpl in Hra, Hrb; try tauto.
  destruct (eq_dec sa sb) as [->|Hne]; auto. exfalso. apply Hno. exists k. split; auto. exists sa, sb, ia, ib, x, y. auto 10.
Qed.

Lemma single_no_overlap stk k : single stk (Some k) -> ~ overlap stk k.
Proof.
  intros Hs (sy & sy' & i & i' & x & x' & Hne & A1 & B1 & A2 & B2 & A3 & B3). apply Hne.
  assert (He : Token sy = Token sy') by (apply (Hs (Token sy) (Token sy') (Token i) (Token i') x x'); auto). congruence.
Qed.

Lemma single_act stk o a b a' b' x y : single stk o -> la_ok R gi a o = true -> la_ok R gi b o = true -> arel a a' -> arel b b' ->
  acts (top (bare stk)) a' = Some x -> acts (top (bare stk)) b' = Some y -> a = b /\ a' = b' /\ x = y.
Proof.
  intros Hs Ha Hb Hra Hrb Hx Hy. assert (a = b) by (eapply Hs; eauto). subst b. assert (a' = b') by (eapply arel_inj; eauto). subst b'. split; auto. split; auto. congruence.
Qed.

Lemma kstep_fun stk o s1 s2 : single stk o -> kstep stk o s1 -> kstep stk o s2 -> s1 = s2.
Proof.
  intros Hs H1 Hk. destruct H1 as [k sy i s' A1 (A2 & A2') A3|o' a a' j r popped rest s' A1 A2 A3 A4 A5 A6 A7]; inversion Hk as [k2 sy2 i2 s2' B1 (B2 & B2') B3|o2 b b' j2 r2 popped2 rest2 s2' B1 B2 B3 B4 B5 B6 B7]; subst.
  - destruct (single_act _ _ (Token sy) (Token sy2) (Token i) (Token i2) _ _ Hs A2 B2 A1 B1 A3 B3) as (H1 & H2 & H3). injection H1 as ->. injection H2 as ->. injection H3 as ->. reflexivity.
  - destruct (single_act _ _ (Token sy) b (Token i) b' _ _ Hs A2 B1 A1 B2 A3 B3) as (_ & _ & H3). discriminate.
  - destruct (single_act _ _ (Token sy2) a (Token i2) a' _ _ Hs B2 A1 B1 A2 B3 A3) as (_ & _ & H3). discriminate.
  - destruct (single_act _ _ a b a' b' _ _ Hs A1 B1 A2 B2 A3 B3) as (_ & _ & H3). injection H3 as ->. rewrite A4 in B4. injection B4 as ->.
    apply app_inv_length in B5 as (-> & ->); [|congruence]. congruence.
Qed.

Lemma kstep_not_blocked stk o s1 : kstep stk o s1 -> ~ kblocked stk o.
Proof.
  intros H1 Hb. destruct H1 as [k sy i s' A1 (A2 & A2') A3|o' a a' j r popped rest s' A1 A2 A3 A4 A5 A6 A7].
  - rewrite (Hb (Token sy) (Token i)) in A3; auto; discriminate.
  - rewrite (Hb a a') in A3; auto; discriminate.
Qed.

Lemma kaccept_no_step stk s1 : kaccept stk -> ~ kstep stk None s1.
Proof.
  intros Ha Hk. inversion Hk as [|o' a a' j r popped rest s' A1 A2 A3 A4 A5 A6 A7]; subst. destruct a as [| |]; simpl in A1; try discriminate.
  destruct a' as [| |]; simpl in A2; try tauto. unfold kaccept in Ha. congruence.
Qed.

Lemma kaccept_not_blocked stk : kaccept stk -> ~ kblocked stk None.
Proof. intros Ha Hb. unfold kaccept in Ha. rewrite (Hb EndOfStream EndOfStream) in Ha; [discriminate|reflexivity|exact I]. Qed.
End Run.

Lemma option_inl_inj {A S} (o o' : option A) : option_map (@inl A S) o = option_map inl o' -> o = o'.
Proof. destruct o, o'; simpl; intros He; try discriminate; auto. injection He as ->. auto. Qed.

(** Two programs generated from the same table, run on the same input. *)
Section Two.
Context {E : Type}.
Variable literal_ok : string -> bool.
Variable R : rust.
Variable gi : grammar_info.
Variable F : first_table.
Variable ks : list kernel.
Variable acts : nat -> aug nat -> option action.
Variable gts : nat -> nat -> option nat.
Hypothesis Hsu : setup gi F ks acts gts.
Hypothesis Hdef : defaults_bound (gi_rules gi).
Variable bm1 bm2 : BuildMode.
Variable prog1 prog2 : program.
Hypothesis Hprog1 : program_ok literal_ok gi acts gts prog1.
Hypothesis Hprog2 : program_ok literal_ok gi acts gts prog2.
Context {SErr : Type}.
Variable into : SErr -> UErr R.
Variable input : nat -> option (tok R + SErr).
Local Notation istack := (istack R).
Local Notation rel := (rel literal_ok R gi acts gts input).
Local Notation single := (single R gi acts).
Local Notation next_is := (next_is R input).
Local Notation step1 := (loop_step (bm := bm1) (E := E) R into input prog1).
Local Notation step2 := (loop_step (bm := bm2) (E := E) R into input prog2).

Definition same_obs (x y : pstate (SErr := SErr) R * (val R + parser_error R)) : Prop :=
  snd x = snd y /\ st_log R (fst x) = st_log R (fst y) /\ st_stream R (fst x) = st_stream R (fst y).

Lemma kresult_fun (stk : istack) r1 l1 r2 l2 : (forall o, next_is stk o -> single stk o) ->
  kresult (bm := bm1) literal_ok R gi acts gts into input stk r1 l1 ->
  kresult (bm := bm2) literal_ok R gi acts gts into input stk r2 l2 -> r1 = r2 /\ l1 = l2.
Proof.
  intros Hs H1 H2.
  destruct H1 as [e A1|k ty A1 A2 A3 A4|o x rest e log A1 A2 A3 A4|log res A1 A2 A3|o A1 A2 A3];
  destruct H2 as [e' B1|k' ty' B1 B2 B3 B4|o' x' rest' e' log' B1 B2 B3 B4|log' res' B1 B2 B3|o' B1 B2 B3];
  unfold GenRun.next_is in *;
  try (match goal with
    | A : input _ = _, B : input _ = Some (inr _) |- _ => rewrite A in B; try discriminate; try (destruct o; discriminate); try (destruct o'; discriminate); injection B as ->; auto
    | A : input _ = Some (inr _), B : input _ = _ |- _ => rewrite A in B; try discriminate; try (destruct o; discriminate); try (destruct o'; discriminate)
    end; fail);
  try (exfalso; eapply single_no_overlap; [apply Hs; eauto|eassumption]);
  try (rewrite A1 in B1; apply option_inl_inj in B1; subst).
  - assert (He : x :: rest = x' :: rest') by (eapply kstep_fun; eauto). injection He as <- <-. rewrite A4 in B4. injection B4 as _ <-. auto.
  - exfalso. eapply kaccept_no_step; eauto.
  - exfalso. eapply kstep_not_blocked; eauto.
  - exfalso. eapply kaccept_no_step; eauto.
  - rewrite A3 in B3. injection B3 as <- <-. auto.
  - exfalso. eapply kaccept_not_blocked; eauto.
  - exfalso. eapply kstep_not_blocked; eauto.
  - exfalso. eapply kaccept_not_blocked; eauto.
  - auto.
Qed.

Lemma step_same st1 st2 (stk : istack) : rel st1 stk -> rel st2 stk -> (forall o, next_is stk o -> single stk o) ->
  (exists st1' st2' stk', step1 st1 = Ok (inl st1') /\ step2 st2 = Ok (inl st2') /\ rel st1' stk' /\ rel st2' stk' /\
     kmove (bm := bm1) literal_ok R gi acts gts input stk stk') \/
  (exists x1 x2, step1 st1 = Ok (inr x1) /\ step2 st2 = Ok (inr x2) /\ same_obs x1 x2).
Proof.
  intros H1 H2 Hs.
  pose proof (step_exec (bm := bm1) (E := E) literal_ok R gi F ks acts gts Hsu prog1 Hprog1 Hdef into input _ _ H1) as X1.
  pose proof (step_exec (bm := bm2) (E := E) literal_ok R gi F ks acts gts Hsu prog2 Hprog2 Hdef into input _ _ H2) as X2.
  assert (Hex : forall b1 b2 stk' r l, kmove (bm := b1) literal_ok R gi acts gts input stk stk' -> ~ kresult (bm := b2) literal_ok R gi acts gts into input stk r l).
  { intros b1 b2 stk' r l (o & x & rest & v & A1 & A2 & A3 & -> & A4) Hr. destruct Hr as [e' B1|k' ty' B1 B2 B3 B4|o' x' rest' e' log' B1 B2 B3 B4|log' res' B1 B2 B3|o' B1 B2 B3]; unfold GenRun.next_is in *.
    - rewrite A1 in B1. destruct o; discriminate.
    - eapply single_no_overlap; [apply Hs; eauto|eassumption].
    - rewrite A1 in B1. apply option_inl_inj in B1. subst o'. assert (He : x :: rest = x' :: rest') by (eapply kstep_fun; eauto). injection He as <- <-. destruct A4 as (lg & A4). congruence.
    - rewrite A1 in B1. apply (option_inl_inj _ None) in B1. subst o. eapply kaccept_no_step; eauto.
    - rewrite A1 in B1. apply option_inl_inj in B1. subst o'. eapply kstep_not_blocked; eauto. }
  destruct X1 as [(s1 & k1 & E1 & M1 & R1)|(s1 & r1 & E1 & M1 & S1)], X2 as [(s2 & k2 & E2 & M2 & R2)|(s2 & r2 & E2 & M2 & S2)].
  - left. exists s1, s2, k1. assert (k1 = k2); [|subst; auto 10].
    destruct M1 as (o & x & rest & v & A1 & A2 & A3 & A4 & A5), M2 as (o' & x' & rest' & v' & B1 & B2 & B3 & B4 & B5). unfold GenRun.next_is in *.
    rewrite A1 in B1. apply option_inl_inj in B1. subst o'. eapply kstep_fun; [exact Hsu|apply Hs; exact A1|exact A3|exact B3].
  - exfalso. exact (Hex bm1 bm2 _ _ _ M1 M2).
  - exfalso. exact (Hex bm2 bm1 _ _ _ M2 M1).
  - right. exists (s1, r1), (s2, r2). split; auto. split; auto. destruct (kresult_fun _ _ _ _ _ Hs M1 M2) as (-> & Hl). red. simpl. split; auto. split; auto.
    rewrite S1, S2, (rl_stream _ _ _ _ _ _ _ _ H1), (rl_stream _ _ _ _ _ _ _ _ H2). reflexivity.
Qed.

Definition same_outcome (m1 m2 : outcome E (pstate (SErr := SErr) R * (val R + parser_error R))) : Prop :=
  (m1 = Diverge /\ m2 = Diverge) \/ (exists x1 x2, m1 = Ok x1 /\ m2 = Ok x2 /\ same_obs x1 x2).

(** [Good] stands for: the lookahead is read as one terminal only. *)
Lemma run_same fuel : forall st1 st2 (stk : istack), rel st1 stk -> rel st2 stk ->
  (forall stk' o, next_is stk' o -> single stk' o \/ (exists k, o = Some k /\ overlap R gi acts stk' k /\ debug_assertions (BuildMode := bm1) = true /\ exists ty, gi_terminal_type gi = TTEnum ty)) ->
  same_outcome (while_loop fuel step1 st1) (while_loop fuel step2 st2) \/
  exists st k, while_loop fuel step1 st1 = Ok (st, inr (OverlappingTokenMatchers R k)).
Proof.
  induction fuel as [|fuel IH]; intros st1 st2 stk H1 H2 Hg; simpl; [left; left; auto|].
  destruct (input (length (toks R stk))) as [[k|e]|] eqn:Hin.
  1: destruct (Hg stk (Some k) Hin) as [Hs|(k' & Hk' & Ho & Hd & ty & Hty)].
  2: { injection Hk' as <-. pose proof (step_exec (bm := bm1) (E := E) literal_ok R gi F ks acts gts Hsu prog1 Hprog1 Hdef into input _ _ H1) as X1.
       right. destruct X1 as [(s1 & k1 & E1 & M1 & R1)|(s1 & r1 & E1 & M1 & S1)].
       - exfalso. destruct M1 as (o & x & rest & v & A1 & A2 & A3 & A4 & A5). unfold GenRun.next_is in *. rewrite Hin in A1. apply (option_inl_inj (Some k)) in A1. subst o. eapply A2; eauto.
       - exists s1, k. rewrite E1. cbn [bind]. f_equal. f_equal. destruct M1 as [e' B1|k' ty' B1 B2 B3 B4|o' x' rest' e' log' B1 B2 B3 B4|log' res' B1 B2 B3|o' B1 B2 B3]; unfold GenRun.next_is in *; rewrite Hin in B1.
         + discriminate.
         + injection B1 as ->. reflexivity.
         + apply (option_inl_inj (Some k)) in B1. subst o'. exfalso. eapply B2; eauto.
         + discriminate.
         + apply (option_inl_inj (Some k)) in B1. subst o'. exfalso. eapply B2; eauto. }
  all: assert (Hs' : forall o, next_is stk o -> single stk o) by
    (unfold GenRun.next_is; intros o Ho; rewrite Hin in Ho; destruct o as [k'|]; try discriminate; first [apply single_none|injection Ho as <-; assumption]).
  all: destruct (step_same _ _ _ H1 H2 Hs') as [(s1 & s2 & stk' & -> & -> & R1 & R2 & _)|(x1 & x2 & -> & -> & Hx)]; cbn [bind]; [eapply IH; eauto|left; right; eauto].
Qed.
End Two.
