(** The grammars of the tests: what is known of all of them. *)
From Coq Require Import Arith Bool String Ascii NArith List Lia.
From Verif Require Import Base.Prelude Spec.Grammar Spec.Nullable Spec.Observers Model.Error Model.LRTable Model.IndexedGrammar.
From Verif Require Import Model.TokenTree Model.Terminal Model.Constructor Model.CodeGen Model.Runtime Model.Symbol Model.FrontEnd.
From Verif Require Import Model.Diagnostics Model.CodeGenDiagnostics Model.Rust Model.Emit Model.Expand Model.TestGrammars.
From Verif Require Import Spec.Values Spec.Substitution Spec.Macro Spec.Diagnostics Spec.EmittedCode Spec.EmittedNames Spec.Expansion Spec.Meaning Spec.TestLanguages.
From Verif Require Import Proofs.Refutations Proofs.LR1Final Proofs.GenExamples Proofs.MacroMain Proofs.MacroExamples Proofs.DiagnosticsExamples Proofs.EmitExamples Proofs.ExpandExamples Proofs.MacroRefute Proofs.MeaningMain.
Import ListNotations.
Open Scope string_scope.
Open Scope list_scope.

(** ** Constructors *)
Lemma idents_mentions x t : In x (idents t) -> mentions x t.
Proof.
  revert t. fix IH 1. intros [d ts|c s|y|l]; cbn [idents]; intros H; try contradiction.
  - assert (Hg : exists t, In t ts /\ mentions x t).
    { induction ts as [|t ts IHl]; [destruct H|]. cbn [flat_map] in H. apply in_app_or in H. destruct H as [H|H].
      - exists t. split; [now left|]. now apply IH.
      - destruct (IHl H) as (t' & H1 & H2). exists t'. split; [now right|exact H2]. }
    destruct Hg as (t & H1 & H2). econstructor; eassumption.
  - destruct H as [H|[]]. rewrite H. constructor.
Qed.

Lemma same_tree_eq : forall t t', same_tree t t' = true -> t = t'.
Proof.
  fix IH 1. intros [d ts|c s|y|l] [d' ts'|c' s'|y'|l']; cbn [same_tree]; intros H; try discriminate.
  - apply andb_true_iff in H as (H1 & H2). destruct (eq_dec d d') as [<-|]; [|discriminate]. f_equal.
    revert ts' H2. induction ts as [|t ts IHl]; intros [|t' ts'] H2; try discriminate; [reflexivity|].
    apply andb_true_iff in H2 as (H2 & H3). f_equal; [now apply IH|now apply IHl].
  - apply andb_true_iff in H as (H1 & H2). apply Ascii.eqb_eq in H1. subst c'. destruct (eq_dec s s') as [<-|]; [reflexivity|discriminate].
  - apply String.eqb_eq in H. now subst.
  - apply String.eqb_eq in H. now subst.
Qed.

Lemma same_text_eq : forall l l', same_text l l' = true -> l = l'.
Proof.
  induction l as [|t l IH]; intros [|t' l'] H; try discriminate; [reflexivity|]. cbn in H. apply andb_true_iff in H as (H1 & H2).
  f_equal; [now apply same_tree_eq|now apply IH].
Qed.

Section Readings.
Context {Raw Pay U UErr : Type}.
Variable table : list (reading Raw Pay U UErr).

Definition named_b : bool :=
  forallb (fun r => forallb (fun x => existsb (String.eqb x) (flat_map idents (rd_text r))) (rd_vars r)) table.

Lemma read_depends {SErr} i ts (e e' : string -> option (rvalue Raw Pay U UErr SErr)) : named_b = true ->
  (forall x t, In t ts -> mentions x t -> e x = e' x) -> read_body table i ts e = read_body table i ts e'.
Proof.
  unfold named_b. rewrite forallb_forall. intros Hb He. unfold read_body.
  destruct (find (fun r => same_text (rd_text r) ts) table) as [r|] eqn:Hf; [|reflexivity].
  apply find_some in Hf as (Hin & Ht). apply same_text_eq in Ht. subst ts. specialize (Hb r Hin). rewrite forallb_forall in Hb.
  rewrite (map_ext_in _ (fun x => val_of (e' x))); [reflexivity|]. intros x Hx. specialize (Hb x Hx). apply existsb_exists in Hb as (y & Hy & Hxy).
  apply String.eqb_eq in Hxy. subst y. apply in_flat_map in Hy as (t & Ht & Hm). rewrite (He x t Ht); [reflexivity|]. now apply idents_mentions.
Qed.
End Readings.

Section Rust.
Variable R : rust.
Variable table : list (reading (Raw R) (Pay R) (UVal R) (UErr R)).
Hypothesis Hctor : forall i body vars, user_ctor R i body vars = read_ctor table i body vars.

Lemma args_same {SErr} (vars : env R) x : val_of (arguments R SErr vars x) = val_of (args_of (UErr := UErr R) vars x).
Proof. induction vars as [|[i v] vars IH]; [reflexivity|]. cbn [arguments args_of]. destruct (String.eqb x (argument_name i)); [reflexivity|exact IH]. Qed.

Lemma read_describes SErr : describes R SErr (read_body table).
Proof.
  intros i body vars. rewrite Hctor. unfold read_ctor, read_body. destruct (find _ table) as [r|]; [|reflexivity].
  rewrite (map_ext _ (fun x => val_of (arguments R SErr vars x))); [reflexivity|]. intros x. symmetry. apply args_same.
Qed.

Lemma read_named SErr : named_b table = true -> depends_on_named R SErr (read_body table).
Proof. intros Hn i ts e e' H. now apply read_depends. Qed.
End Rust.

(** ** Productive grammars *)
Section Productive.
Context {T L : Type} `{EqDec T} `{EqDec L}.
Definition look (m : list (L * tree T)) (l : L) : option (tree T) :=
  match find (fun e => if eq_dec (fst e) l then true else false) m with Some e => Some (snd e) | None => None end.
Fixpoint node_trees (m : list (L * tree T)) (ns : list (node T L)) : option (list (tree T)) :=
  match ns with
  | [] => Some []
  | Terminal (Token t) :: ns' => option_map (cons (Leaf t)) (node_trees m ns')
  | Terminal _ :: ns' => node_trees m ns'
  | Production l :: ns' =>
      match look m l, node_trees m ns' with Some t, Some ts => Some (t :: ts) | _, _ => None end
  end.
Definition more_trees (g : Spec.Grammar.grammar T L) (m : list (L * tree T)) : list (L * tree T) :=
  fold_left (fun m ir => match look m (symbol (snd ir)), node_trees m (rhs (snd ir)) with None, Some ts => m ++ [(symbol (snd ir), Node (fst ir) ts)] | _, _ => m end)
    (combine (seq 0 (List.length g)) g) m.
Fixpoint some_trees (n : nat) (g : Spec.Grammar.grammar T L) : list (L * tree T) := match n with 0 => [] | S n => more_trees g (some_trees n g) end.
Definition rule_tree (g : Spec.Grammar.grammar T L) (m : list (L * tree T)) (i : nat) : tree T :=
  match nth_error g i with
  | Some r => match node_trees m (rhs r) with Some ts => Node i ts | None => Node i [] end
  | None => Node i []
  end.
Definition productive_b (g : Spec.Grammar.grammar T L) : bool :=
  let m := some_trees 8 g in
  forallb (fun i => match nth_error g i with Some r => match check g 20 [Production (symbol r)] [rule_tree g m i] with Some _ => true | None => false end | None => true end)
    (seq 0 (List.length g)).
Lemma productive_b_ok g : productive_b g = true -> productive g.
Proof. apply productive_ok'. Qed.
End Productive.

(** ** The grammar of an input *)
Definition decl_gi (d : declarations) : grammar_info :=
  mk_grammar_info (d_terminal_type d) [] (d_rules d) (gi_grammar no_info) (gi_table no_info).

Definition parsed_b (ts : list ttree) : bool :=
  well_spaced_b ts && is_ok (parse_declarations show (tokenize_from_stream ts)).

(** ** Inputs without patterns are read in the same way by all printers *)
Section Printers.
Variables print print' : list ttree -> string.

Definition no_pattern (n : pnode) : bool := match n with PNSymbol s => match sparen s with PGPattern _ => false | _ => true end | _ => true end.
Definition no_patterns (d : declaration) : Prop := forall ns b n, In (ns, b) (dc_alts d) -> In n ns -> no_pattern n = true.

Lemma nodes_print ns xs : (forall n, In n ns -> no_pattern n = true) -> nodes_syms print ns xs -> nodes_syms print' ns xs.
Proof.
  intros H. induction 1 as [|n xs ns ys Hn _ IH]; constructor.
  - specialize (H n (or_introl eq_refl)). destruct Hn; try discriminate; try (constructor; assumption). eapply ns_wildcard; eauto.
  - apply IH. intros n' Hn'. apply H. now right.
Qed.

Lemma alts_print al xs : (forall ns b n, In (ns, b) al -> In n ns -> no_pattern n = true) -> alts_syms print al xs -> alts_syms print' al xs.
Proof.
  assert (H1 : forall a xs, (forall n, In n (fst a) -> no_pattern n = true) -> alt_syms print a xs -> alt_syms print' a xs).
  { intros a ys H Ha. destruct Ha as [ns b xs' ys' Hne Hn Hb He]. constructor; auto. apply nodes_print; auto. }
  intros H. induction 1 as [[ns b] xs Ha|[ns b] xs x a' al ys Ha Hx Hal IH].
  - constructor. apply H1; [|exact Ha]. intros n Hn. eapply H; [now left|exact Hn].
  - constructor; [|exact Hx|].
    + apply H1; [|exact Ha]. intros n Hn. eapply H; [now left|exact Hn].
    + apply IH. intros ns' b' n Hin Hn. eapply H; [right; exact Hin|exact Hn].
Qed.

Lemma declarations_print ds xs : (forall d, In d ds -> no_patterns d) -> declarations_syms print ds xs -> declarations_syms print' ds xs.
Proof.
  intros H. induction 1 as [|d xs ds ys Hd _ IH]; constructor.
  - specialize (H d (or_introl eq_refl)). destruct Hd. constructor; auto. eapply alts_print; eauto.
  - apply IH. intros d' Hd'. apply H. now right.
Qed.

Lemma alts_some ds xs d : declarations_syms print ds xs -> In d ds -> exists ns b, In (ns, b) (dc_alts d).
Proof.
  induction 1 as [|d' xs ds ys Hd _ IH]; intros Hin; [destruct Hin|]. destruct Hin as [Hin|Hin]; [|now apply IH]. subst d'. destruct Hd as [l ty alts xl xt x xa y _ _ _ Ha _]. cbn.
  destruct Ha as [[ns b] xs' _|[ns b] xs' x' a' al ys' _ _ _]; exists ns, b; now left.
Qed.

Definition one_type_b (rules : list prule) : bool :=
  forallb (fun r => forallb no_pattern (pr_nodes r) &&
    forallb (fun r' => negb (String.eqb (pr_name r) (pr_name r')) ||
      match pr_type r, pr_type r' with Some t, Some t' => same_text t t' | None, None => true | _, _ => false end) rules) rules.

Lemma rules_in (d : declaration) ds ns b : In d ds -> In (ns, b) (dc_alts d) -> In (mk_prule (dc_label d) (dc_type d) ns b) (flat_map rules_of ds).
Proof.
  intros H1 H2. apply in_flat_map. exists d. split; [exact H1|]. unfold rules_of. apply in_map_iff. exists (ns, b). auto.
Qed.

Lemma reads_print ts d : one_type_b (d_rules d) = true -> reads_as print ts d -> reads_as print' ts d.
Proof.
  intros Hb (xs & Hx & ds & Hf & Ho & Hr & Ht). exists xs. split; [exact Hx|]. exists ds. unfold one_type_b in Hb. rewrite forallb_forall in Hb. rewrite Hr in Hb.
  destruct Hf as [xn xt xe xd Hn Htt Het Hds Hne]. split; [|split; [|auto]].
  - constructor; auto. eapply declarations_print; [|exact Hds]. intros dc Hin ns b n H1 H2. specialize (Hb _ (rules_in dc ds ns b Hin H1)).
    apply andb_true_iff in Hb. destruct Hb as (Hb & _). rewrite forallb_forall in Hb. exact (Hb n H2).
  - intros d1 d2 H1 H2 Hl. destruct (alts_some _ _ _ Hds H1) as (ns1 & b1 & A1). destruct (alts_some _ _ _ Hds H2) as (ns2 & b2 & A2).
    specialize (Hb _ (rules_in _ _ _ _ H1 A1)). apply andb_true_iff in Hb. destruct Hb as (_ & Hb). rewrite forallb_forall in Hb.
    specialize (Hb _ (rules_in _ _ _ _ H2 A2)). cbn [pr_name pr_type] in Hb. rewrite Hl, String.eqb_refl in Hb. cbn [negb orb] in Hb.
    unfold same_type. destruct (dc_type d1) as [t1|], (dc_type d2) as [t2|]; try discriminate; [|reflexivity]. apply same_text_eq in Hb. now subst.
Qed.
End Printers.

Definition usable_b (rules : list prule) (nullable : list string) : bool :=
  one_type_b rules && bound_b rules && hygienic_b rules && direct_b (source rules) nullable && productive_b (source rules).

Section Same.
Variable R : rust.
Variables gi gi' : grammar_info.
Hypothesis Ht : gi_terminal_type gi = gi_terminal_type gi'.
Hypothesis Hr : gi_rules gi = gi_rules gi'.

Lemma matches_same s k : sym_matches R gi s k = sym_matches R gi' s k.
Proof. unfold sym_matches. now rewrite Ht. Qed.
Lemma value_same i vars : rule_value R gi i vars = rule_value R gi' i vars.
Proof. unfold rule_value. now rewrite Hr. Qed.

Lemma means_same : (forall l ts v, means R gi l ts v -> means R gi' l ts v) /\ (forall ns ts vs, all_mean R gi ns ts vs -> all_mean R gi' ns ts vs).
Proof.
  apply Meaning.means_ind2.
  - intros i r ts vs v Hi _ IH Hv. rewrite Hr in Hi. rewrite value_same in Hv. econstructor; eauto.
  - constructor.
  - intros s k ns ts vs Hm _ IH. rewrite matches_same in Hm. now constructor.
  - intros. now constructor.
  - intros. now constructor.
Qed.

Lemma input_same ts v : input_means R gi ts v -> input_means R gi' ts v.
Proof.
  intros (r & vs & H0 & Hm & Hv). rewrite Hr in H0. rewrite value_same in Hv. exists r, vs. repeat split; auto. now apply (proj2 means_same).
Qed.

Lemma unambiguous_same ts : unambiguous_tokens R gi ts -> unambiguous_tokens R gi' ts.
Proof. intros H k s s'. rewrite <- Hr, <- !matches_same. apply H. Qed.

Lemma fail_same : (forall l ts rest u, label_fails R gi l ts rest u -> label_fails R gi' l ts rest u) /\ (forall ns ts rest u, nodes_fail R gi ns ts rest u -> nodes_fail R gi' ns ts rest u).
Proof.
  apply FailMain.label_fails_ind2.
  - intros i r ts vs u Hi Hm Hv. rewrite Hr in Hi. rewrite value_same in Hv. eapply lf_rule; [exact Hi|apply (proj2 means_same); exact Hm|exact Hv].
  - intros i r ts rest u Hi _ IH. rewrite Hr in Hi. econstructor 2; eauto.
  - intros l ts rest ns rest' trees u _ IH Hd. rewrite Hr in Hd. econstructor; eauto.
  - intros s k ns ts rest u Hm _ IH. rewrite matches_same in Hm. now constructor.
  - intros l ts v ns ts' rest u Hm _ IH. econstructor; [apply (proj1 means_same); exact Hm|exact IH].
  - intros. now constructor.
Qed.

Lemma ctor_same ts u : constructor_fails R gi ts u -> constructor_fails R gi' ts u.
Proof.
  intros (n & rest & Hn & (r & H0 & H) & Hb). exists n, rest. split; [exact Hn|]. split.
  - exists r. rewrite <- Hr. split; [exact H0|]. destruct H as [H|(Hx & vs & Hm & Hv)]; [left; now apply (proj2 fail_same)|right]. split; [exact Hx|].
    exists vs. split; [now apply (proj2 means_same)|]. now rewrite <- value_same.
  - destruct rest as [|s rest], (nth_error ts n) as [k|]; cbn in *; auto. now rewrite <- matches_same.
Qed.
End Same.

Lemma begins_same R gi gi' : gi_terminal_type gi = gi_terminal_type gi' -> gi_rules gi = gi_rules gi' -> forall ts, begins_sentence R gi ts -> begins_sentence R gi' ts.
Proof.
  intros Ht Hr ts (us & vs & H3 & H4). exists us, vs. rewrite <- Hr. split; [|exact H4]. clear - H3 Ht. induction H3; constructor; auto. now rewrite <- (matches_same R gi gi' Ht).
Qed.

Section Both.
Variable R : rust.
Variables gi gi' : grammar_info.
Hypothesis Ht : gi_terminal_type gi = gi_terminal_type gi'.
Hypothesis Hr : gi_rules gi = gi_rules gi'.

Lemma error_same ts e : right_error R gi ts e -> right_error R gi' ts e.
Proof.
  intros [(u & -> & H)|(n & H1 & H2 & H0 & H3 & H5)]; [left; exists u; split; [reflexivity|]; now apply (ctor_same R gi gi')|right]. exists n. split; [exact H1|]. split; [exact H2|]. split; [|split].
  - intros u Hu. apply (H0 u). now apply (ctor_same R gi' gi).
  - now apply (begins_same R gi gi').
  - intros Hn Hb. apply (H5 Hn). now apply (begins_same R gi' gi).
Qed.
End Both.

Section Outcome.
Variable input : list ttree.
Variable nullable : list string.
Notation d := (decls_of input).
Notation gi := (decl_gi (decls_of input)).
Hypothesis Hparsed : parsed_b input = true.
Hypothesis Husable : usable_b (d_rules d) nullable = true.
Variable R : rust.
Variable table : list (reading (Raw R) (Pay R) (UVal R) (UErr R)).
Hypothesis Hctor : forall i body vars, user_ctor R i body vars = read_ctor table i body vars.
Hypothesis Hnamed : named_b table = true.

Theorem test_outcome (bm : BuildMode) em : item_of bm input em ->
  exists C, forall (bmr : BuildMode) (E SErr : Type) (into : SErr -> UErr R) toks fuel, unambiguous_tokens R gi toks -> C * S (List.length toks) <= fuel ->
  let m := run_emitted (bm := bmr) R into (of_list toks) (read_body table) fuel em : Rust.result (E := E) R in
  ((exists v, input_means R gi toks v /\ gives_value R m v) \/
  ((forall v, ~ input_means R gi toks v) /\ exists e, right_error R gi toks e /\ gives_error R m e)) /\
  (forall u, constructor_fails R gi toks u -> gives_error R m (UserError R u)).
Proof.
  intros (span & cs & js & print & le & lo & ho & fuel & ts & Ho & Ets & Hem).
  unfold parsed_b in Hparsed. apply andb_true_iff in Hparsed as (W & P). destruct (reads_ok input W P) as (_ & Rd & _).
  unfold usable_b in Husable. apply andb_true_iff in Husable as (U1 & U4). apply andb_true_iff in U1 as (U1 & U3). apply andb_true_iff in U1 as (U1 & U2). apply andb_true_iff in U1 as (U0 & U1).
  assert (Rd' : reads_as print (trees ts) d) by (rewrite Ets; exact (reads_print show print _ _ U0 Rd)).
  destruct (macros_mean cs js print le lo ho Ho fuel ts em d Rd' (bound_b_ok _ U1) (hygienic_b_ok _ U2)
    (direct_first_complete _ (direct_b_ok _ nullable U3)) Hem) as (g & C & G1 & G2 & HC).
  exists C. intros bmr E SErr into toks f Hu Hf m.
  assert (Hu' : unambiguous_tokens R g toks) by (eapply unambiguous_same; [| |exact Hu]; auto).
  destruct (HC bmr E R SErr into (read_body table) (read_describes R table Hctor SErr) (read_named R table SErr Hnamed) toks f Hu' Hf)
    as ([(v & H1 & H2)|(H1 & e & H2 & H3)] & H4); (split; [|intros u Hx; apply H4; eapply ctor_same; [| |exact Hx]; auto]).
  - left. exists v. split; [|exact H2]. eapply input_same; [| |exact H1]; auto.
  - right. split; [intros v Hv; apply (H1 v); eapply input_same; [| |exact Hv]; auto|]. exists e. split; [|exact H3].
    eapply error_same; [| |apply H2]; auto. rewrite G2. now apply productive_b_ok.
Qed.
End Outcome.

(** ** Grammars whose constructors do not fail *)
Section Total.
Variable R : rust.
Variable gi : grammar_info.
Hypothesis Hno : UErr R -> False.

Lemma value_some i vars : exists v, rule_value R gi i vars = inl v.
Proof. destruct (rule_value R gi i vars) as [v|e]; [eauto|destruct (Hno e)]. Qed.

Lemma derived_mean ns w ts : derives (source (gi_rules gi)) ns w ts -> forall pns ks, ns = map to_lr_node pns ->
  Forall2 (fun s k => sym_matches R gi s k = true) w ks -> exists vs, all_mean R gi pns ks vs.
Proof.
  induction 1 as [|s ns w ts Hd IH|ns w ts Hd IH|i r ts1 w1 ns w2 ts2 Hi Hd1 IH1 Hd2 IH2]; intros pns ks Hns Hm.
  - destruct pns; [|discriminate]. inversion Hm. subst. exists []. constructor.
  - destruct pns as [|n pns]; [discriminate|]. injection Hns as Hn Hns. destruct n as [l|s'|]; try discriminate. injection Hn as <-.
    inversion Hm as [|s0 k w0 ks' H1 H2]. subst. destruct (IH pns ks' eq_refl H2) as (vs & Hvs). eexists. constructor; eauto.
  - destruct pns as [|n pns]; [discriminate|]. injection Hns as Hn Hns. destruct n; try discriminate. destruct (IH pns ks Hns Hm) as (vs & Hvs). exists vs. now constructor.
  - destruct pns as [|n pns]; [discriminate|]. injection Hns as Hn Hns. destruct n as [l|s'|]; try discriminate. injection Hn as <-.
    apply Forall2_app_inv_l in Hm. destruct Hm as (k1 & k2 & M1 & M2 & ->). apply Meaning.source_inv in Hi. destruct Hi as (r0 & Hi & ->).
    destruct (IH1 (pr_nodes r0) k1 eq_refl M1) as (vs1 & V1). destruct (IH2 pns k2 Hns M2) as (vs2 & V2).
    destruct (value_some i (combine (node_indices (pr_nodes r0)) vs1)) as (v & Hv). exists (v :: vs2). apply am_label; [|exact V2].
    exact (means_rule R gi i r0 k1 vs1 v Hi V1 Hv).
Qed.

Lemma language_means w ks : language (source (gi_rules gi)) w -> Forall2 (fun s k => sym_matches R gi s k = true) w ks -> exists v, input_means R gi ks v.
Proof.
  intros (t & r & ts & H0 & Hd & _) Hm. apply Meaning.source_inv in H0. destruct H0 as (r0 & H0 & ->).
  destruct (derived_mean _ _ _ Hd (pr_nodes r0) ks eq_refl Hm) as (vs & Hvs).
  destruct (value_some 0 (combine (node_indices (pr_nodes r0)) vs)) as (v & Hv). exists v, r0, vs. auto.
Qed.

Lemma derived_terminals ns w ts : derives (source (gi_rules gi)) ns w ts -> (forall s, In (Spec.Grammar.Terminal (Token s)) ns -> terminal_in (gi_rules gi) s) -> Forall (terminal_in (gi_rules gi)) w.
Proof.
  induction 1 as [|s ns w ts Hd IH|ns w ts Hd IH|i r ts1 w1 ns w2 ts2 Hi Hd1 IH1 Hd2 IH2]; intros Hn.
  - constructor.
  - constructor; [apply Hn; now left|]. apply IH. intros s' Hs. apply Hn. now right.
  - apply IH. intros s' Hs. apply Hn. now right.
  - apply Forall_app. split; [|apply IH2; intros s' Hs; apply Hn; now right]. apply IH1. intros s Hs.
    apply Meaning.source_inv in Hi. destruct Hi as (r0 & Hi & ->). cbn in Hs. apply in_map_iff in Hs. destruct Hs as (n & E & Hs).
    destruct n as [l|s'|]; try discriminate. injection E as <-. exists r0. split; [|exact Hs]. eapply nth_error_In; eauto.
Qed.

Hypothesis Hall : forall s, terminal_in (gi_rules gi) s -> exists k, sym_matches R gi s k = true.

Lemma some_tokens w : Forall (terminal_in (gi_rules gi)) w -> exists ks, Forall2 (fun s k => sym_matches R gi s k = true) w ks.
Proof.
  induction 1 as [|s w Hs Hw (ks & IH)]; [exists []; constructor|]. destruct (Hall s Hs) as (k & Hk). exists (k :: ks). now constructor.
Qed.

Lemma error_wrong ts e : right_error R gi ts e -> exists o, e = ParseError R o /\ first_wrong (fun ts => exists v, input_means R gi ts v) ts o.
Proof.
  intros [(u & _)|(n & H1 & -> & _ & (us & vs & H3 & H4) & H5)]; [destruct (Hno u)|]. exists (nth_error ts n). split; [reflexivity|]. exists n. split; [exact H1|]. split; [reflexivity|]. split.
  - destruct H4 as (t & r & trs & H0 & Hd & Ht). assert (Hw : Forall (terminal_in (gi_rules gi)) (us ++ vs)).
    { eapply derived_terminals; [exact Hd|]. intros s Hs. apply Meaning.source_inv in H0. destruct H0 as (r0 & Hi & ->).
      cbn in Hs. apply in_map_iff in Hs. destruct Hs as (n' & E & Hs). destruct n' as [l|s'|]; try discriminate. injection E as <-. exists r0. split; [|exact Hs]. eapply nth_error_In; eauto. }
    apply Forall_app in Hw. destruct Hw as (_ & Hw). destruct (some_tokens vs Hw) as (ks & Hks). exists ks.
    apply (language_means (us ++ vs)); [exists t, r, trs; auto|]. now apply Forall2_app.
  - intros Hn rest (v & Hv). apply Meaning.meaning_iff in Hv. destruct Hv as (t & Ht & _). exact (H5 Hn (Meaning.parses_begins R gi _ _ _ Ht)).
Qed.
End Total.

(** No two terminals stand for the same token. *)
Definition terminals_of (rules : list prule) : list user_symbol :=
  flat_map (fun r => flat_map (fun n => match n with PNSymbol s => [s] | _ => [] end) (pr_nodes r)) rules.
Definition distinct_b (R : rust) (gi : grammar_info) : bool :=
  let ss := terminals_of (gi_rules gi) in
  forallb (fun s => forallb (fun s' =>
    (match gi_terminal_type gi with
     | TTRaw _ => if Raw_dec R (literal_value R (sname s)) (literal_value R (sname s')) then false else true
     | TTEnum _ => negb (String.eqb (sname s) (sname s'))
     end) || (if eq_dec s s' then true else false)) ss) ss.

Lemma terminals_in rules s : terminal_in rules s <-> In s (terminals_of rules).
Proof.
  unfold terminal_in, terminals_of. rewrite in_flat_map. split.
  - intros (r & H1 & H2). exists r. split; [exact H1|]. apply in_flat_map. exists (PNSymbol s). split; [exact H2|now left].
  - intros (r & H1 & H2). exists r. split; [exact H1|]. apply in_flat_map in H2. destruct H2 as (n & H2 & H3). destruct n; try destruct H3 as [<-|[]]; [destruct H3|exact H2|destruct H3].
Qed.

Lemma distinct_ok R gi ts : distinct_b R gi = true -> unambiguous_tokens R gi ts.
Proof.
  unfold distinct_b. intros H k s s' _ Hs Hs' M M'. rewrite forallb_forall in H. apply terminals_in in Hs, Hs'.
  specialize (H s Hs). rewrite forallb_forall in H. specialize (H s' Hs'). apply orb_true_iff in H. destruct H as [H|H]; [exfalso|destruct (eq_dec s s'); [assumption|discriminate]].
  unfold sym_matches in M, M'. destruct (gi_terminal_type gi) as [ty|ty], k as [n f|r]; try discriminate.
  - destruct (Raw_dec R r (literal_value R (sname s))) as [->|]; [|discriminate].
    destruct (Raw_dec R (literal_value R (sname s)) (literal_value R (sname s'))); discriminate.
  - apply andb_true_iff in M, M'. destruct M as (M & _), M' as (M' & _). unfold eqb in M, M'.
    destruct (eq_dec n (sname s)) as [->|]; [|discriminate]. destruct (eq_dec (sname s) (sname s')) as [E|]; [|discriminate].
    rewrite E, String.eqb_refl in H. discriminate.
Qed.

Lemma raw_all R gi : (match gi_terminal_type gi with TTRaw _ => true | _ => false end) = true ->
  forall s, terminal_in (gi_rules gi) s -> exists k, sym_matches R gi s k = true.
Proof.
  intros H s _. unfold sym_matches. destruct (gi_terminal_type gi); [|discriminate]. exists (TRaw (literal_value R (sname s))).
  destruct (Raw_dec R _ _); [reflexivity|congruence].
Qed.

Definition raw_b (gi : grammar_info) : bool := match gi_terminal_type gi with TTRaw _ => true | _ => false end.
Lemma raw_sym R gi s k : raw_b gi = true -> sym_matches R gi s k = true -> k = TRaw (literal_value R (sname s)).
Proof.
  unfold raw_b, sym_matches. destruct (gi_terminal_type gi); [|discriminate]. intros _. destruct k as [n f|r]; [discriminate|].
  destruct (Raw_dec R r _) as [->|]; [reflexivity|discriminate].
Qed.

Section Results.
Variable input : list ttree.
Variable nullable : list string.
Variable gi : grammar_info.
Hypothesis Hgi : decl_gi (decls_of input) = gi.
Hypothesis Hparsed : parsed_b input = true.
Hypothesis Husable : usable_b (gi_rules gi) nullable = true.
Variable R : rust.
Variable table : list (reading (Raw R) (Pay R) (UVal R) (UErr R)).
Hypothesis Hctor : forall i body vars, user_ctor R i body vars = read_ctor table i body vars.
Hypothesis Hnamed : named_b table = true.
Hypothesis Hno : UErr R -> False.
Hypothesis Hall : forall s, terminal_in (gi_rules gi) s -> exists k, sym_matches R gi s k = true.
Hypothesis Hdistinct : distinct_b R gi = true.

Theorem test_results (bm : BuildMode) em : item_of bm input em ->
  exists C, forall (bmr : BuildMode) (E SErr : Type) (into : SErr -> UErr R) toks fuel, C * S (List.length toks) <= fuel ->
  let m := run_emitted (bm := bmr) R into (of_list toks) (read_body table) fuel em : Rust.result (E := E) R in
  (exists v, input_means R gi toks v /\ gives_value R m v) \/
  ((forall v, ~ input_means R gi toks v) /\
   exists o, first_wrong (fun ts => exists v, input_means R gi ts v) toks o /\ gives_error R m (ParseError R o)).
Proof.
  intros Hem. rewrite <- Hgi in Husable. destruct (test_outcome input nullable Hparsed Husable R table Hctor Hnamed bm em Hem) as (C & HC). rewrite Hgi in HC.
  exists C. intros bmr E SErr into toks fuel Hf m.
  destruct (HC bmr E SErr into toks fuel (distinct_ok R gi toks Hdistinct) Hf) as ([H|(H1 & e & H2 & H3)] & _); [left; exact H|right].
  split; [exact H1|]. destruct (error_wrong R gi Hno Hall toks e H2) as (o & -> & Ho). eauto.
Qed.
End Results.
