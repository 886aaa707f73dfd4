(** Meanings in the grammars of the tests (C64 - C66). *)
From Coq Require Import Arith Bool String Ascii NArith List Lia.
From Verif Require Import Base.Prelude Spec.Grammar Model.TokenTree Model.Terminal Model.Constructor Model.CodeGen Model.Runtime Model.Symbol Model.FrontEnd.
From Verif Require Import Model.TestGrammars Spec.Values Spec.Meaning Spec.TestLanguages.
From Verif Require Import Proofs.MacroRefute Proofs.Meaning Proofs.TestGrammars.
Import ListNotations.
Open Scope string_scope.
Open Scope list_scope.

Section Rules.
Variable R : rust.
Variable gi : grammar_info.

Fixpoint spread (P : string -> list (tok R) -> val R -> Prop) (ns : list pnode) (ts : list (tok R)) (vs : list (val R)) : Prop :=
  match ns with
  | [] => ts = [] /\ vs = []
  | PNSymbol s :: ns' => exists k ts' vs', ts = k :: ts' /\ vs = leaf_value R s k :: vs' /\ sym_matches R gi s k = true /\ spread P ns' ts' vs'
  | PNProduction l :: ns' => exists t1 t2 v vs', ts = t1 ++ t2 /\ vs = v :: vs' /\ P l t1 v /\ spread P ns' t2 vs'
  | PNEpsilon :: ns' => spread P ns' ts vs
  end.

Lemma spread_all (P : string -> list (tok R) -> val R -> Prop) ns ts vs :
  (forall l ts v, P l ts v -> means R gi l ts v) -> spread P ns ts vs -> all_mean R gi ns ts vs.
Proof.
  intros HP. revert ts vs. induction ns as [|[l|s|] ns IH]; intros ts vs H; cbn in H.
  - destruct H as (-> & ->). constructor.
  - destruct H as (t1 & t2 & v & vs' & -> & -> & H1 & H2). constructor; auto.
  - destruct H as (k & ts' & vs' & -> & -> & H1 & H2). constructor; auto.
  - constructor; auto.
Qed.

Lemma means_rules (P : string -> list (tok R) -> val R -> Prop) :
  (forall i r ts vs v, nth_error (gi_rules gi) i = Some r -> spread P (pr_nodes r) ts vs ->
     rule_value R gi i (combine (node_indices (pr_nodes r)) vs) = inl v -> P (pr_name r) ts v) ->
  (forall l ts v, means R gi l ts v -> P l ts v) /\ (forall ns ts vs, all_mean R gi ns ts vs -> spread P ns ts vs).
Proof.
  intros H. apply means_ind2.
  - intros i r ts vs v Hi _ IH Hv. eapply H; eauto.
  - cbn. auto.
  - intros s k ns ts vs Hm _ IH. cbn. exists k, ts, vs. auto.
  - intros l ts v ns ts' vs _ IH1 _ IH2. cbn. exists ts, ts', v, vs. auto.
  - intros ns ts vs _ IH. exact IH.
Qed.

Lemma input_rules (P : string -> list (tok R) -> val R -> Prop) ts v :
  (forall i r ts vs v, nth_error (gi_rules gi) i = Some r -> spread P (pr_nodes r) ts vs ->
     rule_value R gi i (combine (node_indices (pr_nodes r)) vs) = inl v -> P (pr_name r) ts v) ->
  input_means R gi ts v -> exists r, nth_error (gi_rules gi) 0 = Some r /\ P (pr_name r) ts v.
Proof.
  intros H (r & vs & H0 & Hm & Hv). exists r. split; [exact H0|]. eapply H; eauto. now apply (proj2 (means_rules P H)).
Qed.
End Rules.

(** Words of a language, through an injection of its letters into tokens. *)
Lemma map_firstn {X Y} (f : X -> Y) n l : map f (firstn n l) = firstn n (map f l).
Proof. revert n. induction l as [|x l IH]; intros [|n]; [reflexivity..|]. cbn. now rewrite IH. Qed.

Lemma map_inj {X Y} (f : X -> Y) : (forall x y, f x = f y -> x = y) -> forall l l', map f l = map f l' -> l = l'.
Proof. intros Hf. induction l as [|x l IH]; intros [|y l'] H; try discriminate; [reflexivity|]. cbn in H. injection H as H1 H2. f_equal; auto. Qed.

Lemma map_split {X Y} (f : X -> Y) : (forall x y, f x = f y -> x = y) -> forall l l' rest, map f l ++ rest = map f l' -> exists r, rest = map f r /\ l' = l ++ r.
Proof.
  intros Hf. induction l as [|x l IH]; intros l' rest H; [exists l'; auto|]. destruct l' as [|y l']; [discriminate|].
  cbn in H. injection H as H1 H2. apply Hf in H1. subst y. destruct (IH l' rest H2) as (r & -> & ->). exists r. auto.
Qed.

Lemma wrong_map {X Y} (f : X -> Y) (L : list X -> Prop) (M : list Y -> Prop) : (forall x y, f x = f y -> x = y) ->
  (forall ys, M ys <-> exists xs, ys = map f xs /\ L xs) -> forall xs o, first_wrong M (map f xs) o -> exists o', o = option_map f o' /\ first_wrong L xs o'.
Proof.
  intros Hf HM xs o (n & H1 & H2 & (rest & H3) & H4). rewrite map_length in *. exists (nth_error xs n). split; [now rewrite H2, nth_error_map|].
  exists n. split; [exact H1|]. split; [reflexivity|]. split.
  - apply HM in H3. destruct H3 as (l & E & H3). rewrite <- map_firstn in E. apply (map_split f Hf) in E. destruct E as (r & _ & ->). eauto.
  - intros Hn r Hr. apply (H4 Hn (map f r)). apply HM. exists (firstn (S n) xs ++ r). split; [|exact Hr]. now rewrite map_app, map_firstn.
Qed.

(** ** tests/brainfck.rs *)
Definition bf_gi : grammar_info := Eval vm_compute in decl_gi (decls_of brainfck_input).

Definition bf_means (l : string) (ts : list (tok code_rust)) (v : val code_rust) : Prop :=
  exists code, ts = map bf_tok code /\
  (l = "instruction" -> exists i, code = [i] /\ i <> OpenBracket /\ i <> CloseBracket /\ v = RTok (bf_tok i)) /\
  (l <> "instruction" -> v = bf_val code /\ forall d rest, brackets_match d (code ++ rest) <-> brackets_match d rest).

Lemma bf_sym n k : sym_matches code_rust bf_gi (mk_symbol n PGNone) k = true -> k = TVariant n None.
Proof.
  unfold sym_matches. cbn [gi_terminal_type bf_gi sname sparen]. destruct k as [n' f|[]]; [|discriminate]. rewrite andb_true_iff.
  intros (H1 & H2). unfold eqb in H1. destruct (eq_dec n' n) as [->|]; [|discriminate]. destruct f; [discriminate|reflexivity].
Qed.

Lemma bf_sym_ok i : sym_matches code_rust bf_gi (mk_symbol (variant_name i) PGNone) (bf_tok i) = true.
Proof. destruct i; reflexivity. Qed.

Ltac value_is Hv e := match type of Hv with
  | _ = @inl ?A ?B ?v => let E := fresh in assert (E : @inl A B e = inl v) by exact Hv; injection E as <-; clear Hv
  end.

Lemma bf_rules i r ts vs v : nth_error (gi_rules bf_gi) i = Some r -> spread code_rust bf_gi bf_means (pr_nodes r) ts vs ->
  rule_value code_rust bf_gi i (combine (node_indices (pr_nodes r)) vs) = inl v -> bf_means (pr_name r) ts v.
Proof.
  intros Hi Hs Hv. destruct i as [|i]; [|destruct i as [|i]; [|destruct i as [|i]; [|destruct i as [|i]]]].
  - injection Hi as <-. cbn [pr_nodes pr_name spread] in *. destruct Hs as (t1 & t2 & v1 & vs' & -> & -> & (c & -> & _ & H1) & -> & ->).
    destruct (H1 ltac:(discriminate)) as (-> & H2).
    value_is Hv (bf_val c).
    rewrite app_nil_r. exists c. repeat split; auto; try apply H2; discriminate.
  - injection Hi as <-. cbn [pr_nodes pr_name spread] in *. destruct Hs as (-> & ->).
    value_is Hv (bf_val []). exists []. repeat split; auto. discriminate.
  - injection Hi as <-. cbn [pr_nodes pr_name spread] in *.
    destruct Hs as (t1 & t2 & v1 & vs1 & -> & -> & (c & -> & _ & H1) & t3 & t4 & v2 & vs2 & -> & -> & (c' & -> & H2 & _) & -> & ->).
    destruct (H1 ltac:(discriminate)) as (-> & H3). destruct (H2 eq_refl) as (j & -> & J1 & J2 & ->).
    value_is Hv (RUser (map variant_name c ++ [variant_name j]) : val code_rust). replace (RUser _) with (bf_val (c ++ [j])) by (unfold bf_val; now rewrite map_app).
    exists (c ++ [j]). rewrite app_nil_r, map_app. split; [reflexivity|]. split; [discriminate|]. intros _. split; [reflexivity|].
    intros d rest. rewrite <- app_assoc, H3. cbn. destruct j; try reflexivity; congruence.
  - injection Hi as <-. cbn [pr_nodes pr_name spread] in *.
    destruct Hs as (t1 & t2 & v1 & vs1 & -> & -> & (c & -> & _ & H1) & k & t3 & vs2 & -> & -> & K1 & t4 & t5 & v2 & vs3 & -> & -> & (c' & -> & _ & H2) & k' & t6 & vs4 & -> & -> & K2 & -> & ->).
    destruct (H1 ltac:(discriminate)) as (-> & H3). destruct (H2 ltac:(discriminate)) as (-> & H4).
    apply bf_sym in K1, K2. subst k k'.
    value_is Hv (RUser (map variant_name c ++ ["OpenBracket"] ++ map variant_name c' ++ ["CloseBracket"]) : val code_rust).
    replace (RUser _) with (bf_val (c ++ OpenBracket :: c' ++ [CloseBracket])) by (unfold bf_val; rewrite map_app; cbn [map]; now rewrite map_app).
    exists (c ++ OpenBracket :: c' ++ [CloseBracket]). split; [rewrite map_app; cbn [map]; rewrite map_app; reflexivity|]. split; [discriminate|]. intros _. split; [reflexivity|].
    intros d rest. rewrite <- app_assoc, H3. cbn. rewrite <- app_assoc, H4. reflexivity.
  - assert (Hj : exists j, j <> OpenBracket /\ j <> CloseBracket /\ r = mk_prule "instruction" (Some [TIdent "Instruction"]) [PNSymbol (mk_symbol (variant_name j) PGNone)] None).
    { do 6 (destruct i as [|i]; [injection Hi as <-; first [now exists IncTape|now exists DecTape|now exists IncByte|now exists DecByte|now exists Output|now exists Input]|]).
      destruct i; discriminate. }
    destruct Hj as (j & J1 & J2 & ->). cbn [pr_nodes pr_name spread] in *. destruct Hs as (k & ts' & vs' & -> & -> & K & -> & ->).
    apply bf_sym in K. subst k.
    assert (v = RTok (bf_tok j)) as ->. { unfold rule_value in Hv. rewrite Hi in Hv. cbn in Hv. unfold keep in Hv. 
      injection Hv as <-. reflexivity. }
    exists [j]. split; [reflexivity|]. split; [|congruence]. intros _. exists j. auto.
Qed.

Lemma bf_sound ts v : input_means code_rust bf_gi ts v -> exists code, ts = map bf_tok code /\ v = bf_val code /\ brackets_match 0 code.
Proof.
  intros H. apply (input_rules code_rust bf_gi bf_means _ _ bf_rules) in H as (r & Hr & code & Hc & _ & H2). injection Hr as <-.
  destruct (H2 ltac:(discriminate)) as (-> & H3). exists code. split; [exact Hc|]. split; [reflexivity|].
  specialize (H3 0 []). rewrite app_nil_r in H3. now apply H3.
Qed.

(** Programs from their pieces. *)
Definition bf_list (code : list instruction) : Prop := means code_rust bf_gi "instruction_list" (map bf_tok code) (bf_val code).

Lemma bf_nil : bf_list [].
Proof. apply (means_rule code_rust bf_gi 1 _ [] [] _ eq_refl); [repeat constructor|reflexivity]. Qed.

Lemma bf_step c i : bf_list c -> i <> OpenBracket -> i <> CloseBracket -> bf_list (c ++ [i]).
Proof.
  intros H H1 H2. unfold bf_list, bf_val. rewrite !map_app. apply (means_rule code_rust bf_gi 2 _ _ [bf_val c; RTok (bf_tok i)] _ eq_refl); [|reflexivity].
  cbn [pr_nodes]. apply am_label; [exact H|]. rewrite <- (app_nil_r (map bf_tok [i])). apply am_label; [|constructor].
  set (n := match i with IncTape => 4 | DecTape => 5 | IncByte => 6 | DecByte => 7 | Output => 8 | _ => 9 end).
  apply (means_rule code_rust bf_gi n (mk_prule "instruction" (Some [TIdent "Instruction"]) [PNSymbol (mk_symbol (variant_name i) PGNone)] None) _ [RTok (bf_tok i)]).
  - destruct i; try reflexivity; congruence.
  - cbn [pr_nodes]. exact (am_symbol code_rust bf_gi (mk_symbol (variant_name i) PGNone) (bf_tok i) [] [] [] (bf_sym_ok i) (am_nil _ _)).
  - destruct i; try reflexivity; congruence.
Qed.

Lemma bf_nest c c' : bf_list c -> bf_list c' -> bf_list (c ++ OpenBracket :: c' ++ [CloseBracket]).
Proof.
  intros H H'. unfold bf_list, bf_val. rewrite !map_app. cbn [map]. rewrite !map_app.
  apply (means_rule code_rust bf_gi 3 _ _ [bf_val c; RTok (bf_tok OpenBracket); bf_val c'; RTok (bf_tok CloseBracket)] _ eq_refl); [|reflexivity].
  cbn [pr_nodes]. apply am_label; [exact H|]. apply (am_symbol _ _ (mk_symbol "OpenBracket" PGNone) (bf_tok OpenBracket)); [reflexivity|].
  apply am_label; [exact H'|]. apply (am_symbol _ _ (mk_symbol "CloseBracket" PGNone) (bf_tok CloseBracket) [] [] []); [reflexivity|constructor].
Qed.

(** Lists that are open: each but the first after a bracket. *)
Fixpoint opened (stack : list (list instruction)) (top : list instruction) : list instruction :=
  match stack with
  | [] => top
  | c :: stack' => opened stack' (c ++ OpenBracket :: top)
  end.

Lemma opened_app stack : forall top rest, opened stack top ++ rest = opened stack (top ++ rest).
Proof. induction stack as [|c stack IH]; intros top rest; [reflexivity|]. cbn. rewrite IH, <- app_assoc. reflexivity. Qed.

Lemma bf_complete_from code : forall stack top, Forall bf_list stack -> bf_list top -> brackets_match (List.length stack) code -> bf_list (opened stack (top ++ code)).
Proof.
  induction code as [|i code IH]; intros stack top Hs Ht Hb.
  - cbn in Hb. destruct stack; [|discriminate]. cbn. now rewrite app_nil_r.
  - assert (Hplain : i <> OpenBracket -> i <> CloseBracket -> brackets_match (List.length stack) code -> bf_list (opened stack (top ++ i :: code))).
    { intros H1 H2 H3. replace (top ++ i :: code) with ((top ++ [i]) ++ code) by (now rewrite <- app_assoc). apply IH; auto. now apply bf_step. }
    destruct i; try (apply Hplain; [discriminate|discriminate|exact Hb]).
    + exact (IH (top :: stack) [] (Forall_cons _ Ht Hs) bf_nil Hb).
    + cbn in Hb. destruct stack as [|c stack]; [destruct Hb|]. cbn [opened].
      inversion Hs; subst. replace (c ++ OpenBracket :: top ++ CloseBracket :: code) with ((c ++ OpenBracket :: top ++ [CloseBracket]) ++ code).
      * apply IH; auto. now apply bf_nest.
      * rewrite <- app_assoc. cbn. now rewrite <- app_assoc.
Qed.

Lemma bf_iff code v : input_means code_rust bf_gi (map bf_tok code) v <-> brackets_match 0 code /\ v = bf_val code.
Proof.
  split.
  - intros H. apply bf_sound in H as (c & Hc & -> & Hb). assert (c = code) as ->; [|auto].
    clear - Hc. revert c Hc. induction code as [|i code IH]; intros [|j c] H; try discriminate; [reflexivity|].
    cbn in H. injection H as H1 H2. f_equal; [destruct i, j; try discriminate; reflexivity|]. now apply IH.
  - intros (Hb & ->). pose proof (bf_complete_from code [] [] (Forall_nil _) bf_nil Hb) as H. cbn in H.
    exists (mk_prule "root" (Some [TIdent "InstructionList"]) [PNProduction "instruction_list"] None), [bf_val code].
    split; [reflexivity|]. split; [|reflexivity]. cbn. rewrite <- (app_nil_r (map bf_tok code)). apply am_label; [exact H|constructor].
Qed.

Lemma bf_tok_inj i j : bf_tok i = bf_tok j -> i = j.
Proof. intros H. injection H as H. destruct i, j; try discriminate H; reflexivity. Qed.

Lemma close_all d : brackets_match d (repeat CloseBracket d).
Proof. induction d; [reflexivity|exact IHd]. Qed.

Lemma viable d code : (exists rest, brackets_match d (code ++ rest)) <-> unmatched d code = None.
Proof.
  revert d. induction code as [|i code IH]; intros d.
  - split; [reflexivity|]. intros _. exists (repeat CloseBracket d). apply close_all.
  - destruct i; try exact (IH _). destruct d as [|d]; [|exact (IH _)]. split; [intros (rest & [])|discriminate].
Qed.

Lemma unmatched_app d c i : unmatched d c = None -> forall r, unmatched d (c ++ i :: r) = match unmatched d (c ++ [i]) with Some x => Some x | None => unmatched d (c ++ i :: r) end.
Proof.
  revert d. induction c as [|j c IH]; intros d H r.
  - destruct i; try reflexivity. destruct d; reflexivity.
  - destruct j; try exact (IH _ H r). destruct d; [discriminate|exact (IH _ H r)].
Qed.

Lemma unmatched_close d c x : unmatched d c = Some x -> x = CloseBracket.
Proof.
  revert d. induction c as [|j c IH]; intros d H; [discriminate|]. destruct j; try exact (IH _ H). destruct d; [now injection H as <-|exact (IH _ H)].
Qed.

Lemma unmatched_last d c i x : unmatched d c = None -> unmatched d (c ++ [i]) = Some x -> i = CloseBracket.
Proof.
  revert d. induction c as [|j c IH]; intros d H1 H2.
  - destruct i; try discriminate; reflexivity.
  - destruct j; try exact (IH _ H1 H2). destruct d; [discriminate|exact (IH _ H1 H2)].
Qed.

Lemma nth_split' {X} n (l : list X) x : nth_error l n = Some x -> firstn (S n) l = firstn n l ++ [x] /\ exists r, l = firstn n l ++ x :: r.
Proof.
  revert n. induction l as [|y l IH]; intros [|n] H; try discriminate.
  - injection H as ->. split; [reflexivity|]. exists l. reflexivity.
  - cbn in H. destruct (IH n H) as (H1 & r & H2). split; [cbn [firstn app]; f_equal; exact H1|]. exists r. cbn [firstn app]. f_equal. exact H2.
Qed.

Lemma bf_wrong code o : first_wrong (brackets_match 0) code o -> o = unmatched 0 code.
Proof.
  intros (n & H1 & -> & H3 & H4). apply viable in H3. destruct (nth_error code n) as [i|] eqn:E.
  - destruct (nth_split' _ _ _ E) as (F1 & r & F2). assert (Hn : n < List.length code) by (apply nth_error_Some; congruence).
    destruct (unmatched 0 (firstn (S n) code)) as [x|] eqn:Hu.
    + rewrite F1 in Hu. rewrite F2 at 1. rewrite (unmatched_app 0 _ i H3 r), Hu. pose proof (unmatched_close _ _ _ Hu). pose proof (unmatched_last _ _ _ _ H3 Hu). congruence.
    + apply viable in Hu. destruct Hu as (rest & Hr). destruct (H4 Hn rest Hr).
  - apply nth_error_None in E. rewrite firstn_all2 in H3 by exact E. now symmetry.
Qed.
