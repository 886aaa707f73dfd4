(** Meanings in grammars of tests/sanity_tests.rs and tests/test_large_or.rs (C66). *)
From Coq Require Import Arith Bool String Ascii NArith List Lia.
From Verif Require Import Base.Prelude Spec.Grammar Model.TokenTree Model.Terminal Model.Constructor Model.CodeGen Model.Runtime Model.Symbol Model.FrontEnd.
From Verif Require Import Model.TestGrammars Spec.Values Spec.Meaning Spec.TestLanguages.
From Verif Require Import Proofs.MacroRefute Proofs.Meaning Proofs.TestGrammars Proofs.TestLanguages.
Import ListNotations.
Open Scope string_scope.
Open Scope list_scope.

Definition letters : list N := Eval vm_compute in map N.of_nat (seq 97 26 ++ seq 65 26).
Lemma letters_ok c : letter c -> In c letters.
Proof.
  intros H. change letters with (map N.of_nat (seq 97 26 ++ seq 65 26)). apply in_map_iff. exists (N.to_nat c). split; [apply N2Nat.id|].
  apply in_or_app. unfold letter in H. destruct H as [H|H]; [right|left]; apply in_seq; lia.
Qed.

(** ** GetReq *)
Definition req_gi : grammar_info := Eval vm_compute in decl_gi (decls_of get_req_input).
Notation raws := (map (fun c : N => TRaw c : tok req_rust)).
Definition is_name (name : list N) : Prop := name <> [] /\ Forall letter name.
Definition verb (t : request_type) : list N := chars (match t with Get => "GET" | Head => "HEAD" end).

Definition req_means (l : string) (ts : list (tok req_rust)) (v : val req_rust) : Prop :=
  if String.eqb l "alpha" then exists c, letter c /\ ts = raws [c] /\ v = RTok (TRaw c)
  else if String.eqb l "alphas" then exists name, is_name name /\ ts = raws name /\ v = RUser (VString name)
  else if String.eqb l "absoluteURI" || String.eqb l "uri" then exists name, is_name name /\ ts = raws (58%N :: name) /\ v = RUser (VString (58%N :: name))
  else if String.eqb l "req" then exists t, ts = raws (verb t) /\ v = RUser (VType t)
  else exists t name, is_name name /\ ts = raws (verb t ++ 32%N :: 58%N :: name) /\ v = RUser (VReq t (58%N :: name)).

Lemma name_snoc name c : is_name name -> letter c -> is_name (name ++ [c]).
Proof. intros (H1 & H2) H. split; [destruct name; discriminate|]. apply Forall_app. auto. Qed.

Lemma req_rules i r ts vs v : nth_error (gi_rules req_gi) i = Some r -> spread req_rust req_gi req_means (pr_nodes r) ts vs ->
  rule_value req_rust req_gi i (combine (node_indices (pr_nodes r)) vs) = inl v -> req_means (pr_name r) ts v.
Proof.
  intros Hi Hs Hv. destruct i as [|i]; [|destruct i as [|i]; [|destruct i as [|i]; [|destruct i as [|i]; [|destruct i as [|i]; [|destruct i as [|i]; [|destruct i as [|i]]]]]]].
  - injection Hi as <-. destruct Hs as (t1 & t2 & v1 & vs' & -> & -> & (t & -> & ->) & k & t3 & vs2 & -> & -> & K & t4 & t5 & v2 & vs3 & -> & -> & (name & H2 & -> & ->) & -> & ->).
    apply raw_sym in K; [|reflexivity]. subst k. value_is Hv (RUser (VReq t (58%N :: name)) : val req_rust). exists t, name. rewrite app_nil_r, map_app. auto.
  - injection Hi as <-. destruct Hs as (k & t3 & vs2 & -> & -> & K & k' & t4 & vs3 & -> & -> & K' & k'' & t5 & vs4 & -> & -> & K'' & -> & ->).
    apply raw_sym in K, K', K''; try reflexivity. subst. value_is Hv (RUser (VType Get) : val req_rust). exists Get. split; reflexivity.
  - injection Hi as <-. destruct Hs as (k & t3 & vs2 & -> & -> & K & k' & t4 & vs3 & -> & -> & K' & k'' & t5 & vs4 & -> & -> & K'' & k4 & t6 & vs6 & -> & -> & K4 & -> & ->).
    apply raw_sym in K, K', K'', K4; try reflexivity. subst. value_is Hv (RUser (VType Head) : val req_rust). exists Head. split; reflexivity.
  - injection Hi as <-. destruct Hs as (t1 & t2 & v1 & vs' & -> & -> & (name & H1 & -> & ->) & -> & ->). value_is Hv (RUser (VString (58%N :: name)) : val req_rust).
    rewrite app_nil_r. exists name. auto.
  - injection Hi as <-. destruct Hs as (k & t3 & vs2 & -> & -> & K & t1 & t2 & v1 & vs' & -> & -> & (name & H1 & -> & ->) & -> & ->). apply raw_sym in K; [|reflexivity]. subst k.
    value_is Hv (RUser (VString (58%N :: name)) : val req_rust). rewrite app_nil_r. exists name. auto.
  - injection Hi as <-. destruct Hs as (t1 & t2 & v1 & vs' & -> & -> & (name & H1 & -> & ->) & t4 & t5 & v2 & vs3 & -> & -> & (c & H2 & -> & ->) & -> & ->).
    value_is Hv (RUser (VString (name ++ [c])) : val req_rust). rewrite app_nil_r. exists (name ++ [c]). rewrite map_app. split; [now apply name_snoc|auto].
  - injection Hi as <-. destruct Hs as (t1 & t2 & v1 & vs' & -> & -> & (c & H1 & -> & ->) & -> & ->).
    value_is Hv (RUser (VString [c]) : val req_rust). exists [c]. split; [split; [discriminate|constructor; [exact H1|constructor]]|auto].
  - do 52 (destruct i as [|i]; [injection Hi as <-; destruct Hs as (k & t3 & vs2 & -> & -> & K & -> & ->); apply raw_sym in K; [|reflexivity]; subst k;
      match goal with H : _ = inl ?v |- req_means _ [TRaw ?c] _ => value_is H (RTok (TRaw c) : val req_rust); exists c end;
      split; [unfold letter; cbn; lia|split; reflexivity]|]).
    destruct i; discriminate.
Qed.

Lemma req_sound ts v : input_means req_rust req_gi ts v -> exists text t uri, ts = raws text /\ request text t uri /\ v = RUser (VReq t uri).
Proof.
  intros H. apply (input_rules req_rust req_gi req_means _ _ req_rules) in H. destruct H as (r & Hr & H). injection Hr as <-.
  destruct H as (t & name & (H1 & H2) & -> & ->). exists (verb t ++ 32%N :: 58%N :: name), t, (58%N :: name). split; [reflexivity|]. split; [|reflexivity].
  exists name. repeat split; auto. destruct t; reflexivity.
Qed.

Notation mean l := (means req_rust req_gi l).
Lemma alpha_means c : letter c -> mean "alpha" (raws [c]) (RTok (TRaw c)).
Proof.
  intros H. apply letters_ok in H. set (i := if (c <? 97)%N then 33 + N.to_nat (c - 65) else 7 + N.to_nat (c - 97)).
  repeat (destruct H as [<-|H]; [refine (means_rule req_rust req_gi i _ _ [RTok (TRaw _)] _ eq_refl _ _);
    [refine (am_symbol req_rust req_gi _ (TRaw _) [] [] [] _ (am_nil _ _)); reflexivity|reflexivity]|]). destruct H.
Qed.

Lemma alphas_mean name : is_name name -> mean "alphas" (raws name) (RUser (VString name)).
Proof.
  intros (Hne & F). induction name as [|c name IH] using rev_ind; [congruence|]. apply Forall_app in F. destruct F as (F1 & F2). inversion F2 as [|? ? Hc _]. subst.
  destruct name as [|c' name'].
  - refine (means_rule req_rust req_gi 6 _ _ [RTok (TRaw c)] _ eq_refl _ _); [|reflexivity].
    apply (am_label req_rust req_gi "alpha" (raws [c]) _ [] [] []); [now apply alpha_means|constructor].
  - set (name := c' :: name') in *. rewrite map_app. refine (means_rule req_rust req_gi 5 _ _ [RUser (VString name); RTok (TRaw c)] _ eq_refl _ _); [|reflexivity].
    apply (am_label req_rust req_gi "alphas"); [apply IH; [discriminate|exact F1]|].
    apply (am_label req_rust req_gi "alpha" (raws [c]) _ [] [] []); [now apply alpha_means|constructor].
Qed.

Lemma uri_means name : is_name name -> mean "uri" (raws (58%N :: name)) (RUser (VString (58%N :: name))).
Proof.
  intros H. refine (means_rule req_rust req_gi 3 _ _ [RUser (VString (58%N :: name))] _ eq_refl _ _); [|reflexivity].
  rewrite <- (app_nil_r (raws (58%N :: name))). apply (am_label req_rust req_gi "absoluteURI" _ _ [] [] []); [|constructor].
  refine (means_rule req_rust req_gi 4 _ _ [RTok (TRaw 58%N); RUser (VString name)] _ eq_refl _ _); [|reflexivity].
  refine (am_symbol req_rust req_gi _ (TRaw 58%N) _ (raws name) [RUser (VString name)] _ _); [reflexivity|].
  rewrite <- (app_nil_r (raws name)). apply (am_label req_rust req_gi "alphas" _ _ [] [] []); [|constructor]. now apply alphas_mean.
Qed.

Lemma verb_means t : mean "req" (raws (verb t)) (RUser (VType t)).
Proof.
  destruct t.
  - refine (means_rule req_rust req_gi 1 _ _ [RTok (TRaw 71%N); RTok (TRaw 69%N); RTok (TRaw 84%N)] _ eq_refl _ _); [|reflexivity].
    refine (am_symbol req_rust req_gi _ (TRaw 71%N) _ _ _ _ (am_symbol req_rust req_gi _ (TRaw 69%N) _ _ _ _ (am_symbol req_rust req_gi _ (TRaw 84%N) [] [] [] _ (am_nil _ _)))); reflexivity.
  - refine (means_rule req_rust req_gi 2 _ _ [RTok (TRaw 72%N); RTok (TRaw 69%N); RTok (TRaw 65%N); RTok (TRaw 68%N)] _ eq_refl _ _); [|reflexivity].
    refine (am_symbol req_rust req_gi _ (TRaw 72%N) _ _ _ _ (am_symbol req_rust req_gi _ (TRaw 69%N) _ _ _ _ (am_symbol req_rust req_gi _ (TRaw 65%N) _ _ _ _
      (am_symbol req_rust req_gi _ (TRaw 68%N) [] [] [] _ (am_nil _ _))))); reflexivity.
Qed.

Lemma req_iff text v : input_means req_rust req_gi (raws text) v <-> exists t uri, request text t uri /\ v = RUser (VReq t uri).
Proof.
  split.
  - intros H. apply req_sound in H. destruct H as (x & t & uri & E & H1 & H2). apply map_inj in E; [|congruence]. subst x. eauto.
  - intros (t & uri & (name & H1 & H2 & -> & ->) & ->). eexists. exists [RUser (VType t); RTok (TRaw 32%N); RUser (VString (58%N :: name))]. split; [reflexivity|]. split; [|reflexivity].
    replace (raws _) with (raws (verb t) ++ TRaw 32%N :: raws (58%N :: name)) by (destruct t; reflexivity).
    refine (am_label req_rust req_gi "req" _ _ _ _ [RTok (TRaw 32%N); RUser (VString (58%N :: name))] (verb_means t) _).
    refine (am_symbol req_rust req_gi _ (TRaw 32%N) _ (raws (58%N :: name)) [RUser (VString (58%N :: name))] _ _); [reflexivity|].
    rewrite <- (app_nil_r (raws (58%N :: name))). apply (am_label req_rust req_gi "uri" _ _ [] [] []); [|constructor]. apply uri_means. split; auto.
Qed.

Lemma request_one text t uri t' uri' : request text t uri -> request text t' uri' -> t = t' /\ uri = uri'.
Proof. intros (name & _ & _ & -> & ->) (name' & _ & _ & -> & E). destruct t, t'; try discriminate; injection E as ->; auto. Qed.

(** ** TestNonLALR *)
Definition path_gi : grammar_info := Eval vm_compute in decl_gi (decls_of non_lalr_input).
Definition path_means (l : string) (ts : list (tok path_rust)) (v : val path_rust) : Prop :=
  if String.eqb l "A" || String.eqb l "B" then ts = [TRaw 100%N]
  else exists w c, In (w, c) non_lalr_words /\ ts = map (fun c => TRaw c) (chars w) /\ v = RUser c.

Lemma path_rules i r ts vs v : nth_error (gi_rules path_gi) i = Some r -> spread path_rust path_gi path_means (pr_nodes r) ts vs ->
  rule_value path_rust path_gi i (combine (node_indices (pr_nodes r)) vs) = inl v -> path_means (pr_name r) ts v.
Proof.
  intros Hi Hs Hv. destruct i as [|i]; [|destruct i as [|i]; [|destruct i as [|i]; [|destruct i as [|i]; [|destruct i as [|i]; [|destruct i as [|i]; [|destruct i as [|i]]]]]]].
  - injection Hi as <-. destruct Hs as (t1 & t2 & v1 & vs' & -> & -> & (w & c & H & -> & ->) & -> & ->). value_is Hv (RUser c : val path_rust). exists w, c. rewrite app_nil_r. auto.
  - injection Hi as <-. destruct Hs as (t1 & t2 & v1 & vs' & -> & -> & H & k & t3 & vs2 & -> & -> & K & -> & ->). apply raw_sym in K; [|reflexivity]. cbn in H. subst.
    value_is Hv (RUser "C1" : val path_rust). exists "da", "C1". split; [cbn; tauto|split; reflexivity].
  - injection Hi as <-. destruct Hs as (k' & t0 & vs0 & -> & -> & K' & t1 & t2 & v1 & vs' & -> & -> & H & k & t3 & vs2 & -> & -> & K & -> & ->). apply raw_sym in K, K'; try reflexivity. cbn in H. subst.
    value_is Hv (RUser "C2" : val path_rust). exists "bdc", "C2". split; [cbn; tauto|split; reflexivity].
  - injection Hi as <-. destruct Hs as (t1 & t2 & v1 & vs' & -> & -> & H & k & t3 & vs2 & -> & -> & K & -> & ->). apply raw_sym in K; [|reflexivity]. cbn in H. subst.
    value_is Hv (RUser "C3" : val path_rust). exists "dc", "C3". split; [cbn; tauto|split; reflexivity].
  - injection Hi as <-. destruct Hs as (k' & t0 & vs0 & -> & -> & K' & t1 & t2 & v1 & vs' & -> & -> & H & k & t3 & vs2 & -> & -> & K & -> & ->). apply raw_sym in K, K'; try reflexivity. cbn in H. subst.
    value_is Hv (RUser "C4" : val path_rust). exists "bda", "C4". split; [cbn; tauto|split; reflexivity].
  - injection Hi as <-. destruct Hs as (k & t3 & vs2 & -> & -> & K & -> & ->). apply raw_sym in K; [|reflexivity]. now subst.
  - injection Hi as <-. destruct Hs as (k & t3 & vs2 & -> & -> & K & -> & ->). apply raw_sym in K; [|reflexivity]. now subst.
  - destruct i; discriminate.
Qed.

Lemma path_sound ts v : input_means path_rust path_gi ts v -> exists w c, In (w, c) non_lalr_words /\ ts = map (fun c => TRaw c) (chars w) /\ v = RUser c.
Proof.
  intros H. apply (input_rules path_rust path_gi path_means _ _ path_rules) in H. destruct H as (r & Hr & H). injection Hr as <-. exact H.
Qed.
Lemma path_complete w c : In (w, c) non_lalr_words -> input_means path_rust path_gi (map (fun c => TRaw c) (chars w)) (RUser c).
Proof.
  assert (HA : means path_rust path_gi "A" [TRaw 100%N] RUnit).
  { refine (means_rule path_rust path_gi 5 _ _ [RTok (TRaw 100%N)] _ eq_refl _ _); [|reflexivity]. refine (am_symbol path_rust path_gi _ (TRaw 100%N) [] [] [] _ (am_nil _ _)); reflexivity. }
  assert (HB : means path_rust path_gi "B" [TRaw 100%N] RUnit).
  { refine (means_rule path_rust path_gi 6 _ _ [RTok (TRaw 100%N)] _ eq_refl _ _); [|reflexivity]. refine (am_symbol path_rust path_gi _ (TRaw 100%N) [] [] [] _ (am_nil _ _)); reflexivity. }
  intros H. cut (means path_rust path_gi "S" (map (fun c => TRaw c) (chars w)) (RUser c)).
  { intros Hm. eexists. exists [RUser c]. split; [reflexivity|]. split; [|reflexivity]. rewrite <- (app_nil_r (map _ (chars w))). apply (am_label path_rust path_gi "S" _ _ [] [] []); [exact Hm|constructor]. }
  destruct H as [E|[E|[E|[E|[]]]]]; injection E as <- <-.
  - refine (means_rule path_rust path_gi 1 _ _ [RUnit; RTok (TRaw 97%N)] _ eq_refl _ _); [|reflexivity].
    refine (am_label path_rust path_gi "A" [TRaw 100%N] _ _ [TRaw 97%N] _ HA _). refine (am_symbol path_rust path_gi _ (TRaw 97%N) [] [] [] _ (am_nil _ _)); reflexivity.
  - refine (means_rule path_rust path_gi 2 _ _ [RTok (TRaw 98%N); RUnit; RTok (TRaw 99%N)] _ eq_refl _ _); [|reflexivity].
    refine (am_symbol path_rust path_gi _ (TRaw 98%N) _ [TRaw 100%N; TRaw 99%N] [RUnit; RTok (TRaw 99%N)] _ _); [reflexivity|].
    refine (am_label path_rust path_gi "A" [TRaw 100%N] _ _ [TRaw 99%N] _ HA _). refine (am_symbol path_rust path_gi _ (TRaw 99%N) [] [] [] _ (am_nil _ _)); reflexivity.
  - refine (means_rule path_rust path_gi 3 _ _ [RUnit; RTok (TRaw 99%N)] _ eq_refl _ _); [|reflexivity].
    refine (am_label path_rust path_gi "B" [TRaw 100%N] _ _ [TRaw 99%N] _ HB _). refine (am_symbol path_rust path_gi _ (TRaw 99%N) [] [] [] _ (am_nil _ _)); reflexivity.
  - refine (means_rule path_rust path_gi 4 _ _ [RTok (TRaw 98%N); RUnit; RTok (TRaw 97%N)] _ eq_refl _ _); [|reflexivity].
    refine (am_symbol path_rust path_gi _ (TRaw 98%N) _ [TRaw 100%N; TRaw 97%N] [RUnit; RTok (TRaw 97%N)] _ _); [reflexivity|].
    refine (am_label path_rust path_gi "B" [TRaw 100%N] _ _ [TRaw 97%N] _ HB _). refine (am_symbol path_rust path_gi _ (TRaw 97%N) [] [] [] _ (am_nil _ _)); reflexivity.
Qed.

(** ** test_large_or.rs *)
Definition or_gi : grammar_info := Eval vm_compute in decl_gi (decls_of large_or_input).
Definition or_means (_ : string) (ts : list (tok u32_rust)) (v : val u32_rust) : Prop := exists c, letter c /\ ts = [TRaw c] /\ v = RTok (TRaw c).
Lemma or_rules i r ts vs v : nth_error (gi_rules or_gi) i = Some r -> spread u32_rust or_gi or_means (pr_nodes r) ts vs ->
  rule_value u32_rust or_gi i (combine (node_indices (pr_nodes r)) vs) = inl v -> or_means (pr_name r) ts v.
Proof.
  intros Hi Hs Hv. destruct i as [|i].
  - injection Hi as <-. destruct Hs as (t1 & t2 & v1 & vs' & -> & -> & (c & H & -> & ->) & -> & ->). value_is Hv (RTok (TRaw c) : val u32_rust). exists c. auto.
  - do 52 (destruct i as [|i]; [injection Hi as <-; destruct Hs as (k & t3 & vs2 & -> & -> & K & -> & ->); apply raw_sym in K; [|reflexivity]; subst k;
      match goal with H : _ = inl ?v |- or_means _ [TRaw ?c] _ => value_is H (RTok (TRaw c) : val u32_rust); exists c end;
      split; [unfold letter; cbn; lia|split; reflexivity]|]).
    destruct i; discriminate.
Qed.
Lemma or_iff ts v : input_means u32_rust or_gi ts v <-> exists c, letter c /\ ts = [TRaw c] /\ v = RTok (TRaw c).
Proof.
  split.
  - intros H. apply (input_rules u32_rust or_gi or_means _ _ or_rules) in H. destruct H as (r & _ & H). exact H.
  - intros (c & H & -> & ->). eexists. exists [RTok (TRaw c)]. split; [reflexivity|]. split; [|reflexivity].
    apply (am_label u32_rust or_gi "dig" [TRaw c] _ [] [] []); [|constructor].
    apply letters_ok in H. set (i := if (c <? 97)%N then 27 + N.to_nat (c - 65) else 1 + N.to_nat (c - 97)).
    repeat (destruct H as [<-|H]; [refine (means_rule u32_rust or_gi i _ _ [RTok (TRaw _)] _ eq_refl _ _);
      [refine (am_symbol u32_rust or_gi _ (TRaw _) [] [] [] _ (am_nil _ _)); reflexivity|reflexivity]|]). destruct H.
Qed.
