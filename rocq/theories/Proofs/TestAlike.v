(** Meanings in the grammar of tests/error_messages.rs (C65). *)
From Coq Require Import Arith Bool String Ascii NArith List Lia.
From Verif Require Import Base.Prelude Spec.Grammar Model.TokenTree Model.Terminal Model.Constructor Model.CodeGen Model.Runtime Model.Symbol Model.FrontEnd.
From Verif Require Import Model.TestGrammars Spec.Values Spec.Meaning Spec.TestLanguages.
From Verif Require Import Proofs.MacroRefute Proofs.Meaning Proofs.TestGrammars Proofs.TestLanguages.
Import ListNotations.
Open Scope string_scope.
Open Scope list_scope.

Definition ab_gi : grammar_info := Eval vm_compute in decl_gi (decls_of error_messages_input).
Definition some_of (P : ab_token -> Prop) (ts : list (tok place_rust)) : Prop :=
  exists l, l <> [] /\ Forall P l /\ ts = map ab_tok l.

Definition ab_means (l : string) (ts : list (tok place_rust)) (v : val place_rust) : Prop :=
  v = RUnit /\
  if String.eqb l "a" then exists n, ts = [ab_tok (A n)]
  else if String.eqb l "b" then exists n, ts = [ab_tok (B n)]
  else if String.eqb l "all_a" then some_of is_a ts
  else if String.eqb l "all_b" then some_of is_b ts
  else some_of is_a ts \/ some_of is_b ts.

Lemma some_one (P : ab_token -> Prop) t : P t -> some_of P [ab_tok t].
Proof. intros H. exists [t]. repeat split; [discriminate|auto]. Qed.
Lemma some_more (P : ab_token -> Prop) ts t : some_of P ts -> P t -> some_of P (ts ++ [ab_tok t]).
Proof.
  intros (l & H1 & H2 & ->) H. exists (l ++ [t]). split; [destruct l; discriminate|]. split; [apply Forall_app; auto|]. now rewrite map_app.
Qed.

Lemma ab_sym n k : sym_matches place_rust ab_gi (mk_symbol n PGWildcard) k = true -> exists f, k = TVariant n (Some f).
Proof.
  unfold sym_matches. cbn [gi_terminal_type ab_gi sname sparen]. destruct k as [n' f|[]]; [|discriminate]. rewrite andb_true_iff.
  intros (H1 & H2). unfold eqb in H1. destruct (eq_dec n' n) as [->|]; [|discriminate]. destruct f; [eauto|discriminate].
Qed.

Lemma ab_rules i r ts vs v : nth_error (gi_rules ab_gi) i = Some r -> spread place_rust ab_gi ab_means (pr_nodes r) ts vs ->
  rule_value place_rust ab_gi i (combine (node_indices (pr_nodes r)) vs) = inl v -> ab_means (pr_name r) ts v.
Proof.
  intros Hi Hs Hv.
  do 3 (destruct i as [|i]; [injection Hi as <-; destruct Hs as (t1 & t2 & v1 & vs' & -> & -> & (-> & H) & -> & ->);
    value_is Hv (RUnit : val place_rust); rewrite app_nil_r; split; [reflexivity|]; first [exact H|left; exact H|right; exact H]|]).
  destruct i as [|i]; [|destruct i as [|i]; [|destruct i as [|i]; [|destruct i as [|i]; [|destruct i as [|i]; [|destruct i as [|i]]]]]].
  - injection Hi as <-. destruct Hs as (t1 & t2 & v1 & vs' & -> & -> & (-> & n & ->) & -> & ->). value_is Hv (RUnit : val place_rust). split; [reflexivity|]. now apply some_one.
  - injection Hi as <-. destruct Hs as (t1 & t2 & v1 & vs' & -> & -> & (-> & H) & t3 & t4 & v3 & vs3 & -> & -> & (-> & n & ->) & -> & ->). value_is Hv (RUnit : val place_rust).
    split; [reflexivity|]. rewrite app_nil_r. exact (some_more is_a t1 (A n) H I).
  - injection Hi as <-. destruct Hs as (t1 & t2 & v1 & vs' & -> & -> & (-> & n & ->) & -> & ->). value_is Hv (RUnit : val place_rust). split; [reflexivity|]. now apply some_one.
  - injection Hi as <-. destruct Hs as (t1 & t2 & v1 & vs' & -> & -> & (-> & H) & t3 & t4 & v3 & vs3 & -> & -> & (-> & n & ->) & -> & ->). value_is Hv (RUnit : val place_rust).
    split; [reflexivity|]. rewrite app_nil_r. exact (some_more is_b t1 (B n) H I).
  - injection Hi as <-. destruct Hs as (k & t & vs' & -> & -> & K & -> & ->). value_is Hv (RUnit : val place_rust). apply ab_sym in K. destruct K as (f & ->).
    split; [reflexivity|]. now exists f.
  - injection Hi as <-. destruct Hs as (k & t & vs' & -> & -> & K & -> & ->). value_is Hv (RUnit : val place_rust). apply ab_sym in K. destruct K as (f & ->).
    split; [reflexivity|]. now exists f.
  - destruct i; discriminate.
Qed.

Lemma ab_sound ts v : input_means place_rust ab_gi ts v -> v = RUnit /\ exists l, ts = map ab_tok l /\ all_alike l.
Proof.
  intros H. apply (input_rules place_rust ab_gi ab_means _ _ ab_rules) in H. destruct H as (r & Hr & H). injection Hr as <-.
  destruct H as (-> & [(l & H1 & H2 & ->)|(l & H1 & H2 & ->)]); (split; [reflexivity|]); exists l; (split; [reflexivity|]); split; auto.
Qed.

Notation mean l := (means place_rust ab_gi l).
Lemma a_means n : mean "a" [ab_tok (A n)] RUnit.
Proof.
  refine (means_rule place_rust ab_gi 7 _ _ [RPay n] _ eq_refl _ _); [|reflexivity].
  refine (am_symbol place_rust ab_gi _ (TVariant "A" (Some n)) [] [] [] _ (am_nil _ _)). reflexivity.
Qed.
Lemma b_means n : mean "b" [ab_tok (B n)] RUnit.
Proof.
  refine (means_rule place_rust ab_gi 8 _ _ [RPay n] _ eq_refl _ _); [|reflexivity].
  refine (am_symbol place_rust ab_gi _ (TVariant "B" (Some n)) [] [] [] _ (am_nil _ _)). reflexivity.
Qed.

Lemma unit_one i r l ts : nth_error (gi_rules ab_gi) i = Some r -> pr_nodes r = [PNProduction l] ->
  rule_value place_rust ab_gi i [(0, RUnit)] = inl RUnit -> mean l ts RUnit -> mean (pr_name r) ts RUnit.
Proof.
  intros Hi Hn Hv H. apply (means_rule place_rust ab_gi i r ts [RUnit] RUnit Hi); rewrite Hn; [|exact Hv].
  rewrite <- (app_nil_r ts). apply am_label; [exact H|constructor].
Qed.

Lemma alls_mean (P : ab_token -> Prop) one many i j r r' : nth_error (gi_rules ab_gi) i = Some r -> nth_error (gi_rules ab_gi) j = Some r' ->
  pr_nodes r = [PNProduction one] -> pr_nodes r' = [PNProduction many; PNProduction one] -> pr_name r = many -> pr_name r' = many ->
  rule_value place_rust ab_gi i [(0, RUnit)] = inl RUnit -> rule_value place_rust ab_gi j [(0, RUnit); (1, RUnit)] = inl RUnit ->
  (forall t, P t -> mean one [ab_tok t] RUnit) -> forall l, l <> [] -> Forall P l -> mean many (map ab_tok l) RUnit.
Proof.
  intros Hi Hj Hn Hn' <- Hname Hv Hv' H1 l. induction l as [|t l IH] using rev_ind; [congruence|]. intros _ F. apply Forall_app in F. destruct F as (F1 & F2).
  inversion F2 as [|? ? Ht _]. subst. destruct l as [|t' l'].
  - apply (unit_one i r one); auto. exact (H1 t Ht).
  - set (l := t' :: l') in *. rewrite map_app, <- Hname. apply (means_rule place_rust ab_gi j r' _ [RUnit; RUnit] RUnit Hj); rewrite Hn'; [|exact Hv'].
    apply am_label; [apply IH; [discriminate|exact F1]|]. rewrite <- (app_nil_r (map ab_tok [t])). apply am_label; [exact (H1 t Ht)|constructor].
Qed.

Lemma ab_iff l v : input_means place_rust ab_gi (map ab_tok l) v <-> all_alike l /\ v = RUnit.
Proof.
  split.
  - intros H. apply ab_sound in H. destruct H as (-> & l' & E & H). apply map_inj in E; [subst l'; auto|]. intros [x|x|x] [y|y|y] Exy; try discriminate; injection Exy as ->; reflexivity.
  - intros ((Hne & H) & ->).
    assert (Ht : mean "text" (map ab_tok l) RUnit).
    { destruct H as [H|H].
      - refine (unit_one 1 _ "all_a" (map ab_tok l) eq_refl eq_refl eq_refl _).
        refine (alls_mean is_a "a" "all_a" 3 4 _ _ eq_refl eq_refl eq_refl eq_refl eq_refl eq_refl eq_refl eq_refl _ l Hne H). intros [n| |] []. apply a_means.
      - refine (unit_one 2 _ "all_b" (map ab_tok l) eq_refl eq_refl eq_refl _).
        refine (alls_mean is_b "b" "all_b" 5 6 _ _ eq_refl eq_refl eq_refl eq_refl eq_refl eq_refl eq_refl eq_refl _ l Hne H). intros [|n|] []. apply b_means. }
    eexists. exists [RUnit]. split; [reflexivity|]. split; [|reflexivity]. rewrite <- (app_nil_r (map ab_tok l)). apply (am_label place_rust ab_gi "text"); [exact Ht|constructor].
Qed.

(** ** The first wrong token *)
Lemma find_nth {X} (f : X -> bool) m l : Forall (fun x => f x = false) (firstn m l) -> (forall x, nth_error l m = Some x -> f x = true) -> find f l = nth_error l m.
Proof.
  revert m. induction l as [|y l IH]; intros m F H; [now destruct m|]. destruct m as [|m].
  - cbn. now rewrite (H y eq_refl).
  - cbn [firstn] in F. inversion F as [|? ? Fy F']. subst. cbn [find nth_error]. rewrite Fy. apply IH; auto.
Qed.

Lemma alike_a n l : (exists rest, all_alike (A n :: l ++ rest)) <-> Forall is_a l.
Proof.
  split.
  - intros (rest & _ & [H|H]); inversion H as [|? ? H1 H2]; [|destruct H1]. apply Forall_app in H2. apply H2.
  - intros H. exists []. rewrite app_nil_r. split; [discriminate|]. left. constructor; [exact I|exact H].
Qed.
Lemma alike_b n l : (exists rest, all_alike (B n :: l ++ rest)) <-> Forall is_b l.
Proof.
  split.
  - intros (rest & _ & [H|H]); inversion H as [|? ? H1 H2]; [destruct H1|]. apply Forall_app in H2. apply H2.
  - intros H. exists []. rewrite app_nil_r. split; [discriminate|]. right. constructor; [exact I|exact H].
Qed.

Lemma ab_wrong ts o : first_wrong all_alike ts o -> o = unlike ts.
Proof.
  intros (n & H1 & -> & H3 & H4). destruct ts as [|t ts]; [now destruct n|]. destruct n as [|m].
  - specialize (H4 ltac:(cbn; lia)). cbn [nth_error]. destruct t as [x|x|x]; [| |reflexivity].
    + destruct (H4 []). split; [discriminate|]. left. repeat constructor.
    + destruct (H4 []). split; [discriminate|]. right. repeat constructor.
  - cbn [nth_error]. cbn [List.length] in H1, H4.
    destruct t as [x|x|x]; cbn [unlike].
    + change (exists rest, all_alike (A x :: firstn m ts ++ rest)) in H3. apply alike_a in H3. symmetry. apply find_nth.
      * eapply Forall_impl; [|exact H3]. intros [?|?|?] []. reflexivity.
      * intros y Hy. destruct (nth_split' _ _ _ Hy) as (F1 & _). assert (Hm : m < List.length ts) by (apply nth_error_Some; congruence).
        specialize (H4 ltac:(lia)). destruct y as [y|y|y]; [exfalso|reflexivity|reflexivity].
        assert (Hx : exists rest, all_alike (A x :: firstn (S m) ts ++ rest)) by (apply alike_a; rewrite F1; apply Forall_app; split; [exact H3|repeat constructor]). destruct Hx as (rest & Hx). exact (H4 rest Hx).
    + change (exists rest, all_alike (B x :: firstn m ts ++ rest)) in H3. apply alike_b in H3. symmetry. apply find_nth.
      * eapply Forall_impl; [|exact H3]. intros [?|?|?] []. reflexivity.
      * intros y Hy. destruct (nth_split' _ _ _ Hy) as (F1 & _). assert (Hm : m < List.length ts) by (apply nth_error_Some; congruence).
        specialize (H4 ltac:(lia)). destruct y as [y|y|y]; [reflexivity|exfalso|reflexivity].
        assert (Hx : exists rest, all_alike (B x :: firstn (S m) ts ++ rest)) by (apply alike_b; rewrite F1; apply Forall_app; split; [exact H3|repeat constructor]). destruct Hx as (rest & Hx). exact (H4 rest Hx).
    + destruct H3 as (rest & _ & [H|H]); inversion H as [|? ? Hc _]; destruct Hc.
Qed.
