(** Meanings in the smallest grammars of the tests, and in those with errors (C69). *)
From Coq Require Import Arith Bool String Ascii NArith List Lia.
From Verif Require Import Base.Prelude Spec.Grammar Model.TokenTree Model.Terminal Model.Constructor Model.CodeGen Model.Runtime Model.Symbol Model.FrontEnd.
From Verif Require Import Model.TestGrammars Spec.Values Spec.Meaning Spec.TestLanguages Spec.TestFailures.
From Verif Require Import Proofs.MacroRefute Proofs.Meaning Proofs.TestGrammars Proofs.TestLanguages Proofs.TestFailures.
Import ListNotations.
Open Scope string_scope.
Open Scope list_scope.

Section Rules.
Variable R : rust.
Variable gi : grammar_info.

(** Rules for one token, and rules for one label. *)
Lemma leaf_rule i l ty s b k v : nth_error (gi_rules gi) i = Some (mk_prule l ty [PNSymbol s] b) -> sym_matches R gi s k = true ->
  rule_value R gi i (combine (node_indices [PNSymbol s]) [leaf_value R s k]) = inl v -> means R gi l [k] v.
Proof.
  intros Hi Hm Hv. refine (means_rule R gi i _ [k] [leaf_value R s k] v Hi _ Hv). cbn. constructor; [exact Hm|constructor].
Qed.
Lemma unit_mean l ts v : means R gi l ts v -> all_mean R gi [PNProduction l] ts [v].
Proof. intros H. rewrite <- (app_nil_r ts). constructor; [exact H|constructor]. Qed.
Lemma unit_rule i l ty l' b ts v' v : nth_error (gi_rules gi) i = Some (mk_prule l ty [PNProduction l'] b) -> means R gi l' ts v' ->
  rule_value R gi i (combine (node_indices [PNProduction l']) [v']) = inl v -> means R gi l ts v.
Proof. intros Hi Hm Hv. exact (means_rule R gi i _ ts [v'] v Hi (unit_mean _ _ _ Hm) Hv). Qed.
Lemma unit_input l ty l' b ts v' v : nth_error (gi_rules gi) 0 = Some (mk_prule l ty [PNProduction l'] b) -> means R gi l' ts v' ->
  rule_value R gi 0 (combine (node_indices [PNProduction l']) [v']) = inl v -> input_means R gi ts v.
Proof. intros Hi Hm Hv. eexists _, [v']. split; [exact Hi|]. split; [exact (unit_mean _ _ _ Hm)|exact Hv]. Qed.

(** A constructor that fails at the end. *)
Lemma fails_at_end ts u : input_fails R gi ts [] u -> constructor_fails R gi ts u.
Proof.
  intros H. exists (List.length ts), []. split; [apply le_n|]. rewrite firstn_all. split; [exact H|].
  rewrite (proj2 (nth_error_None ts _) (le_n _)). exact I.
Qed.

(** [spread] for constructors that fail. *)
Variable P : string -> list (tok R) -> val R -> Prop.
Hypothesis HP : forall i r ts vs v, nth_error (gi_rules gi) i = Some r -> spread R gi P (pr_nodes r) ts vs ->
  rule_value R gi i (combine (node_indices (pr_nodes r)) vs) = inl v -> P (pr_name r) ts v.
Variable Q : string -> list (tok R) -> list user_symbol -> UErr R -> Prop.
Fixpoint spread_fail (ns : list pnode) (ts : list (tok R)) (rest : list user_symbol) (u : UErr R) : Prop :=
  match ns with
  | [] => False
  | PNSymbol s :: ns' => exists k ts', ts = k :: ts' /\ sym_matches R gi s k = true /\ spread_fail ns' ts' rest u
  | PNProduction l :: ns' =>
      (exists r1 r2 trees, rest = r1 ++ r2 /\ Q l ts r1 u /\ derives (source (gi_rules gi)) (map to_lr_node ns') r2 trees) \/
      (exists t1 t2 v, ts = t1 ++ t2 /\ P l t1 v /\ spread_fail ns' t2 rest u)
  | PNEpsilon :: ns' => spread_fail ns' ts rest u
  end.
Hypothesis HQ1 : forall i r ts vs u, nth_error (gi_rules gi) i = Some r -> spread R gi P (pr_nodes r) ts vs ->
  rule_value R gi i (combine (node_indices (pr_nodes r)) vs) = inr u -> Q (pr_name r) ts [] u.
Hypothesis HQ2 : forall i r ts rest u, nth_error (gi_rules gi) i = Some r -> spread_fail (pr_nodes r) ts rest u -> Q (pr_name r) ts rest u.

Lemma fail_rules : (forall l ts rest u, label_fails R gi l ts rest u -> Q l ts rest u) /\ (forall ns ts rest u, nodes_fail R gi ns ts rest u -> spread_fail ns ts rest u).
Proof.
  apply FailMain.label_fails_ind2.
  - intros i r ts vs u Hi Hm Hv. eapply HQ1; eauto. now apply (proj2 (means_rules R gi P HP)).
  - intros i r ts rest u Hi _ IH. eapply HQ2; eauto.
  - intros l ts rest ns rest' trees u _ IH Hd. left. exists rest, rest', trees. auto.
  - intros s k ns ts rest u Hm _ IH. exists k, ts. auto.
  - intros l ts v ns ts' rest u Hm _ IH. right. exists ts, ts', v. split; [reflexivity|]. split; [|exact IH]. now apply (proj1 (means_rules R gi P HP)).
  - intros ns ts rest u _ IH. exact IH.
Qed.

Lemma input_fail_rules ts rest u : input_fails R gi ts rest u -> exists r, nth_error (gi_rules gi) 0 = Some r /\ Q (pr_name r) ts rest u.
Proof.
  intros (r & H0 & H). exists r. split; [exact H0|]. destruct H as [H|(-> & vs & Hm & Hv)].
  - eapply HQ2; eauto. now apply (proj2 fail_rules).
  - eapply HQ1; eauto. now apply (proj2 (means_rules R gi P HP)).
Qed.
End Rules.

Lemma derives_none {T L} (g : Spec.Grammar.grammar T L) w ts : derives g [] w ts -> w = [].
Proof. intros H. inversion H. reflexivity. Qed.

(** ** Parsers for one character *)
Lemma one_wrong cs text o : ~ one_of cs text -> first_wrong (one_of cs) text o -> o = unexpected cs text.
Proof.
  intros Hno (n & Hn & -> & (rest & c & Hc & Hw) & Hbad). destruct text as [|a text]; [destruct n; [reflexivity|cbn in Hn; lia]|].
  cbn [unexpected]. destruct n as [|n].
  - cbn [nth_error]. destruct (in_dec N.eq_dec a cs) as [Ha|]; [|reflexivity]. exfalso. apply (Hbad ltac:(cbn; lia) []). exists a. auto.
  - cbn [firstn app] in Hw. injection Hw as <- Hw. destruct (in_dec N.eq_dec a cs) as [_|Ha]; [|contradiction]. cbn [nth_error].
    apply app_eq_nil in Hw. destruct Hw as (Hw & _). destruct text as [|b text]; [destruct n; reflexivity|]. destruct n; [reflexivity|discriminate].
Qed.

(** Words of grammars whose rules are single tokens or labels. *)
Section Units.
Variable R : rust.
Variable gi : grammar_info.
Notation T := (total_rust R).
Definition is_a (l : string) (ts : list (tok R)) : Prop := exists v, means T gi l ts v.
Lemma total_value i vars : exists v, rule_value T gi i vars = inl v.
Proof. apply value_some. intros []. Qed.
Lemma leaf_word i l ty s b k : nth_error (gi_rules gi) i = Some (mk_prule l ty [PNSymbol s] b) -> sym_matches R gi s k = true -> is_a l [k].
Proof.
  intros Hi Hm. destruct (total_value i (combine (node_indices [PNSymbol s]) [leaf_value T s k])) as (v & Hv). exists v. eapply (leaf_rule T gi i); eauto.
Qed.
Lemma unit_word i l ty l' b ts : nth_error (gi_rules gi) i = Some (mk_prule l ty [PNProduction l'] b) -> is_a l' ts -> is_a l ts.
Proof.
  intros Hi (v' & H). destruct (total_value i (combine (node_indices [PNProduction l']) [v'])) as (v & Hv). exists v. eapply (unit_rule T gi i); eauto.
Qed.
Lemma input_word l ty l' b ts : nth_error (gi_rules gi) 0 = Some (mk_prule l ty [PNProduction l'] b) -> is_a l' ts -> is_word R gi ts.
Proof.
  intros Hi (v' & H). destruct (total_value 0 (combine (node_indices [PNProduction l']) [v'])) as (v & Hv). exists v. eapply (unit_input T gi); eauto.
Qed.

Hypothesis Hraw : raw_b gi = true.
Variable C : Type.
Variable f : C -> tok R.
Variable cs : string -> list C.
Hypothesis Hunits : forall i r, nth_error (gi_rules gi) i = Some r ->
  (exists s c, pr_nodes r = [PNSymbol s] /\ TRaw (literal_value R (sname s)) = f c /\ In c (cs (pr_name r))) \/
  (exists l, pr_nodes r = [PNProduction l] /\ incl (cs l) (cs (pr_name r))).
Lemma units_sound ts : is_word R gi ts -> exists r c, nth_error (gi_rules gi) 0 = Some r /\ In c (cs (pr_name r)) /\ ts = [f c].
Proof.
  intros (v & H). apply (input_rules T gi (fun l ts _ => exists c, In c (cs l) /\ ts = [f c])) in H.
  - destruct H as (r & H0 & c & H1 & H2). eauto.
  - clear ts v H. intros i r ts vs v Hi Hs _. destruct (Hunits i r Hi) as [(s & c & En & Hl & Hc)|(l & En & Hl)]; rewrite En in Hs.
    + destruct Hs as (k & t & vs' & -> & -> & K & -> & ->). apply raw_sym in K; [|exact Hraw]. subst k. exists c. split; [exact Hc|]. f_equal. exact Hl.
    + destruct Hs as (t1 & t2 & v1 & vs' & -> & -> & (c & Hc & ->) & -> & ->). exists c. auto.
Qed.
End Units.

Ltac rule_cases i Hi := destruct i as [|i]; [injection Hi as <-|].
Ltac one_token Hs := let k := fresh "k" in let t := fresh "t" in let vs := fresh "vs" in let K := fresh "K" in
  destruct Hs as (k & t & vs & -> & -> & K & -> & ->); apply raw_sym in K; [subst k|reflexivity].

Lemma raw_inj {A B} (x y : A) : @TRaw A B x = TRaw y -> x = y.
Proof. intros H. now injection H. Qed.
Notation raws R text := (map (fun c : N => TRaw c : tok R) text).

(** *** tests/sanity_tests.rs:5-8 *)
Definition simple_gi : grammar_info := Eval vm_compute in decl_gi (decls_of sanity_simple_input).
Lemma simple_iff ts v : input_means u32_rust simple_gi ts v <-> exists text, ts = raws u32_rust text /\ text = chars "a" /\ v = RUnit.
Proof.
  split.
  - intros (r & vs & H0 & Hm & Hv). injection H0 as <-. apply (proj2 (means_rules u32_rust simple_gi (fun _ _ _ => True) (fun _ _ _ _ _ _ _ _ => I))) in Hm. one_token Hm.
    value_is Hv (RUnit : val u32_rust). exists (chars "a"). auto.
  - intros (text & -> & -> & ->). eexists _, _. split; [reflexivity|]. split; [|reflexivity]. apply am_symbol; [reflexivity|constructor].
Qed.

(** *** tests/auto_into.rs *)
Definition into_gi : grammar_info := Eval vm_compute in decl_gi (decls_of auto_into_input).
Definition of_a (v : into_value) : list N := match v with VA _ => chars "a" | _ => chars "b" end.
Definition into_means (l : string) (ts : list (tok into_rust)) (v : val into_rust) : Prop :=
  exists x, (x = VA 1 \/ x = VB 2) /\ ts = raws into_rust (of_a x) /\
  (l = "a" -> x = VA 1) /\ (l = "b" -> x = VB 2) /\ v = RUser (if String.eqb l "a" || String.eqb l "b" then x else VAOrB x).
Lemma into_rules i r ts vs v : nth_error (gi_rules into_gi) i = Some r -> spread into_rust into_gi into_means (pr_nodes r) ts vs ->
  rule_value into_rust into_gi i (combine (node_indices (pr_nodes r)) vs) = inl v -> into_means (pr_name r) ts v.
Proof.
  intros Hi Hs Hv. destruct i as [|i]; [|destruct i as [|i]; [|destruct i as [|i]]].
  1-3: injection Hi as <-; destruct Hs as (t1 & t2 & v1 & vs' & -> & -> & (x & Hx & -> & Ha & Hb & ->) & -> & ->).
  - rewrite app_nil_r. exists x. repeat split; try discriminate; auto.
    destruct Hx as [->| ->]; [value_is Hv (RUser (VAOrB (VA 1)) : val into_rust)|value_is Hv (RUser (VAOrB (VB 2)) : val into_rust)]; reflexivity.
  - rewrite app_nil_r. rewrite (Ha eq_refl) in *. exists (VA 1). repeat split; try discriminate; auto. value_is Hv (RUser (VAOrB (VA 1)) : val into_rust). reflexivity.
  - rewrite app_nil_r. rewrite (Hb eq_refl) in *. exists (VB 2). repeat split; try discriminate; auto. value_is Hv (RUser (VAOrB (VB 2)) : val into_rust). reflexivity.
  - rule_cases i Hi. 
    { one_token Hs. value_is Hv (RUser (VA 1) : val into_rust). exists (VA 1). repeat split; try discriminate; auto. }
    rule_cases i Hi.
    { one_token Hs. value_is Hv (RUser (VB 2) : val into_rust). exists (VB 2). repeat split; try discriminate; auto. }
    destruct i; discriminate.
Qed.
Lemma into_iff text v : input_means into_rust into_gi (raws into_rust text) v <->
  (text = chars "a" /\ v = RUser (VAOrB (VA 1))) \/ (text = chars "b" /\ v = RUser (VAOrB (VB 2))).
Proof.
  split.
  - intros H. apply (input_rules into_rust into_gi into_means _ _ into_rules) in H. destruct H as (r & H0 & x & Hx & Ht & _ & _ & ->). injection H0 as <-.
    apply (map_inj _ (@raw_inj N Empty_set)) in Ht. subst text. destruct Hx as [->| ->]; auto.
  - intros [(-> & ->)|(-> & ->)].
    + eapply (unit_input into_rust into_gi _ _ _ _ _ (RUser (VAOrB (VA 1)))); [reflexivity| |reflexivity]. eapply (unit_rule into_rust into_gi 1 _ _ _ _ _ (RUser (VA 1))); [reflexivity| |reflexivity]. eapply (leaf_rule _ _ 3); reflexivity.
    + eapply (unit_input into_rust into_gi _ _ _ _ _ (RUser (VAOrB (VB 2)))); [reflexivity| |reflexivity]. eapply (unit_rule into_rust into_gi 2 _ _ _ _ _ (RUser (VB 2))); [reflexivity| |reflexivity]. eapply (leaf_rule _ _ 4); reflexivity.
Qed.

Definition into_chars (l : string) : list N := chars (if String.eqb l "a" then "a" else if String.eqb l "b" then "b" else "ab").
Lemma into_units i r : nth_error (gi_rules into_gi) i = Some r ->
  (exists s c, pr_nodes r = [PNSymbol s] /\ (TRaw (char_literal (sname s)) : tok into_rust) = TRaw c /\ In c (into_chars (pr_name r))) \/
  (exists l, pr_nodes r = [PNProduction l] /\ incl (into_chars l) (into_chars (pr_name r))).
Proof.
  intros Hi. do 5 (destruct i as [|i]; [injection Hi as <-; first
    [left; eexists _, _; split; [reflexivity|]; split; [reflexivity|]; cbn; tauto
    |right; eexists; split; [reflexivity|]; intros c Hc; cbn in *; tauto]|]).
  destruct i; discriminate.
Qed.
Lemma into_words ts : is_word into_rust into_gi ts <-> exists text, ts = raws into_rust text /\ one_of (chars "ab") text.
Proof.
  split.
  - intros H. destruct (units_sound into_rust into_gi eq_refl N (fun c => TRaw c) into_chars into_units ts H) as (r & c & H0 & Hc & ->). injection H0 as <-.
    exists [c]. split; [reflexivity|]. exists c. auto.
  - intros (text & -> & c & [<-|[<-|[]]] & ->).
    + eapply input_word; [reflexivity|]. eapply (unit_word _ _ 1); [reflexivity|]. eapply (leaf_word _ _ 3); reflexivity.
    + eapply input_word; [reflexivity|]. eapply (unit_word _ _ 2); [reflexivity|]. eapply (leaf_word _ _ 4); reflexivity.
Qed.
Lemma into_values i vars : exists v, rule_value into_rust into_gi i vars = inl v.
Proof.
  do 3 (destruct i as [|i]; [destruct vars as [|[j v] vars]; [eexists; reflexivity|]; unfold rule_value; cbn; destruct v as [| | |x]; try (eexists; reflexivity); destruct x; eexists; reflexivity|]).
  do 2 (destruct i as [|i]; [eexists; reflexivity|]). destruct i; eexists; reflexivity.
Qed.

(** *** tests/fallible_ctor.rs and tests/into_error_type.rs *)
Definition ctor_gi : grammar_info := Eval vm_compute in decl_gi (decls_of fallible_ctor_input).
Definition error_gi : grammar_info := Eval vm_compute in decl_gi (decls_of into_error_input).
Notation crust := container_rust.
Notation craws text := (raws container_rust text).
Lemma craws_inj text text' : craws text = craws text' -> text = text'.
Proof. apply (map_inj _ (@raw_inj N Empty_set)). Qed.

(** The characters for [A(1)] and [A(100)]. *)
Definition a_chars : list (N * N) := combine (chars "azby") [1; 100; 1; 100]%N.
Definition ctor_means (l : string) (ts : list (tok crust)) (v : val crust) : Prop :=
  if String.eqb l "a" then exists c n, In (c, n) a_chars /\ ts = craws [c] /\ v = RUser (VA n)
  else exists c, In c (chars "ab") /\ ts = craws [c] /\ v = RUser (VContainer 1).
Definition ctor_bad (l : string) (ts : list (tok crust)) (rest : list user_symbol) (u : string) : Prop :=
  l = "root" /\ rest = [] /\ u = too_big /\ exists c, In c (chars "yz") /\ ts = craws [c].

Ltac a_rule Hs Hv k := one_token Hs; value_is Hv (RUser (VA k) : val crust); eexists _, k; split; [|split; reflexivity]; cbn; tauto.
Lemma ctor_rules i r ts vs v : nth_error (gi_rules ctor_gi) i = Some r -> spread crust ctor_gi ctor_means (pr_nodes r) ts vs ->
  rule_value crust ctor_gi i (combine (node_indices (pr_nodes r)) vs) = inl v -> ctor_means (pr_name r) ts v.
Proof.
  intros Hi Hs Hv. rule_cases i Hi.
  { destruct Hs as (t1 & t2 & v1 & vs' & -> & -> & (c & n & Hc & -> & ->) & -> & ->). rewrite app_nil_r. exists c.
    destruct Hc as [Hc|[Hc|[Hc|[Hc|[]]]]]; injection Hc as <- <-; try discriminate Hv; value_is Hv (RUser (VContainer 1) : val crust); (split; [cbn; tauto|auto]). }
  rule_cases i Hi; [a_rule Hs Hv 1%N|]. rule_cases i Hi; [a_rule Hs Hv 100%N|]. rule_cases i Hi; [a_rule Hs Hv 1%N|]. rule_cases i Hi; [a_rule Hs Hv 100%N|].
  destruct i; discriminate.
Qed.
Lemma ctor_fails1 i r ts vs u : nth_error (gi_rules ctor_gi) i = Some r -> spread crust ctor_gi ctor_means (pr_nodes r) ts vs ->
  rule_value crust ctor_gi i (combine (node_indices (pr_nodes r)) vs) = inr u -> ctor_bad (pr_name r) ts [] u.
Proof.
  intros Hi Hs Hv. rule_cases i Hi.
  { destruct Hs as (t1 & t2 & v1 & vs' & -> & -> & (c & n & Hc & -> & ->) & -> & ->). rewrite app_nil_r.
    destruct Hc as [Hc|[Hc|[Hc|[Hc|[]]]]]; injection Hc as <- <-; try discriminate Hv; injection Hv as <-; (split; [reflexivity|]; split; [reflexivity|]; split; [reflexivity|]; eexists; split; [|reflexivity]; cbn; tauto). }
  do 4 (rule_cases i Hi; [one_token Hs; discriminate Hv|]). destruct i; discriminate.
Qed.
Lemma ctor_fails2 i r ts rest u : nth_error (gi_rules ctor_gi) i = Some r -> spread_fail crust ctor_gi ctor_means ctor_bad (pr_nodes r) ts rest u -> ctor_bad (pr_name r) ts rest u.
Proof.
  intros Hi Hs. rule_cases i Hi.
  { destruct Hs as [(r1 & r2 & trees & _ & (H & _) & _)|(t1 & t2 & v & _ & _ & [])]. discriminate H. }
  do 4 (rule_cases i Hi; [destruct Hs as (k & t & _ & _ & [])|]). destruct i; discriminate.
Qed.
Lemma ctor_iff text v : input_means crust ctor_gi (craws text) v <-> one_of (chars "ab") text /\ v = RUser (VContainer 1).
Proof.
  split.
  - intros H. apply (input_rules crust ctor_gi ctor_means _ _ ctor_rules) in H. destruct H as (r & H0 & H). injection H0 as <-. destruct H as (c & Hc & Ht & ->).
    apply craws_inj in Ht. subst text. split; [|reflexivity]. exists c. auto.
  - intros ((c & [<-|[<-|[]]] & ->) & ->); (eapply (unit_input crust ctor_gi _ _ _ _ _ (RUser (VA 1))); [reflexivity| |reflexivity]);
      [eapply (leaf_rule _ _ 1)|eapply (leaf_rule _ _ 3)]; reflexivity.
Qed.
Lemma at_end (R : rust) gi (ts : list (tok R)) (rest : list user_symbol) n : rest = [] -> could_begin R gi rest (nth_error ts n) -> firstn n ts = ts.
Proof. intros -> H. destruct (nth_error ts n) eqn:E; [destruct H|]. apply nth_error_None in E. now apply firstn_all2. Qed.
Lemma ctor_fail_iff text u : constructor_fails crust ctor_gi (craws text) u <-> one_of (chars "yz") text /\ u = too_big.
Proof.
  split.
  - intros (n & rest & _ & H & Hb). destruct (input_fail_rules crust ctor_gi ctor_means ctor_rules ctor_bad ctor_fails1 ctor_fails2 _ _ _ H) as (r & _ & _ & Hr & -> & c & Hc & Ht).
    rewrite (at_end crust ctor_gi _ _ _ Hr Hb) in Ht. apply craws_inj in Ht. subst text. split; [|reflexivity]. exists c. auto.
  - intros ((c & [<-|[<-|[]]] & ->) & ->); apply fails_at_end; (eexists; split; [reflexivity|]; right; split; [reflexivity|]; exists [RUser (VA 100)]; split; [|reflexivity]; apply unit_mean);
      [eapply (leaf_rule _ _ 4)|eapply (leaf_rule _ _ 2)]; reflexivity.
Qed.
Lemma ctor_units i r : nth_error (gi_rules ctor_gi) i = Some r ->
  (exists s c, pr_nodes r = [PNSymbol s] /\ (TRaw (char_literal (sname s)) : tok crust) = TRaw c /\ In c (chars "azby")) \/
  (exists l, pr_nodes r = [PNProduction l] /\ incl (chars "azby") (chars "azby")).
Proof.
  intros Hi. do 5 (destruct i as [|i]; [injection Hi as <-; first
    [left; eexists _, _; split; [reflexivity|]; split; [reflexivity|]; cbn; tauto
    |right; eexists; split; [reflexivity|]; intros c Hc; exact Hc]|]).
  destruct i; discriminate.
Qed.
Lemma ctor_words ts : is_word crust ctor_gi ts <-> exists text, ts = craws text /\ one_of (chars "azby") text.
Proof.
  split.
  - intros H. destruct (units_sound crust ctor_gi eq_refl N (fun c => TRaw c) (fun _ => chars "azby") ctor_units ts H) as (r & c & H0 & Hc & ->).
    exists [c]. split; [reflexivity|]. exists c. auto.
  - intros (text & -> & c & [<-|[<-|[<-|[<-|[]]]]] & ->); (eapply input_word; [reflexivity|]);
      [eapply (leaf_word _ _ 1)|eapply (leaf_word _ _ 2)|eapply (leaf_word _ _ 3)|eapply (leaf_word _ _ 4)]; reflexivity.
Qed.

Definition error_means (l : string) (ts : list (tok crust)) (v : val crust) : Prop :=
  if String.eqb l "a" then exists c n, In (c, n) a_chars /\ ts = craws [c] /\ v = RUser (VA n)
  else exists c, In c (chars (if String.eqb l "b" then "c" else "abc")) /\ ts = craws [c] /\ v = RUser (VContainer 1).
Definition error_bad (l : string) (ts : list (tok crust)) (rest : list user_symbol) (u : string) : Prop :=
  l <> "a" /\ rest = [] /\ u = too_big /\ exists c, In c (chars "xyz") /\ ts = craws [c].
Lemma error_rules i r ts vs v : nth_error (gi_rules error_gi) i = Some r -> spread crust error_gi error_means (pr_nodes r) ts vs ->
  rule_value crust error_gi i (combine (node_indices (pr_nodes r)) vs) = inl v -> error_means (pr_name r) ts v.
Proof.
  intros Hi Hs Hv. rule_cases i Hi.
  { destruct Hs as (t1 & t2 & v1 & vs' & -> & -> & (c & Hc & -> & ->) & -> & ->). rewrite app_nil_r. exists c. value_is Hv (RUser (VContainer 1) : val crust). auto. }
  rule_cases i Hi.
  { destruct Hs as (t1 & t2 & v1 & vs' & -> & -> & (c & n & Hc & -> & ->) & -> & ->). rewrite app_nil_r. exists c.
    destruct Hc as [Hc|[Hc|[Hc|[Hc|[]]]]]; injection Hc as <- <-; try discriminate Hv; value_is Hv (RUser (VContainer 1) : val crust); (split; [cbn; tauto|auto]). }
  rule_cases i Hi.
  { destruct Hs as (t1 & t2 & v1 & vs' & -> & -> & (c & Hc & -> & ->) & -> & ->). rewrite app_nil_r. exists c. value_is Hv (RUser (VContainer 1) : val crust). split; [cbn in *; tauto|auto]. }
  rule_cases i Hi; [a_rule Hs Hv 1%N|]. rule_cases i Hi; [a_rule Hs Hv 100%N|]. rule_cases i Hi; [a_rule Hs Hv 1%N|]. rule_cases i Hi; [a_rule Hs Hv 100%N|].
  rule_cases i Hi; [one_token Hs; value_is Hv (RUser (VContainer 1) : val crust); eexists; split; [|split; reflexivity]; cbn; tauto|].
  rule_cases i Hi; [one_token Hs; discriminate Hv|].
  destruct i; discriminate.
Qed.
Lemma error_fails1 i r ts vs u : nth_error (gi_rules error_gi) i = Some r -> spread crust error_gi error_means (pr_nodes r) ts vs ->
  rule_value crust error_gi i (combine (node_indices (pr_nodes r)) vs) = inr u -> error_bad (pr_name r) ts [] u.
Proof.
  intros Hi Hs Hv. rule_cases i Hi.
  { destruct Hs as (t1 & t2 & v1 & vs' & -> & -> & (c & Hc & -> & ->) & -> & ->). discriminate Hv. }
  rule_cases i Hi.
  { destruct Hs as (t1 & t2 & v1 & vs' & -> & -> & (c & n & Hc & -> & ->) & -> & ->). rewrite app_nil_r.
    destruct Hc as [Hc|[Hc|[Hc|[Hc|[]]]]]; injection Hc as <- <-; try discriminate Hv; injection Hv as <-; (split; [discriminate|]; split; [reflexivity|]; split; [reflexivity|]; eexists; split; [|reflexivity]; cbn; tauto). }
  rule_cases i Hi.
  { destruct Hs as (t1 & t2 & v1 & vs' & -> & -> & (c & Hc & -> & ->) & -> & ->). discriminate Hv. }
  do 5 (rule_cases i Hi; [one_token Hs; discriminate Hv|]).
  rule_cases i Hi; [one_token Hs; injection Hv as <-; split; [discriminate|]; split; [reflexivity|]; split; [reflexivity|]; eexists; split; [|reflexivity]; cbn; tauto|].
  destruct i; discriminate.
Qed.
Lemma error_fails2 i r ts rest u : nth_error (gi_rules error_gi) i = Some r -> spread_fail crust error_gi error_means error_bad (pr_nodes r) ts rest u -> error_bad (pr_name r) ts rest u.
Proof.
  intros Hi Hs. do 3 (rule_cases i Hi; [destruct Hs as [(r1 & r2 & trees & -> & (_ & -> & H) & Hd)|(t1 & t2 & v & _ & _ & [])]; apply derives_none in Hd; subst r2; split; [discriminate|auto]|]).
  do 6 (rule_cases i Hi; [destruct Hs as (k & t & _ & _ & [])|]). destruct i; discriminate.
Qed.
Lemma error_iff text v : input_means crust error_gi (craws text) v <-> one_of (chars "abc") text /\ v = RUser (VContainer 1).
Proof.
  split.
  - intros H. apply (input_rules crust error_gi error_means _ _ error_rules) in H. destruct H as (r & H0 & H). injection H0 as <-. destruct H as (c & Hc & Ht & ->).
    apply craws_inj in Ht. subst text. split; [|reflexivity]. exists c. auto.
  - intros ((c & [<-|[<-|[<-|[]]]] & ->) & ->); (eapply (unit_input crust error_gi _ _ _ _ _ (RUser (VContainer 1))); [reflexivity| |reflexivity]).
    1-2: eapply (unit_rule crust error_gi 1 _ _ _ _ _ (RUser (VA 1))); [reflexivity| |reflexivity].
    1: eapply (leaf_rule _ _ 3); reflexivity.
    1: eapply (leaf_rule _ _ 5); reflexivity.
    eapply (unit_rule crust error_gi 2 _ _ _ _ _ (RUser (VContainer 1))); [reflexivity| |reflexivity]. eapply (leaf_rule _ _ 7); reflexivity.
Qed.
Lemma error_fail_iff text u : constructor_fails crust error_gi (craws text) u <-> one_of (chars "xyz") text /\ u = too_big.
Proof.
  split.
  - intros (n & rest & _ & H & Hb). destruct (input_fail_rules crust error_gi error_means error_rules error_bad error_fails1 error_fails2 _ _ _ H) as (r & _ & _ & Hr & -> & c & Hc & Ht).
    rewrite (at_end crust error_gi _ _ _ Hr Hb) in Ht. apply craws_inj in Ht. subst text. split; [|reflexivity]. exists c. auto.
  - intros ((c & Hc & ->) & ->). apply fails_at_end. eexists. split; [reflexivity|]. left. change (@nil user_symbol) with (@nil user_symbol ++ []). apply (nf_here crust error_gi "a_or_b" _ [] [] [] []); [|constructor].
    destruct Hc as [<-|[<-|[<-|[]]]].
    + refine (lf_nodes crust error_gi 2 _ _ _ _ eq_refl _). change (@nil user_symbol) with (@nil user_symbol ++ []). eapply (nf_here crust error_gi "b" _ [] [] [] []); [|constructor].
      refine (lf_rule crust error_gi 8 _ _ [RTok (TRaw 120%N)] _ eq_refl _ eq_refl). exact (am_symbol crust error_gi (mk_symbol "'x'" PGNone) (TRaw 120%N) [] [] [] eq_refl (am_nil _ _)).
    + refine (lf_rule crust error_gi 1 _ _ [RUser (VA 100)] _ eq_refl _ eq_refl). apply unit_mean. eapply (leaf_rule _ _ 6); reflexivity.
    + refine (lf_rule crust error_gi 1 _ _ [RUser (VA 100)] _ eq_refl _ eq_refl). apply unit_mean. eapply (leaf_rule _ _ 4); reflexivity.
Qed.
Definition error_chars (l : string) : list N := chars (if String.eqb l "a" then "azby" else if String.eqb l "b" then "cx" else "azbycx").
Lemma error_units i r : nth_error (gi_rules error_gi) i = Some r ->
  (exists s c, pr_nodes r = [PNSymbol s] /\ (TRaw (char_literal (sname s)) : tok crust) = TRaw c /\ In c (error_chars (pr_name r))) \/
  (exists l, pr_nodes r = [PNProduction l] /\ incl (error_chars l) (error_chars (pr_name r))).
Proof.
  intros Hi. do 9 (destruct i as [|i]; [injection Hi as <-; first
    [left; eexists _, _; split; [reflexivity|]; split; [reflexivity|]; cbn; tauto
    |right; eexists; split; [reflexivity|]; intros c Hc; cbn in *; tauto]|]).
  destruct i; discriminate.
Qed.
Lemma error_words ts : is_word crust error_gi ts <-> exists text, ts = craws text /\ one_of (chars "azbycx") text.
Proof.
  split.
  - intros H. destruct (units_sound crust error_gi eq_refl N (fun c => TRaw c) error_chars error_units ts H) as (r & c & H0 & Hc & ->). injection H0 as <-.
    exists [c]. split; [reflexivity|]. exists c. auto.
  - intros (text & -> & c & Hc & ->). eapply input_word; [reflexivity|]. destruct Hc as [<-|[<-|[<-|[<-|[<-|[<-|[]]]]]]].
    1-4: eapply (unit_word _ _ 1); [reflexivity|].
    5-6: eapply (unit_word _ _ 2); [reflexivity|].
    + eapply (leaf_word _ _ 3); reflexivity.
    + eapply (leaf_word _ _ 4); reflexivity.
    + eapply (leaf_word _ _ 5); reflexivity.
    + eapply (leaf_word _ _ 6); reflexivity.
    + eapply (leaf_word _ _ 7); reflexivity.
    + eapply (leaf_word _ _ 8); reflexivity.
Qed.
