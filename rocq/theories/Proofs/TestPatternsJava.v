(** What the parser of tests/token_pattern.rs computes (C71). *)
From Coq Require Import Arith Bool String Ascii NArith List Lia.
From Verif Require Import Base.Prelude Spec.Grammar Spec.Validity Spec.Observers Spec.Nullable Spec.LR1 Model.Error.
From Verif Require Import Model.TokenTree Model.Terminal Model.Constructor Model.CodeGen Model.Runtime Model.Symbol Model.FrontEnd.
From Verif Require Import Model.Rust Model.Emit Model.TestGrammars.
From Verif Require Import Spec.EmittedCode Spec.Meaning Spec.Causes Spec.Overlaps Spec.TestLanguages Spec.TestPatterns Spec.Values.
From Verif Require Import Proofs.MacroRefute Proofs.Meaning Proofs.TestGrammars Proofs.TestLanguages Proofs.TestFailures Proofs.TestSmall Proofs.TestPatterns Proofs.TestPatternsMain.
Import ListNotations.
Open Scope string_scope.
Open Scope list_scope.

(** ** tests/token_pattern.rs *)
Section Main.
Variable print : list ttree -> string.
Hypothesis Happ : tells_apart print token_pattern_input.
Notation R := (java_rust print).
Notation gi := (decl_gi (token_pattern_d print)).
Notation tk := (java_tok print).

Definition java_pat (i : nat) : list ttree := nth i (written_patterns token_pattern_input) [].
Definition jsym (name : string) (i : nat) : user_symbol := mk_symbol name (PGPattern (print (java_pat i))).
Definition jlit : user_symbol := mk_symbol "Literal" PGWildcard.

Lemma java_look i m f : m = snd (nth i java_patterns ([], fun _ => false)) -> i < 7 -> look_up print java_patterns (print (java_pat i)) f = m f.
Proof.
  intros Hm Hi.
  assert (E : java_patterns = firstn i java_patterns ++ (java_pat i, m) :: skipn (S i) java_patterns).
  { rewrite Hm. do 7 (destruct i as [|i]; [reflexivity|]). lia. }
  rewrite E at 1. apply look_up_at. intros e He Hp.
  assert (Hf : fst e = java_pat i).
  { apply Happ; [| |exact Hp].
    - assert (Hin : In e java_patterns) by (rewrite <- (firstn_skipn i java_patterns); apply in_or_app; now left). apply (in_map fst) in Hin. cbn in Hin. cbn. tauto.
    - do 7 (destruct i as [|i]; [in_list|]). lia. }
  clear Hp E Hm. do 7 (destruct i as [|i]; [cbn in He; repeat destruct He as [<-|He]; try discriminate; destruct He|]). lia.
Qed.

(** The terminals of the grammar, and the tokens they stand for. *)
Lemma java_sym name i k : i < 7 -> sym_matches R gi (jsym name i) k = true -> exists f, k = TVariant name (Some f) /\ snd (nth i java_patterns ([], fun _ => false)) f = true.
Proof.
  intros Hi. unfold sym_matches. cbn -[look_up java_patterns]. destruct k as [n [f|]|]; try discriminate; rewrite andb_true_iff; intros (H1 & H2); [|discriminate].
  unfold eqb in H1. destruct (eq_dec n name) as [->|]; [|discriminate]. exists f. split; [reflexivity|]. rewrite <- (java_look i _ f eq_refl Hi). exact H2.
Qed.
Lemma java_sym_ok name i f : i < 7 -> java_name f = name -> snd (nth i java_patterns ([], fun _ => false)) f = true -> sym_matches R gi (jsym name i) (tk f) = true.
Proof.
  intros Hi <- Hf. unfold sym_matches, java_tok. cbn -[look_up java_patterns]. rewrite andb_true_iff. split.
  - unfold eqb. destruct (eq_dec (java_name f) (java_name f)); congruence.
  - exact (eq_trans (java_look i _ f eq_refl Hi) Hf).
Qed.
Lemma java_lit k : sym_matches R gi jlit k = true -> exists f, k = TVariant "Literal" (Some f).
Proof.
  unfold sym_matches. cbn. destruct k as [n [f|]|]; try discriminate; rewrite andb_true_iff; intros (H1 & H2); [|discriminate].
  unfold eqb in H1. destruct (eq_dec n "Literal") as [->|]; [|discriminate]. eauto.
Qed.

Lemma java_terminal s k : terminal_in (gi_rules gi) s -> sym_matches R gi s k = true ->
  (s = jsym "Keyword" 0 /\ k = tk (FKeyword Public)) \/ (s = jsym "Keyword" 1 /\ k = tk (FKeyword Static)) \/ (s = jsym "Keyword" 2 /\ k = tk (FKeyword Void)) \/
  (s = jsym "Ident" 3 /\ exists n, k = tk (FIdent n Alone)) \/ (s = jsym "Operator" 4 /\ k = tk (FOperator Eq Joint)) \/
  (s = jsym "Operator" 5 /\ k = tk (FOperator Eq Alone)) \/ (s = jsym "Operator" 6 /\ k = tk (FOperator Semicolon Alone)) \/
  (s = jlit /\ exists f, k = TVariant "Literal" (Some f)).
Proof.
  intros Hs Hm. apply terminals_in in Hs.
  assert (Hs' : In s [jsym "Keyword" 0; jsym "Keyword" 1; jsym "Keyword" 2; jsym "Ident" 3; jsym "Operator" 4; jsym "Operator" 5; jsym "Operator" 6; jlit]) by exact Hs.
  clear Hs. destruct Hs' as [<-|[<-|[<-|[<-|[<-|[<-|[<-|[<-|[]]]]]]]]].
  1-7: apply java_sym in Hm; [|lia]; destruct Hm as (f & -> & Hf); cbn in Hf;
    destruct f as [[]|n []|t|[] []]; try discriminate Hf.
  - left. auto.
  - right; left. auto.
  - do 2 right; left. auto.
  - do 3 right; left. split; [reflexivity|]. exists n. reflexivity.
  - do 4 right; left. auto.
  - do 5 right; left. auto.
  - do 6 right; left. auto.
  - apply java_lit in Hm. do 7 right. auto.
Qed.

Lemma java_unambiguous ts : unambiguous_tokens R gi ts.
Proof.
  intros k s s' _ Hs Hs' M M'. pose proof (java_terminal s k Hs M) as H. pose proof (java_terminal s' k Hs' M') as H'.
  decompose [or and ex] H; subst; decompose [or and ex] H'; subst; try reflexivity; discriminate.
Qed.

Definition main_tokens (n : string) (g : java_field) : list (tok R) :=
  [tk (FKeyword Public); tk (FKeyword Static); tk (FKeyword Void); tk (FIdent n Alone); tk (FOperator Eq Joint); tk (FOperator Eq Alone);
   TVariant "Literal" (Some g); tk (FOperator Semicolon Alone)].

Definition java_means (l : string) (ts : list (tok R)) (v : val R) : Prop :=
  if String.eqb l "ident" then exists n, ts = [tk (FIdent n Alone)] /\ v = RPay (FIdent n Alone)
  else if String.eqb l "eq" then ts = [tk (FOperator Eq Joint); tk (FOperator Eq Alone)]
  else if String.eqb l "semicolon" then ts = [tk (FOperator Semicolon Alone)]
  else if String.eqb l "literal" then exists g, ts = [TVariant "Literal" (Some g)] /\ v = RPay g
  else exists n g, ts = main_tokens n g /\ forall t, g = FLiteral t -> v = RUser (n, t).

Ltac known name i K := apply (java_sym name i) in K; [|lia];
  let f := fresh "f" in let Hf := fresh "Hf" in destruct K as (f & -> & Hf); cbn in Hf; destruct f as [[]|? []|?|[] []]; try discriminate Hf; clear Hf.

Lemma java_rules i r ts vs v : nth_error (gi_rules gi) i = Some r -> spread R gi java_means (pr_nodes r) ts vs ->
  rule_value R gi i (combine (node_indices (pr_nodes r)) vs) = inl v -> java_means (pr_name r) ts v.
Proof.
  intros Hi Hs Hv. rule_cases i Hi.
  { destruct Hs as (k1 & t1 & v1 & -> & -> & K1 & k2 & t2 & v2 & -> & -> & K2 & k3 & t3 & v3 & -> & -> & K3 & t4 & t5 & v4 & v5 & -> & -> & (n & -> & ->) & Hs).
    destruct Hs as (t6 & t7 & v6 & v7 & -> & -> & He & t8 & t9 & v8 & v9 & -> & -> & (g & -> & ->) & ta & tb & va & vb & -> & -> & Hsc & -> & ->).
    cbn in He, Hsc. subst t6 ta. known "Keyword" 0 K1. known "Keyword" 1 K2. known "Keyword" 2 K3. exists n, g. split; [reflexivity|]. intros t ->.
    value_is Hv (RUser (n, t) : val R). reflexivity. }
  rule_cases i Hi.
  { destruct Hs as (k & t & v1 & -> & -> & K & -> & ->). known "Ident" 3 K. value_is Hv (RPay (FIdent name Alone) : val R). exists name. split; reflexivity. }
  rule_cases i Hi.
  { destruct Hs as (k & t & v1 & -> & -> & K & k' & t' & v2 & -> & -> & K' & -> & ->). known "Operator" 4 K. known "Operator" 5 K'. reflexivity. }
  rule_cases i Hi.
  { destruct Hs as (k & t & v1 & -> & -> & K & -> & ->). known "Operator" 6 K. reflexivity. }
  rule_cases i Hi.
  { destruct Hs as (k & t & v1 & -> & -> & K & -> & ->). apply java_lit in K. destruct K as (f & ->). value_is Hv (RPay f : val R). exists f. split; reflexivity. }
  destruct i; discriminate Hi.
Qed.

Lemma java_input ts v : input_means R gi ts v -> exists n g, ts = main_tokens n g /\ forall t, g = FLiteral t -> v = RUser (n, t).
Proof.
  intros (r & vs & H0 & Hm & Hv). apply (proj2 (means_rules R gi java_means java_rules)) in Hm. pose proof (java_rules 0 r ts vs v H0 Hm Hv) as H.
  cbn in H0. injection H0 as <-. exact H.
Qed.

Lemma java_total : UErr R -> False.
Proof. intros []. Qed.

Lemma java_sentence n g : exists v, input_means R gi (main_tokens n g) v.
Proof.
  apply (language_means R gi java_total [jsym "Keyword" 0; jsym "Keyword" 1; jsym "Keyword" 2; jsym "Ident" 3; jsym "Operator" 4; jsym "Operator" 5; jlit; jsym "Operator" 6]).
  - eexists. eexists _, _. split; [reflexivity|]. split; [|reflexivity]. cbn [rhs to_lr_production_rule map to_lr_node pr_nodes].
    do 3 apply derives_token.
    refine (derives_production (source (gi_rules gi)) 1 _ [Leaf (jsym "Ident" 3)] [jsym "Ident" 3] _ _ _ eq_refl (derives_token _ _ [] [] [] (derives_nil _)) _).
    refine (derives_production (source (gi_rules gi)) 2 _ [Leaf (jsym "Operator" 4); Leaf (jsym "Operator" 5)] [jsym "Operator" 4; jsym "Operator" 5] _ _ _ eq_refl (derives_token _ _ _ _ _ (derives_token _ _ [] [] [] (derives_nil _))) _).
    refine (derives_production (source (gi_rules gi)) 4 _ [Leaf jlit] [jlit] _ _ _ eq_refl (derives_token _ _ [] [] [] (derives_nil _)) _).
    refine (derives_production (source (gi_rules gi)) 3 _ [Leaf (jsym "Operator" 6)] [jsym "Operator" 6] _ [] _ eq_refl (derives_token _ _ [] [] [] (derives_nil _)) (derives_nil _)).
  - repeat apply Forall2_cons; try apply Forall2_nil; try (apply java_sym_ok; [lia|reflexivity|reflexivity]). reflexivity.
Qed.

Lemma java_all s : terminal_in (gi_rules gi) s -> exists k, sym_matches R gi s k = true.
Proof.
  intros Hs. apply terminals_in in Hs.
  assert (Hs' : In s [jsym "Keyword" 0; jsym "Keyword" 1; jsym "Keyword" 2; jsym "Ident" 3; jsym "Operator" 4; jsym "Operator" 5; jsym "Operator" 6; jlit]) by exact Hs.
  clear Hs. destruct Hs' as [<-|[<-|[<-|[<-|[<-|[<-|[<-|[<-|[]]]]]]]]].
  - exists (tk (FKeyword Public)). apply java_sym_ok; [lia|reflexivity|reflexivity].
  - exists (tk (FKeyword Static)). apply java_sym_ok; [lia|reflexivity|reflexivity].
  - exists (tk (FKeyword Void)). apply java_sym_ok; [lia|reflexivity|reflexivity].
  - exists (tk (FIdent "" Alone)). apply java_sym_ok; [lia|reflexivity|reflexivity].
  - exists (tk (FOperator Eq Joint)). apply java_sym_ok; [lia|reflexivity|reflexivity].
  - exists (tk (FOperator Eq Alone)). apply java_sym_ok; [lia|reflexivity|reflexivity].
  - exists (tk (FOperator Semicolon Alone)). apply java_sym_ok; [lia|reflexivity|reflexivity].
  - exists (tk (FLiteral "")). reflexivity.
Qed.

(** Tokens of the wrong type do not matter. *)
Definition text_of (g : java_field) : string := match g with FLiteral t => t | _ => "" end.
Lemma agree_completes : forall fs rest ks xs, map tk fs ++ rest = ks -> Forall2 (fun k x => forall f, tk f = k -> f = x) ks xs -> exists rest', fs ++ rest' = xs.
Proof.
  induction fs as [|f fs IH]; intros rest ks xs H F; [exists xs; reflexivity|]. cbn in H. subst ks. inversion F as [|k x ks xs' Hx F']; subst.
  destruct (IH rest _ xs' eq_refl F') as (rest' & <-). exists rest'. rewrite (Hx f eq_refl). reflexivity.
Qed.
Lemma tok_inj f f' : tk f = tk f' -> f = f'.
Proof. intros H. now injection H. Qed.
Lemma java_completes fs rest n g : map tk fs ++ rest = main_tokens n g -> exists rest', declares_main (fs ++ rest') n (text_of g).
Proof.
  intros H. apply (agree_completes fs rest _ _ H). unfold main_tokens. repeat apply Forall2_cons; try apply Forall2_nil; try (intros f Hf; apply tok_inj; exact Hf).
  intros f Hf. injection Hf as Hn Hg. subst g. destruct f; try discriminate. reflexivity.
Qed.

Lemma java_declares fs : (exists name value, declares_main fs name value) <-> exists v, input_means R gi (map tk fs) v.
Proof.
  split.
  - intros (n & t & ->). exact (java_sentence n (FLiteral t)).
  - intros (v & Hv). apply java_input in Hv. destruct Hv as (n & g & E & _). destruct (java_completes fs [] n g) as (rest & H); [now rewrite app_nil_r|].
    exists n, (text_of g). assert (Hl : List.length fs = 8) by (rewrite <- (map_length tk), E; reflexivity). unfold declares_main in *.
    assert (rest = []) as ->. { apply (f_equal (@List.length _)) in H. rewrite app_length, Hl in H. cbn in H. destruct rest; [reflexivity|discriminate]. }
    now rewrite app_nil_r in H.
Qed.

Lemma java_value fs name value v : declares_main fs name value -> input_means R gi (map tk fs) v -> v = RUser (name, value).
Proof.
  intros -> Hv. apply java_input in Hv. destruct Hv as (n & g & E & Hv). unfold main_tokens in E. injection E as -> <-. now apply Hv.
Qed.

Lemma java_wrong fs o : first_wrong (fun ts => exists v, input_means R gi ts v) (map tk fs) o ->
  exists o', o = option_map tk o' /\ first_wrong (fun fs => exists name value, declares_main fs name value) fs o'.
Proof.
  intros (n & H1 & H2 & (rest & v & H3) & H4). rewrite map_length in *. exists (nth_error fs n). split; [now rewrite H2, nth_error_map|].
  exists n. split; [exact H1|]. split; [reflexivity|]. split.
  - apply java_input in H3. destruct H3 as (m & g & E & _). rewrite firstn_map in E. apply java_completes in E. destruct E as (rest' & E). exists rest', m, (text_of g). exact E.
  - intros Hn rest' Hd. apply java_declares in Hd. rewrite map_app, <- firstn_map in Hd. exact (H4 Hn _ Hd).
Qed.
End Main.

Theorem token_pattern_runs (bm : BuildMode) print em : tells_apart print token_pattern_input -> item_printed bm print token_pattern_input em ->
  exists n, forall (bmr : BuildMode) (E SErr : Type) (into : SErr -> Empty_set) fs fuel, n * S (List.length fs) <= fuel ->
  let m := run_emitted (bm := bmr) (java_rust print) into (of_list (map (java_tok print) fs)) (read_body main_readings) fuel em : Rust.result (E := E) (java_rust print) in
  (forall name value, declares_main fs name value -> gives_value (java_rust print) m (RUser (name, value))) /\
  ((forall name value, ~ declares_main fs name value) ->
    exists o, first_wrong (fun fs => exists name value, declares_main fs name value) fs o /\
      gives_error (java_rust print) m (ParseError (java_rust print) (option_map (java_tok print) o))).
Proof.
  intros Happ Hem.
  destruct (printed_outcome print token_pattern_input (token_pattern_d print) [] ltac:(vm_compute; reflexivity) ltac:(vm_compute; reflexivity) ltac:(vm_compute; reflexivity) ltac:(vm_compute; reflexivity) ltac:(vm_compute; reflexivity)
    (token_pattern_productive print Happ) (java_rust print) main_readings ltac:(reflexivity) ltac:(reflexivity) bm em Hem) as (C & HC).
  exists C. intros bmr E SErr into fs fuel Hf m.
  destruct (HC bmr E SErr into (map (java_tok print) fs) fuel (java_unambiguous print Happ _)) as [(v & H1 & H2)|(H1 & e & H2 & H3)]; [now rewrite map_length| |].
  - split.
    + intros name value Hd. rewrite (java_value print Happ fs name value v Hd H1) in H2. exact H2.
    + intros Hn. exfalso. destruct (proj2 (java_declares print Happ fs) (ex_intro _ v H1)) as (name & value & Hd). exact (Hn name value Hd).
  - split.
    + intros name value Hd. exfalso. destruct (proj1 (java_declares print Happ fs) (ex_intro _ name (ex_intro _ value Hd))) as (v & Hv). exact (H1 v Hv).
    + intros _. destruct (error_wrong _ _ (java_total print) (java_all print Happ) _ _ H2) as (o & -> & Ho). destruct (java_wrong print Happ fs o Ho) as (o' & -> & Ho'). eauto.
Qed.
