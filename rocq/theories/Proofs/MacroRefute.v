(** Inputs of [grammar!] on which it does not do what one would like. *)
From Coq Require Import Arith Bool String Ascii NArith List Lia.
From Verif Require Import Base.Prelude Spec.Grammar Spec.Validity Spec.Nullable Spec.LR1 Spec.Observers Model.Error Model.LRTable Model.IndexedGrammar.
From Verif Require Import Model.TokenTree Model.Terminal Model.Constructor Model.CodeGen Model.Runtime Model.Symbol Model.FrontEnd.
From Verif Require Import Model.Diagnostics Model.CodeGenDiagnostics Model.Rust Model.Emit Model.Expand.
From Verif Require Import Spec.Values Spec.Substitution Spec.Macro Spec.Diagnostics Spec.EmittedCode Spec.Expansion.
From Verif Require Import Proofs.Fuel Proofs.IndexedFinal Proofs.LR1Refute Proofs.GenExamples Proofs.Refutations Proofs.LR1Final Proofs.Macro Proofs.MacroTotal Proofs.MacroMain Proofs.MacroExamples.
From Verif Require Import Proofs.DiagnosticsExamples Proofs.EmitExamples Proofs.ExpandExamples.
Import ListNotations.
Open Scope string_scope.
Open Scope list_scope.

Definition declares (l : string) (alts : list (list (list ttree))) : list ttree :=
  ref l ++ arrow ++ removelast (flat_map (fun alt => concat alt ++ [bar]) alts) ++ [semi].
Definition tok_of (n : string) : list ttree := [TIdent n].
Definition nothing : list ttree := [TPunct "!" Alone].

(** <S> => <A> <A>; <A> => <B> C; <B> => !; *)
Definition first_input : list ttree := calc_head ++
  declares "S" [[ref "A"; ref "A"]] ++ declares "A" [[ref "B"; tok_of "C"]] ++ declares "B" [[nothing]].
(** <S> => <T>; <T> => <X> <A> | <Y> <A>; <X> => !; <Y> => !; <A> => <B> C; <B> => !; *)
Definition ambiguous_input : list ttree := calc_head ++
  declares "S" [[ref "T"]] ++ declares "T" [[ref "X"; ref "A"]; [ref "Y"; ref "A"]] ++ declares "X" [[nothing]] ++ declares "Y" [[nothing]] ++
  declares "A" [[ref "B"; tok_of "C"]] ++ declares "B" [[nothing]].
(** <S> => <T>; <T> => <A> <U> | <B> T; <A> => T X; <B> => !; <U> => <U> C; *)
Definition unproductive_input : list ttree := calc_head ++
  declares "S" [[ref "T"]] ++ declares "T" [[ref "A"; ref "U"]; [ref "B"; tok_of "T"]] ++ declares "A" [[tok_of "T"; tok_of "X"]] ++
  declares "B" [[nothing]] ++ declares "U" [[ref "U"; tok_of "C"]].

Definition no_decls : declarations := mk_declarations "" (TTRaw []) None [] [].
Definition decls_of (ts : list ttree) : declarations := get (parse_declarations show (tokenize_from_stream ts)) no_decls.

Lemma reads_ok ts : well_spaced_b ts = true -> is_ok (parse_declarations show (tokenize_from_stream ts)) = true ->
  well_spaced ts /\ reads_as show ts (decls_of ts) /\ parse_declarations show (tokenize_from_stream ts) = Ok (decls_of ts).
Proof.
  intros W H. apply well_spaced_ok in W. apply (get_ok _ no_decls) in H. split; [exact W|]. split; [|exact H].
  apply read_sound; auto.
Qed.

Lemma good_rules_ok rs : forallb good_rule_b rs = true -> forall r, In r rs -> good_rule r.
Proof. intros F r Hr. rewrite forallb_forall in F. apply good_rule_ok, F, Hr. Qed.

Definition good_name_b (s : user_symbol) : bool :=
  match sname s with String c _ => negb (Ascii.eqb c "'") | EmptyString => true end.
Lemma good_terminals_ok lo ty rs : forallb good_name_b (terminals rs) = true ->
  forall s, terminal_in rs s -> good_terminal lo (TTEnum ty) s.
Proof.
  intros F s Hs [n E]. apply terminals_ok in Hs. rewrite forallb_forall in F. specialize (F s Hs).
  unfold good_name_b in F. rewrite E in F. discriminate.
Qed.

Definition unused_b (rs : list prule) : bool :=
  match rs with
  | r :: _ => forallb (fun n => match n with PNProduction l => negb (String.eqb l (pr_name r)) | _ => true end) (pr_nodes r)
  | [] => true
  end.
Lemma unused_ok rs : unused_b rs = true -> root_unused rs.
Proof.
  destruct rs as [|r0 rs]; intros F r Hr Hin; [discriminate|]. injection Hr as ->. simpl in F. rewrite forallb_forall in F.
  specialize (F _ Hin). simpl in F. rewrite String.eqb_refl in F. discriminate.
Qed.

(** More fuel changes nothing. *)
Section Fuel.
Context {bm : BuildMode} (f f' : nat) (Hf : f <= f').

Lemma le_lift {A} (m m' : outcome (lr_error user_symbol string) A) : le_out m m' -> le_out (lift_lr m) (lift_lr m').
Proof. intros [-> | ->]; [left|right]; reflexivity. Qed.
Lemma le_map {E E' A} (h : E -> E') (m m' : outcome E A) : le_out m m' -> le_out (map_err h m) (map_err h m').
Proof. intros [-> | ->]; [left|right]; reflexivity. Qed.

Lemma parse_grammar_le s : le_out (parse_grammar show f s) (parse_grammar show f' s).
Proof.
  unfold parse_grammar. apply le_bind; [apply le_refl|]. intros d. apply le_bind; [apply le_lift, indexed_build_le; auto|]. intros ig.
  apply le_bind; [apply le_lift, table_build_le; auto|]. intros; apply le_refl.
Qed.

Lemma build_grammar_le lo ho ts : le_out (build_grammar show lo ho f ts) (build_grammar show lo ho f' ts).
Proof.
  unfold build_grammar. apply le_bind; [apply le_map, parse_grammar_le|]. intros [[n et] gi]. apply le_refl.
Qed.

Lemma grammar_le (span : Type) cs js print lex lo ho ts :
  le_out (Expand.grammar span cs js print lex lo ho f ts) (Expand.grammar span cs js print lex lo ho f' ts).
Proof.
  assert (Hs : le_out (sp_build_grammar span cs js print lex lo ho f ts Private) (sp_build_grammar span cs js print lex lo ho f' ts Private)).
  { unfold sp_build_grammar. apply le_bind; [apply le_refl|]. intros d. apply le_bind; [|intros; apply le_refl].
    unfold sp_grammar_info. apply le_bind; [|intros ig; apply le_bind; [|intros; apply le_refl]].
    - destruct (indexed_build_le f f' Hf (map to_lr_production_rule (map (ra_rule span) (da_rules span d)))) as [E|E]; rewrite E; [left|right]; reflexivity.
    - destruct (table_build_le f f' Hf ig) as [E|E]; rewrite E; [left|right]; reflexivity. }
  unfold Expand.grammar. destruct Hs as [-> | ->]; [left|right]; reflexivity.
Qed.
End Fuel.

(** A sentence of [first_input] is rejected at its second token. *)
Lemma first_refutes (bm bmr : BuildMode) : exists ts d p gi (R : rust) toks t st k,
  well_spaced ts /\ reads_as show ts d /\ defaults_bound (d_rules d) /\ productive (source (d_rules d)) /\
  (forall fuel, 50 <= fuel -> build_grammar (bm := bm) show all_literals forward fuel ts = Ok p) /\
  gi_terminal_type gi = d_terminal_type d /\ gi_rules gi = d_rules d /\ unambiguous_tokens R gi toks /\ parses_tokens R gi toks t /\
  nth_error toks 1 = Some k /\
  forall fuel, 60 <= fuel -> parse_fallible (bm := bmr) (E := unit) (SErr := UErr R) R (fun e => e) (of_list toks) fuel p = Ok (st, inr (ParseError R (Some k))).
Proof.
  assert (Hr : exists st, parse_fallible (bm := bmr) (E := unit) (SErr := UErr demo) demo (fun e => e) (of_list [tC; tC]) 60 (prog forward first_gi) =
    Ok (st, inr (ParseError demo (Some tC))) /\ map fst (st_log demo st) = [2] /\ s_calls demo (st_stream demo st) = 2).
  { apply (summary_ok (E := unit) (R := demo)). destruct bmr; vm_compute; reflexivity. }
  destruct Hr as (st & Hr & _ & _).
  assert (Hd : d_rules (decls_of first_input) = first_rules) by (vm_compute; reflexivity).
  destruct (reads_ok first_input eq_refl) as (W & Rd & _); [vm_compute; reflexivity|].
  exists first_input, (decls_of first_input), (prog forward first_gi), first_gi, demo, [tC; tC], first_tree, st, tC.
  split; [exact W|]. split; [exact Rd|]. rewrite Hd. split; [apply bound_b_ok; vm_compute; reflexivity|].
  split. { apply (productive_ok' _ (fun i => nth i [tmap fst first_tree; Node 1 [Node 2 []; Leaf (variant "C")]; Node 2 []] (Node 0 [])) 20). vm_compute. reflexivity. }
  split. { intros fuel Hf. eapply le_ok; [apply build_grammar_le; exact Hf|]. destruct bm; vm_compute; reflexivity. }
  split; [vm_compute; reflexivity|]. split; [vm_compute; reflexivity|].
  split; [apply unambiguous_ok; vm_compute; reflexivity|]. split; [apply (parses_ok demo first_gi first_tree); vm_compute; reflexivity|].
  split; [reflexivity|]. intros fuel Hf. eapply parse_more; eauto.
Qed.

Definition first_item : emitted := emit Private "Calc" NoErrorType (TTEnum [TIdent "Tok"]) None (prog forward first_gi).

Lemma ambiguous_source : source (d_rules (decls_of ambiguous_input)) = ambiguous (variant "C").
Proof. vm_compute. reflexivity. Qed.
Lemma unproductive_source : source (d_rules (decls_of unproductive_input)) = unproductive (variant "T") (variant "X") (variant "C").
Proof. vm_compute. reflexivity. Qed.

Lemma ambiguous_productive : productive (ambiguous (variant "C")).
Proof.
  pose (a := Node 5 [Node 6 []; Leaf (variant "C")]).
  apply (productive_ok' _ (fun i => nth i [Node 0 [Node 1 [Node 3 []; a]]; Node 1 [Node 3 []; a]; Node 2 [Node 4 []; a]; Node 3 []; Node 4 []; a; Node 6 []] a) 10).
  vm_compute. reflexivity.
Qed.

Lemma ambiguous_accepted (bm : BuildMode) : exists ts d n et gi, well_spaced ts /\ reads_as show ts d /\ root_unused (d_rules d) /\ productive (source (d_rules d)) /\
  (forall fuel, 50 <= fuel -> parse_grammar show fuel (tokenize_from_stream ts) = Ok (n, et, gi)) /\ ~ lr1_grammar (source (d_rules d)).
Proof.
  destruct (reads_ok ambiguous_input eq_refl) as (W & Rd & _); [vm_compute; reflexivity|].
  assert (Hg : is_ok (parse_grammar show 50 (tokenize_from_stream ambiguous_input)) = true) by (destruct bm; vm_compute; reflexivity).
  destruct (parse_grammar show 50 (tokenize_from_stream ambiguous_input)) as [[[n et] gi]| | |] eqn:E; try discriminate.
  exists ambiguous_input, (decls_of ambiguous_input), n, et, gi. split; [exact W|]. split; [exact Rd|].
  split; [apply unused_ok; vm_compute; reflexivity|]. rewrite ambiguous_source. split; [apply ambiguous_productive|].
  split; [|apply ambig_not_lr1]. intros fuel Hf. eapply le_ok; [apply parse_grammar_le; exact Hf|exact E].
Qed.

Lemma le_err {E A} (m m' : outcome E A) e : le_out m m' -> m = Err e -> m' = Err e.
Proof. intros [-> | ->]; [discriminate|auto]. Qed.

Lemma unproductive_rejected (bm : BuildMode) : exists ts d e, well_spaced ts /\ reads_as show ts d /\ root_unused (d_rules d) /\
  first_complete (source (d_rules d)) /\ valid_grammar (source (d_rules d)) /\ lr1_grammar (source (d_rules d)) /\
  forall fuel, 50 <= fuel -> parse_grammar show fuel (tokenize_from_stream ts) = Err e.
Proof.
  destruct (reads_ok unproductive_input eq_refl) as (W & Rd & _); [vm_compute; reflexivity|].
  destruct (parse_grammar show 50 (tokenize_from_stream unproductive_input)) as [x|e|w|] eqn:E; try (destruct bm; vm_compute in E; discriminate E).
  exists unproductive_input, (decls_of unproductive_input), e. split; [exact W|]. split; [exact Rd|].
  split; [apply unused_ok; vm_compute; reflexivity|]. rewrite unproductive_source.
  split; [apply direct_first_complete, (direct_b_ok _ ["B"]); vm_compute; reflexivity|].
  split.
  { destruct (indexed_build 50 (unproductive (variant "T") (variant "X") (variant "C"))) as [ig| | |] eqn:Hi; [|destruct bm; vm_compute in Hi; discriminate Hi..].
    eapply build_indexes; eauto. }
  split; [apply unprod_lr1|]. intros fuel Hf. eapply le_err; [apply parse_grammar_le; exact Hf|exact E].
Qed.

(** The same for the macro as a whole. *)
Definition expand_at (bm : BuildMode) (fuel : nat) (ts : list (token place)) :=
  Expand.grammar (bm := bm) place whole join_places show no_lex all_literals forward fuel ts.

Lemma outcome_of_ok {E} (m : Rust.result (E := E) (SErr := string) code_demo) v : outcome_of m = Some v -> exists st, m = Ok (st, FVal code_demo v).
Proof. destruct m as [[st [v'|]]| | |]; try discriminate. intros H. injection H as <-. eauto. Qed.

Lemma first_item_refutes (bm bmr : BuildMode) : exists ts em d gi toks t,
  well_spaced (trees ts) /\ reads_as show (trees ts) d /\ defaults_bound (d_rules d) /\ hygienic_rules (d_rules d) /\ productive (source (d_rules d)) /\
  (forall fuel, 50 <= fuel -> expand_at bm fuel ts = Ok (Item place em)) /\
  gi_terminal_type gi = d_terminal_type d /\ gi_rules gi = d_rules d /\ unambiguous_tokens code_demo gi toks /\ parses_tokens code_demo gi toks t /\
  exists st k, nth_error toks 1 = Some k /\
    run_emitted (bm := bmr) (E := unit) code_demo no_error' (of_list toks) sum_body 100 em = Ok (st, FVal code_demo (result_value (inr (ParseError code_demo (Some k))))).
Proof.
  assert (Hd : d_rules (decls_of first_input) = first_rules) by (vm_compute; reflexivity).
  destruct (reads_ok first_input eq_refl) as (W & Rd & _); [vm_compute; reflexivity|].
  exists (placed 1 first_input), first_item, (decls_of first_input), first_gi, [tC; tC], first_tree.
  rewrite placed_trees. split; [exact W|]. split; [exact Rd|]. rewrite Hd. split; [apply bound_b_ok; vm_compute; reflexivity|].
  split. { intros r d ts x t [<-|[<-|[<-|[]]]]; discriminate. }
  split. { apply (productive_ok' _ (fun i => nth i [tmap fst first_tree; Node 1 [Node 2 []; Leaf (variant "C")]; Node 2 []] (Node 0 [])) 20). vm_compute. reflexivity. }
  split. { intros fuel Hf. unfold expand_at. eapply le_ok; [apply grammar_le; exact Hf|]. destruct bm; vm_compute; reflexivity. }
  split; [vm_compute; reflexivity|]. split; [vm_compute; reflexivity|].
  split; [apply unambiguous_ok; vm_compute; reflexivity|]. split; [apply (parses_ok code_demo first_gi first_tree); vm_compute; reflexivity|].
  assert (Hr : exists st, run_emitted (bm := bmr) (E := unit) code_demo no_error' (of_list [tC; tC]) sum_body 100 first_item =
    Ok (st, FVal code_demo (result_value (inr (ParseError code_demo (Some tC)))))).
  { apply outcome_of_ok. destruct bmr; vm_compute; reflexivity. }
  destruct Hr as (st & Hr). exists st, tC. split; [reflexivity|exact Hr].
Qed.

Lemma ambiguous_item (bm : BuildMode) : exists ts d em, well_spaced (trees ts) /\ reads_as show (trees ts) d /\ root_unused (d_rules d) /\ productive (source (d_rules d)) /\
  (forall r, In r (d_rules d) -> good_rule r) /\ (forall s, terminal_in (d_rules d) s -> good_terminal all_literals (d_terminal_type d) s) /\
  (forall fuel, 50 <= fuel -> expand_at bm fuel ts = Ok (Item place em)) /\ ~ lr1_grammar (source (d_rules d)).
Proof.
  destruct (reads_ok ambiguous_input eq_refl) as (W & Rd & _); [vm_compute; reflexivity|].
  destruct (expand_at bm 50 (placed 1 ambiguous_input)) as [[em|x]| | |] eqn:E; [|destruct bm; vm_compute in E; discriminate E..].
  exists (placed 1 ambiguous_input), (decls_of ambiguous_input), em. rewrite placed_trees. split; [exact W|]. split; [exact Rd|].
  split; [apply unused_ok; vm_compute; reflexivity|]. rewrite ambiguous_source. split; [apply ambiguous_productive|].
  split; [apply good_rules_ok; vm_compute; reflexivity|].
  split. { replace (d_terminal_type (decls_of ambiguous_input)) with (TTEnum [TIdent "Tok"]) by (vm_compute; reflexivity). apply good_terminals_ok. vm_compute. reflexivity. }
  split; [|apply ambig_not_lr1]. intros fuel Hf. eapply le_ok; [apply grammar_le; exact Hf|exact E].
Qed.

Lemma unproductive_item (bm : BuildMode) : exists ts d e, well_spaced (trees ts) /\ reads_as show (trees ts) d /\ root_unused (d_rules d) /\
  first_complete (source (d_rules d)) /\ valid_grammar (source (d_rules d)) /\ lr1_grammar (source (d_rules d)) /\
  (forall r, In r (d_rules d) -> good_rule r) /\ (forall s, terminal_in (d_rules d) s -> good_terminal all_literals (d_terminal_type d) s) /\
  (forall fuel, 50 <= fuel -> expand_at bm fuel ts = Ok (CompileError place e)).
Proof.
  destruct (reads_ok unproductive_input eq_refl) as (W & Rd & _); [vm_compute; reflexivity|].
  destruct (expand_at bm 50 (placed 1 unproductive_input)) as [[em|e]| | |] eqn:E; try (destruct bm; vm_compute in E; discriminate E).
  exists (placed 1 unproductive_input), (decls_of unproductive_input), e. rewrite placed_trees. split; [exact W|]. split; [exact Rd|].
  split; [apply unused_ok; vm_compute; reflexivity|]. rewrite unproductive_source.
  split; [apply direct_first_complete, (direct_b_ok _ ["B"]); vm_compute; reflexivity|].
  split.
  { destruct (indexed_build 50 (unproductive (variant "T") (variant "X") (variant "C"))) as [ig| | |] eqn:Hi; [|destruct bm; vm_compute in Hi; discriminate Hi..].
    eapply build_indexes; eauto. }
  split; [apply unprod_lr1|].
  split; [apply good_rules_ok; vm_compute; reflexivity|].
  split. { replace (d_terminal_type (decls_of unproductive_input)) with (TTEnum [TIdent "Tok"]) by (vm_compute; reflexivity). apply good_terminals_ok. vm_compute. reflexivity. }
  intros fuel Hf. eapply le_ok; [apply grammar_le; exact Hf|exact E].
Qed.
