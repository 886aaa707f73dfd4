(** Meanings of concrete inputs, and where emitted parsers miss them. *)
From Coq Require Import Arith Bool String Ascii NArith List Lia.
From Verif Require Import Base.Prelude Spec.Grammar Spec.Observers Spec.Nullable Model.Error.
From Verif Require Import Model.TokenTree Model.Terminal Model.Constructor Model.CodeGen Model.Runtime Model.Symbol Model.FrontEnd.
From Verif Require Import Model.Diagnostics Model.Rust Model.Emit Model.Expand.
From Verif Require Import Spec.Values Spec.Substitution Spec.Macro Spec.Diagnostics Spec.EmittedCode Spec.Expansion Spec.Meaning.
From Verif Require Import Proofs.Fuel Proofs.GenExamples Proofs.Macro Proofs.MacroMain Proofs.MacroExamples Proofs.DiagnosticsExamples Proofs.EmitExamples Proofs.ExpandExamples Proofs.MacroRefute Proofs.Meaning.
Import ListNotations.
Open Scope string_scope.
Open Scope list_scope.

(** [2 + 3 + 0] means 5. *)
Lemma calc_means : input_means code_demo calc calc_tokens (RUser 5).
Proof. destruct calc_tree_code as (H1 & _ & H2). apply meaning_iff. eauto. Qed.

(** [C C] has a meaning, yet the item for [first_input] stops at the second token. *)
Lemma first_meaningless (bm bmr : BuildMode) : exists ts em d gi toks v,
  well_spaced (trees ts) /\ reads_as show (trees ts) d /\ defaults_bound (d_rules d) /\ hygienic_rules (d_rules d) /\ productive (source (d_rules d)) /\
  (forall fuel, 50 <= fuel -> expand_at bm fuel ts = Ok (Item place em)) /\
  gi_terminal_type gi = d_terminal_type d /\ gi_rules gi = d_rules d /\
  describes code_demo string sum_body /\ depends_on_named code_demo string sum_body /\ unambiguous_tokens code_demo gi toks /\ input_means code_demo gi toks v /\
  exists k, nth_error toks 1 = Some k /\
    gives_error code_demo (run_emitted (bm := bmr) (E := unit) code_demo no_error' (of_list toks) sum_body 100 em) (ParseError code_demo (Some k)).
Proof.
  assert (Hd : d_rules (decls_of first_input) = first_rules) by (vm_compute; reflexivity).
  destruct (reads_ok first_input eq_refl) as (W & Rd & _); [vm_compute; reflexivity|].
  exists (placed 1 first_input), first_item, (decls_of first_input), first_gi, [tC; tC], RUnit.
  rewrite placed_trees. split; [exact W|]. split; [exact Rd|]. rewrite Hd. split; [apply bound_b_ok; vm_compute; reflexivity|].
  split. { intros r d ts x t [<-|[<-|[<-|[]]]]; discriminate. }
  split. { apply (productive_ok' _ (fun i => nth i [tmap fst first_tree; Node 1 [Node 2 []; Leaf (variant "C")]; Node 2 []] (Node 0 [])) 20). vm_compute. reflexivity. }
  split. { intros fuel Hf. unfold expand_at. eapply le_ok; [apply grammar_le; exact Hf|]. destruct bm; vm_compute; reflexivity. }
  split; [vm_compute; reflexivity|]. split; [vm_compute; reflexivity|]. split; [exact demo_describes|]. split; [exact demo_depends|].
  split; [apply unambiguous_ok; vm_compute; reflexivity|].
  split. { apply meaning_iff. exists first_tree. split; [apply (parses_ok code_demo first_gi first_tree)|]; vm_compute; reflexivity. }
  exists tC. split; [reflexivity|]. apply outcome_of_ok. destruct bmr; vm_compute; reflexivity.
Qed.

(** <S>: u32 => <T> { #T }; <T>: u32 => <X> <A> { #A } | <Y> <A> { #A + #A };
    <X> => !; <Y> => !; <A>: u32 => <B> Num(..) { #1 }; <B> => !; *)
Definition typed (l : string) (alts : list (list ttree)) : list ttree :=
  ref l ++ [colon; TIdent "u32"] ++ arrow ++ removelast (flat_map (fun alt => alt ++ [bar]) alts) ++ [semi].
Definition code (ts : list ttree) : list ttree := [TGroup Brace ts].
Definition two_input : list ttree := calc_head ++
  typed "S" [ref "T" ++ code [hash; TIdent "T"]] ++
  typed "T" [ref "X" ++ ref "A" ++ code [hash; TIdent "A"]; ref "Y" ++ ref "A" ++ code [hash; TIdent "A"; TPunct "+" Alone; hash; TIdent "A"]] ++
  declares "X" [[nothing]] ++ declares "Y" [[nothing]] ++
  typed "A" [ref "B" ++ [TIdent "Num"; TGroup Parenthesis [TPunct "." Joint; TPunct "." Alone]] ++ code [hash; TLiteral "1"]] ++ declares "B" [[nothing]].
Definition two_gi : grammar_info := match parse_grammar (bm := true) show 50 (tokenize_from_stream two_input) with Ok (_, _, gi) => gi | _ => first_gi end.
Definition two_tree (i j : nat) : dtree code_demo := Node 0 [Node i [Node j []; Node 5 [Node 6 []; Leaf (num, Num 3)]]].

Lemma two_meanings (bm : BuildMode) : exists ts em d gi toks v v',
  well_spaced (trees ts) /\ reads_as show (trees ts) d /\ defaults_bound (d_rules d) /\ hygienic_rules (d_rules d) /\
  (forall fuel, 50 <= fuel -> expand_at bm fuel ts = Ok (Item place em)) /\
  gi_terminal_type gi = d_terminal_type d /\ gi_rules gi = d_rules d /\
  unambiguous_tokens code_demo gi toks /\ input_means code_demo gi toks v /\ input_means code_demo gi toks v' /\ v <> v'.
Proof.
  destruct (reads_ok two_input eq_refl) as (W & Rd & _); [vm_compute; reflexivity|].
  destruct (expand_at bm 50 (placed 1 two_input)) as [[em|x]| | |] eqn:E; [|destruct bm; vm_compute in E; discriminate E..].
  exists (placed 1 two_input), em, (decls_of two_input), two_gi, [Num 3], (RUser 3), (RUser 6). rewrite placed_trees.
  assert (Er : gi_rules two_gi = d_rules (decls_of two_input)) by (vm_compute; reflexivity).
  split; [exact W|]. split; [exact Rd|]. rewrite <- Er. split; [apply bound_b_ok; vm_compute; reflexivity|].
  split; [apply hygienic_b_ok; vm_compute; reflexivity|].
  split. { intros fuel Hf. unfold expand_at. eapply le_ok; [apply grammar_le; exact Hf|exact E]. }
  split; [vm_compute; reflexivity|]. split; [reflexivity|]. split; [apply unambiguous_ok; vm_compute; reflexivity|].
  split. { apply meaning_iff. exists (two_tree 1 3). split; [apply (parses_ok code_demo two_gi (two_tree 1 3))|]; vm_compute; reflexivity. }
  split. { apply meaning_iff. exists (two_tree 2 4). split; [apply (parses_ok code_demo two_gi (two_tree 2 4))|]; vm_compute; reflexivity. }
  discriminate.
Qed.

(** In [9 + 3 + +] the second token that no sentence has there is not reached: the
    constructor for [9 + 3] fails first. *)
Lemma calc_sum_at : exists rest, input_fails code_demo calc [Num 9; Plus; Num 3] rest "overflow" /\ could_begin code_demo calc rest (Some Plus).
Proof.
  assert (Hd : derives (source (gi_rules calc)) (map to_lr_node [PNSymbol plus; PNProduction "N"]) [plus; num] [Leaf plus; Node 3 [Leaf num]]).
  { cbn [map to_lr_node]. constructor.
    refine (derives_production _ 3 (to_lr_production_rule (nth 3 (gi_rules calc) (mk_prule "" None [] None))) [Leaf num] [num] [] [] [] _ _ _); [vm_compute; reflexivity| |constructor].
    vm_compute. repeat constructor. }
  assert (H9 : means code_demo calc "N" [Num 9] (RUser 9)).
  { refine (means_rule code_demo calc 3 (nth 3 (gi_rules calc) (mk_prule "" None [] None)) [Num 9] [leaf_value code_demo num (Num 9)] (RUser 9) _ _ _); [vm_compute; reflexivity| |vm_compute; reflexivity].
    exact (am_symbol code_demo calc num (Num 9) [] [] [] eq_refl (am_nil code_demo calc)). }
  assert (H3 : means code_demo calc "N" [Num 3] (RUser 3)).
  { refine (means_rule code_demo calc 3 (nth 3 (gi_rules calc) (mk_prule "" None [] None)) [Num 3] [leaf_value code_demo num (Num 3)] (RUser 3) _ _ _); [vm_compute; reflexivity| |vm_compute; reflexivity].
    exact (am_symbol code_demo calc num (Num 3) [] [] [] eq_refl (am_nil code_demo calc)). }
  exists ([plus; num] ++ []). split; [|reflexivity].
  exists (nth 0 (gi_rules calc) (mk_prule "" None [] None)). split; [vm_compute; reflexivity|]. left.
  refine (nf_here code_demo calc "E" [Num 9; Plus; Num 3] [plus; num] [] [] [] "overflow" _ (derives_nil _)).
  refine (lf_nodes code_demo calc 1 (nth 1 (gi_rules calc) (mk_prule "" None [] None)) _ _ _ _ _); [vm_compute; reflexivity|].
  refine (nf_here code_demo calc "E" [Num 9; Plus; Num 3] [] [PNSymbol plus; PNProduction "N"] [plus; num] _ "overflow" _ Hd).
  refine (lf_rule code_demo calc 1 (nth 1 (gi_rules calc) (mk_prule "" None [] None)) _ [RUser 9; leaf_value code_demo plus Plus; RUser 3] _ _ _ _); [vm_compute; reflexivity| |vm_compute; reflexivity].
  refine (am_label code_demo calc "E" [Num 9] (RUser 9) _ [Plus; Num 3] _ _ _).
  - refine (means_rule code_demo calc 2 (nth 2 (gi_rules calc) (mk_prule "" None [] None)) [Num 9] [RUser 9] _ _ _ _); [vm_compute; reflexivity| |vm_compute; reflexivity].
    exact (am_label code_demo calc "N" [Num 9] (RUser 9) [] [] [] H9 (am_nil code_demo calc)).
  - refine (am_symbol code_demo calc plus Plus _ [Num 3] _ _ _); [vm_compute; reflexivity|].
    exact (am_label code_demo calc "N" [Num 3] (RUser 3) [] [] [] H3 (am_nil code_demo calc)).
Qed.
Lemma calc_sum_fails : constructor_fails code_demo calc [Num 9; Plus; Num 3; Plus; Plus] "overflow".
Proof. destruct calc_sum_at as (rest & H). exists 3, rest. split; [cbn; lia|exact H]. Qed.

Lemma calc_five : unambiguous_tokens code_demo calc [Num 9; Plus; Num 3; Plus; Plus].
Proof. apply unambiguous_ok. vm_compute. reflexivity. Qed.
