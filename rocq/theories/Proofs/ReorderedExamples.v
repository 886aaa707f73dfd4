(** Declarations whose rules after the first are in another order. *)
From Coq Require Import Arith Bool String Ascii NArith List Lia Permutation.
From Verif Require Import Base.Prelude Spec.Grammar Spec.Observers Spec.Nullable Model.Error.
From Verif Require Import Model.TokenTree Model.Terminal Model.Constructor Model.CodeGen Model.Runtime Model.Symbol Model.FrontEnd.
From Verif Require Import Model.Diagnostics Model.Rust Model.Emit Model.Expand.
From Verif Require Import Spec.Values Spec.Substitution Spec.Macro Spec.Diagnostics Spec.EmittedCode Spec.Expansion Spec.Meaning Spec.Reordering.
From Verif Require Import Proofs.LR1Final Proofs.Refutations Proofs.Fuel Proofs.GenExamples Proofs.Macro Proofs.MacroMain Proofs.MacroExamples Proofs.DiagnosticsExamples Proofs.EmitExamples Proofs.ExpandExamples Proofs.MacroRefute Proofs.Meaning Proofs.MeaningExamples.
Import ListNotations.
Open Scope string_scope.
Open Scope list_scope.

(** [first_input] with its last two declarations exchanged:
    <S> => <A> <A>; <B> => !; <A> => <B> C; *)
Definition first_swapped : list ttree := calc_head ++
  declares "S" [[ref "A"; ref "A"]] ++ declares "B" [[nothing]] ++ declares "A" [[ref "B"; tok_of "C"]].
Definition exchange_2_3 (i : nat) : nat := match i with 1 => 2 | 2 => 1 | _ => i end.
Definition first_swapped_item : emitted :=
  match expand_at true 50 (placed 1 first_swapped) with Ok (Item _ em) => em | _ => first_item end.

Lemma exchange_inj i j : exchange_2_3 i = exchange_2_3 j -> i = j.
Proof. destruct i as [|[|[|i]]], j as [|[|[|j]]]; cbn; congruence. Qed.

Lemma returned_ok {E SErr} (R : rust) (m : Rust.result (E := E) (SErr := SErr) R) (v : val R) :
  match m with Ok (_, FVal _ x) => Some x | _ => None end = Some (result_value (inl v)) -> gives_value R m v.
Proof. destruct m as [[st [x|x]]| | |]; try discriminate. intros H. injection H as ->. exists st. reflexivity. Qed.

Lemma reordered_first (bm bmr : BuildMode) : exists ts ts' em em' d d' f gi toks k v,
  well_spaced (trees ts) /\ well_spaced (trees ts') /\ reads_as show (trees ts) d /\ reads_as show (trees ts') d' /\
  d_terminal_type d = d_terminal_type d' /\ reordered_rules (d_rules d) (d_rules d') /\ numbering f (d_rules d) (d_rules d') /\
  defaults_bound (d_rules d) /\ hygienic_rules (d_rules d) /\ productive (source (d_rules d)) /\
  (forall fuel, 50 <= fuel -> expand_at bm fuel ts = Ok (Item place em) /\ expand_at bm fuel ts' = Ok (Item place em')) /\
  describes code_demo string sum_body /\ depends_on_named code_demo string sum_body /\
  gi_terminal_type gi = d_terminal_type d /\ gi_rules gi = d_rules d /\ unambiguous_tokens code_demo gi toks /\
  gives_error code_demo (run_emitted (bm := bmr) (E := unit) code_demo no_error' (of_list toks) sum_body 100 em) (ParseError code_demo k) /\
  gives_value (renumber f code_demo) (run_emitted (bm := bmr) (E := unit) (renumber f code_demo) no_error' (of_list toks) (fun i => sum_body (f i)) 100 em') v.
Proof.
  assert (Hd : d_rules (decls_of first_input) = first_rules) by (vm_compute; reflexivity).
  destruct (reads_ok first_input eq_refl) as (W & Rd & _); [vm_compute; reflexivity|].
  destruct (reads_ok first_swapped eq_refl) as (W' & Rd' & _); [vm_compute; reflexivity|].
  exists (placed 1 first_input), (placed 1 first_swapped), first_item, first_swapped_item, (decls_of first_input), (decls_of first_swapped), exchange_2_3, first_gi, [tC; tC], (Some tC), RUnit.
  rewrite !placed_trees. split; [exact W|]. split; [exact W'|]. split; [exact Rd|]. split; [exact Rd'|]. split; [vm_compute; reflexivity|].
  assert (Hd' : d_rules (decls_of first_swapped) = [nth 0 first_rules (mk_prule "" None [] None); nth 2 first_rules (mk_prule "" None [] None); nth 1 first_rules (mk_prule "" None [] None)]) by (vm_compute; reflexivity).
  rewrite Hd, Hd'. split. { eexists _, _, _. split; [reflexivity|]. split; [reflexivity|]. apply perm_swap. }
  split. { split; [reflexivity|]. split; [exact exchange_inj|]. intros [|[|[|[|i]]]]; reflexivity. }
  split; [apply bound_b_ok; vm_compute; reflexivity|].
  split. { intros r d ts x t [<-|[<-|[<-|[]]]]; discriminate. }
  split. { apply (productive_ok' _ (fun i => nth i [tmap fst first_tree; Node 1 [Node 2 []; Leaf (variant "C")]; Node 2 []] (Node 0 [])) 20). vm_compute. reflexivity. }
  split. { intros fuel Hf. unfold expand_at. split; (eapply le_ok; [apply grammar_le; exact Hf|]); destruct bm; vm_compute; reflexivity. }
  split; [exact demo_describes|]. split; [exact demo_depends|].
  split; [vm_compute; reflexivity|]. split; [vm_compute; reflexivity|]. split; [apply unambiguous_ok; vm_compute; reflexivity|].
  split.
  - assert (Hr : exists st, run_emitted (bm := bmr) (E := unit) code_demo no_error' (of_list [tC; tC]) sum_body 100 first_item =
      Ok (st, FVal code_demo (result_value (inr (ParseError code_demo (Some tC)))))).
    { apply outcome_of_ok. destruct bmr; vm_compute; reflexivity. }
    exact Hr.
  - apply returned_ok. destruct bmr; vm_compute; reflexivity.
Qed.

(** [ambiguous_input] with its last two declarations exchanged. *)
Definition ambiguous_swapped : list ttree := calc_head ++
  declares "S" [[ref "T"]] ++ declares "T" [[ref "X"; ref "A"]; [ref "Y"; ref "A"]] ++ declares "X" [[nothing]] ++ declares "Y" [[nothing]] ++
  declares "B" [[nothing]] ++ declares "A" [[ref "B"; tok_of "C"]].

Lemma reordered_ambiguous (bm : BuildMode) : exists ts ts' d d' em e,
  parse_declarations show (tokenize_from_stream (trees ts)) = Ok d /\ parse_declarations show (tokenize_from_stream (trees ts')) = Ok d' /\
  d_terminal_type d = d_terminal_type d' /\ reordered_rules (d_rules d) (d_rules d') /\ root_unused (d_rules d) /\ productive (source (d_rules d)) /\
  (forall r, In r (d_rules d) -> good_rule r) /\ (forall s, terminal_in (d_rules d) s -> good_terminal all_literals (d_terminal_type d) s) /\
  forall fuel, 50 <= fuel -> expand_at bm fuel ts = Ok (Item place em) /\ expand_at bm fuel ts' = Ok (CompileError place e).
Proof.
  destruct (reads_ok ambiguous_input eq_refl) as (_ & _ & P); [vm_compute; reflexivity|].
  destruct (reads_ok ambiguous_swapped eq_refl) as (_ & _ & P'); [vm_compute; reflexivity|].
  destruct (expand_at bm 50 (placed 1 ambiguous_input)) as [[em|x]| | |] eqn:E; [|destruct bm; vm_compute in E; discriminate E..].
  destruct (expand_at bm 50 (placed 1 ambiguous_swapped)) as [[x|e]| | |] eqn:E'; [destruct bm; vm_compute in E'; discriminate E'| |destruct bm; vm_compute in E'; discriminate E'..].
  exists (placed 1 ambiguous_input), (placed 1 ambiguous_swapped), (decls_of ambiguous_input), (decls_of ambiguous_swapped), em, e.
  rewrite !placed_trees. split; [exact P|]. split; [exact P'|]. split; [vm_compute; reflexivity|].
  split.
  { assert (H : exists r a b x y, d_rules (decls_of ambiguous_input) = r :: a ++ [x; y] /\ d_rules (decls_of ambiguous_swapped) = r :: b ++ [y; x] /\ a = b).
    { eexists _, (firstn 4 (tl (d_rules (decls_of ambiguous_input)))), (firstn 4 (tl (d_rules (decls_of ambiguous_swapped)))), _, _.
      split; [vm_compute; reflexivity|]. split; vm_compute; reflexivity. }
    destruct H as (r & a & b & x & y & -> & -> & ->). eexists _, _, _. split; [reflexivity|]. split; [reflexivity|]. apply Permutation_app_head, perm_swap. }
  split; [apply unused_ok; vm_compute; reflexivity|]. split; [rewrite ambiguous_source; apply ambiguous_productive|].
  split; [apply good_rules_ok; vm_compute; reflexivity|].
  split. { replace (d_terminal_type (decls_of ambiguous_input)) with (TTEnum [TIdent "Tok"]) by (vm_compute; reflexivity). apply good_terminals_ok. vm_compute. reflexivity. }
  intros fuel Hf. split; (eapply le_ok; [apply grammar_le; exact Hf|]); [exact E|exact E'].
Qed.

(** The calculator with its declarations after the first in reverse:
    <S>: u32 => <E>;
    <O> => ! | Dot;
    <N>: u32 => Num(..) { #0 } | Zero <O> { 0 };
    <E>: u32 => <E> Plus <N> { #0 + #N } | <N> { #N }; *)
Definition calc_swapped : list ttree :=
  calc_head ++ option_of "error_type" [TIdent "std"; TPunct ":" Joint; TPunct ":" Alone; TIdent "E"] ++
  ref "S" ++ colon :: TIdent "u32" :: arrow ++ ref "E" ++ [semi] ++
  ref "O" ++ arrow ++ [TPunct "!" Alone; bar; TIdent "Dot"; semi] ++
  ref "N" ++ colon :: TIdent "u32" :: arrow ++ [TIdent "Num"; TGroup Parenthesis [TPunct "." Joint; TPunct "." Alone]; TGroup Brace [hash; TLiteral "0"]; bar; TIdent "Zero"] ++
    ref "O" ++ [TGroup Brace [TLiteral "0"]; semi] ++
  ref "E" ++ colon :: TIdent "u32" :: arrow ++ ref "E" ++ [TIdent "Plus"] ++ ref "N" ++
    [TGroup Brace [hash; TLiteral "0"; TPunct "+" Alone; hash; TIdent "N"]; bar] ++ ref "N" ++ [TGroup Brace [hash; TIdent "N"]; semi].
Definition calc_numbers (i : nat) : nat := match i with 1 => 5 | 2 => 6 | 5 => 1 | 6 => 2 | _ => i end.
Definition calc_swapped_item : emitted :=
  match expand_at true 50 (placed 1 calc_swapped) with Ok (Item _ em) => em | _ => first_item end.

Lemma calc_swapped_ok (bm : BuildMode) :
  reads_as show (trees (placed 1 calc_swapped)) (decls_of calc_swapped) /\ d_terminal_type calc_decls = d_terminal_type (decls_of calc_swapped) /\
  reordered_rules (d_rules calc_decls) (d_rules (decls_of calc_swapped)) /\ numbering calc_numbers (d_rules calc_decls) (d_rules (decls_of calc_swapped)) /\
  first_complete (bm := bm) (source (d_rules (decls_of calc_swapped))) /\ expand_at bm 50 (placed 1 calc_swapped) = Ok (Item place calc_swapped_item).
Proof.
  destruct (reads_ok calc_swapped eq_refl) as (W' & Rd' & _); [vm_compute; reflexivity|]. rewrite placed_trees. split; [exact Rd'|].
  split; [vm_compute; reflexivity|]. 
  assert (Hd : d_rules calc_decls = calc_rules) by reflexivity.
  assert (Hd' : d_rules (decls_of calc_swapped) = map (fun i => nth (calc_numbers i) calc_rules (mk_prule "" None [] None)) (seq 0 7)) by (vm_compute; reflexivity).
  rewrite Hd, Hd'. split.
  { eexists _, _, _. split; [reflexivity|]. split; [reflexivity|]. cbn [map seq calc_numbers nth calc_rules].
    match goal with |- Permutation [?a; ?b; ?c; ?d; ?e; ?f] _ => change (Permutation ([a; b] ++ [c; d] ++ [e; f]) ([e; f] ++ [c; d] ++ [a; b])) end.
    rewrite (Permutation_app_comm [_; _] _), <- app_assoc. cbn [app]. apply (Permutation_app_tail [_; _] (l := [_; _; _; _]) (l' := [_; _; _; _])).
    exact (Permutation_app_comm [_; _] [_; _]). }
  split.
  { split; [reflexivity|]. split.
    - intros i j. destruct i as [|[|[|[|[|[|[|i]]]]]]], j as [|[|[|[|[|[|[|j]]]]]]]; cbn; congruence.
    - intros [|[|[|[|[|[|[|i]]]]]]]; reflexivity. }
  split; [apply direct_first_complete, (direct_b_ok _ ["O"]); vm_compute; reflexivity|]. destruct bm; vm_compute; reflexivity.
Qed.

Lemma calc_both_run (bm : BuildMode) :
  gives_value code_demo (run_emitted (bm := bm) (E := unit) code_demo no_error' (of_list calc_tokens) sum_body 100 calc_item) (RUser 5) /\
  gives_value (renumber calc_numbers code_demo)
    (run_emitted (bm := bm) (E := unit) (renumber calc_numbers code_demo) no_error' (of_list calc_tokens) (fun i => sum_body (calc_numbers i)) 100 calc_swapped_item) (RUser 5).
Proof. split; apply returned_ok; destruct bm; vm_compute; reflexivity. Qed.
