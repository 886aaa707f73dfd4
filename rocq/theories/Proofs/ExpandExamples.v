(** Inputs of [grammar!] and what they expand to. *)
From Coq Require Import Arith Bool String Ascii NArith List Lia.
From Verif Require Import Base.Prelude Spec.Grammar Spec.Validity Spec.Nullable Spec.LR1 Spec.Observers Model.Error Model.LRTable.
From Verif Require Import Model.TokenTree Model.Terminal Model.Constructor Model.CodeGen Model.Runtime Model.Symbol Model.FrontEnd.
From Verif Require Import Model.Diagnostics Model.CodeGenDiagnostics Model.Rust Model.Emit Model.Expand.
From Verif Require Import Spec.Values Spec.Substitution Spec.Macro Spec.Diagnostics Spec.Expansion.
From Verif Require Import Proofs.Substitution Proofs.GenExamples Proofs.MacroExamples Proofs.DiagnosticsExamples Proofs.EmitExamples.
Import ListNotations.
Open Scope string_scope.
Open Scope list_scope.

Definition no_lex (s : string) : string := ("cannot lex " ++ s)%string.
Definition expand (bm : BuildMode) (ts : list ttree) := Expand.grammar (bm := bm) place whole join_places show no_lex all_literals forward 50 (placed 1 ts).
Definition pub_expand (bm : BuildMode) (ts : list ttree) := Expand.pub_grammar (bm := bm) place whole join_places show no_lex all_literals forward 50 (placed 1 ts).

Definition calc_item : emitted :=
  emit Public "Calc" (Custom [TIdent "std"; TPunct ":" Joint; TPunct ":" Alone; TIdent "E"]) (TTEnum [TIdent "Tok"]) u32 calc_p.
Lemma calc_expands (bm : BuildMode) : pub_expand bm calc_input = Ok (Item place calc_item).
Proof. destruct bm; vm_compute; reflexivity. Qed.

Lemma calc_placed_reads : well_spaced (trees (placed 1 calc_input)) /\ reads_as show (trees (placed 1 calc_input)) calc_decls.
Proof. rewrite placed_trees. exact calc_reads. Qed.

(** An input with an error type, whose first rule has no type.
    name: Lst; terminal: char; error_type: Oops; <S> => <L>; <L>: u32 => 'a' { 1 }; *)
Definition list_input : list ttree :=
  option_of "name" [TIdent "Lst"] ++ option_of "terminal" [TIdent "char"] ++ option_of "error_type" [TIdent "Oops"] ++
  ref "S" ++ arrow ++ ref "L" ++ [semi] ++
  ref "L" ++ colon :: TIdent "u32" :: arrow ++ [TLiteral "'a'"; TGroup Brace [TLiteral "1"]; semi].

Lemma list_expands (bm : BuildMode) : match expand bm list_input with
  | Ok (Item _ em) => (em_public em, em_struct em, em_token em, em_value em, em_error em) =
      (false, "Lst", [TIdent "char"], [TGroup Parenthesis []], [TIdent "Oops"])
  | _ => False
  end.
Proof. destruct bm; vm_compute; reflexivity. Qed.

(** <S> => <A>; <A>: u32 => A B; *)
Definition no_block : list ttree := calc_head ++ ref "S" ++ arrow ++ ref "A" ++ [semi] ++
  ref "A" ++ colon :: TIdent "u32" :: arrow ++ [TIdent "A"; TIdent "B"; semi].
(** <S> => A { ( #1 ) }; *)
Definition deep_body : list ttree := calc_head ++ ref "S" ++ arrow ++ [TIdent "A"; TGroup Brace [TGroup Parenthesis [hash; TLiteral "1"]]; semi].

Definition told (m : outcome Empty_set (expansion place)) : option (string * place) :=
  match m with Ok (CompileError _ d) => Some (dg_message place d, dg_span place d) | _ => None end.

Definition wrong_inputs : list (list ttree) := [strange_token; bad_label; conflict_input; no_block; bad_body; deep_body].

Lemma wrong_spaced : Forall (fun ts => well_spaced (trees (placed 1 ts))) wrong_inputs.
Proof. repeat constructor; apply placed_spaced; reflexivity. Qed.

Lemma wrong_reports (bm : BuildMode) : map (fun ts => told (expand bm ts)) wrong_inputs =
  [Some ("Unexpected token ""?""", (16, 17));
   Some ("Unrecognized label ""<A>""", whole);
   Some ("Reduce conflict between rule RuleId(4) and rule RuleId(3) with lookahead $", whole);
   Some ("Must provide a constructor for rules with more than 1 node", (25, 27));
   Some ("Unrecognized production label: not found in rule", (15, 18));
   Some ("Index is out of range of rules, expected within [0, 1)", (15, 19))].
Proof. destruct bm; vm_compute; reflexivity. Qed.

Lemma panics (bm : BuildMode) : (exists w, expand bm self_input = Panic w) /\ (exists w, expand bm char_input = Panic w).
Proof. destruct bm; split; eexists; vm_compute; reflexivity. Qed.

(** The rules and terminals of [calc_input] are good. *)
Definition good_rule_b (r : prule) : bool :=
  match pr_block r with
  | Some (d, ts) => match d, rewrite_provided_constructor (pr_nodes r) (d, ts) with Brace, Ok (CUser _) => true | _, _ => false end
  | None => match pr_type r with None => true | Some _ => Nat.eqb (List.length (pr_nodes r)) 1 end
  end.

Lemma good_rule_ok r : good_rule_b r = true -> good_rule r.
Proof.
  unfold good_rule_b, good_rule. destruct (pr_block r) as [[d ts]|].
  - destruct d; try discriminate. destruct (rewrite_provided_constructor (pr_nodes r) (Brace, ts)) as [[]| | |] eqn:E; try discriminate.
    intros _. split; [reflexivity|]. eexists. apply rewrite_ok. exact E.
  - destruct (pr_type r); [|auto]. intro H. apply Nat.eqb_eq in H. auto.
Qed.

Lemma calc_good : (forall r, In r (d_rules calc_decls) -> good_rule r) /\
  (forall s, terminal_in (d_rules calc_decls) s -> good_terminal all_literals (d_terminal_type calc_decls) s).
Proof.
  split.
  - assert (F : forallb good_rule_b (d_rules calc_decls) = true) by (vm_compute; reflexivity).
    intros r Hr. rewrite forallb_forall in F. apply good_rule_ok, F, Hr.
  - intros s Hs [n' E]. apply terminals_ok in Hs. simpl in Hs. destruct Hs as [<-|[<-|[<-|[<-|[]]]]]; discriminate.
Qed.

Lemma calc_conditions (bm : BuildMode) : parse_declarations show (tokenize_from_stream (trees (placed 1 calc_input))) = Ok calc_decls /\
  root_unused (d_rules calc_decls) /\ first_complete (bm := bm) (source (d_rules calc_decls)) /\ productive (source (d_rules calc_decls)).
Proof.
  rewrite placed_trees. cbn [d_rules calc_decls]. rewrite <- calc_rules_eq.
  exact (conj calc_read (conj (proj2 calc_usable) (conj (calc_first bm) calc_productive))).
Qed.

Lemma calc_item_runs (bm : BuildMode) :
  outcome_of (run_emitted (bm := bm) (E := unit) code_demo no_error' (of_list calc_tokens) sum_body 100 calc_item) = Some (VCon ["Ok"] [VVal (RUser 5)]).
Proof. destruct bm; vm_compute; reflexivity. Qed.
