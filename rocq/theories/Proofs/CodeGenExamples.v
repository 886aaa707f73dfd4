(** Concrete grammars with errors that are noticed while code is generated. *)
From Coq Require Import Arith Bool String Ascii NArith List Lia Permutation.
From Verif Require Import Base.Prelude Spec.Grammar Model.Error Model.Vocabulary Model.IndexedGrammar Model.LRTable.
From Verif Require Import Model.TokenTree Model.Terminal Model.Constructor Model.CodeGen Model.Diagnostics Model.CodeGenDiagnostics.
From Verif Require Import Spec.Values Spec.Substitution Spec.CodeGenDiagnostics.
From Verif Require Import Proofs.GenExamples Proofs.CodeGenDiagnostics Proofs.CodeGenReports.
Import ListNotations.
Open Scope string_scope.
Open Scope list_scope.

(** Spans are numbers, 0 is the macro. *)
Definition tr := stree nat.
Definition word (w : string) (s : nat) : tr := STIdent nat w s.
Definition lit (w : string) (s : nat) : tr := STLiteral nat w s.
Definition sign (s : nat) : tr := STPunct nat "#" Alone s.
Definition comma (s : nat) : tr := STPunct nat "," Alone s.
Definition no_literal (w : string) : string := "cannot lex " ++ w.
Definition texts {A} (m : outcome (diag nat) A) : option (string * nat) :=
  match m with Err d => Some (dg_message nat d, dg_span nat d) | _ => None end.

Definition body_nodes : list pnode := [PNProduction "A"; PNSymbol plus; PNProduction "B"; PNProduction "A"].
Definition bodies : list (list tr) :=
  [ [word "f" 1; STGroup nat Parenthesis [sign 3; word "B" 4; comma 5; sign 6; lit "0" 7] 2];
    [sign 1; word "B" 2; sign 3; word "C" 4];
    [word "f" 1; STGroup nat Parenthesis [sign 3; word "A" 4] 2];
    [sign 1; lit "4" 2];
    [sign 1; lit "1u8" 2];
    [sign 1; lit "99999999999999999999x" 2];
    [sign 1; comma 2];
    [word "f" 1; STGroup nat Parenthesis [sign 3] 2; sign 4; word "C" 5] ].

Lemma bodies_reports : map (fun ts => texts (cg_rewrite_provided_constructor nat body_nodes (Brace, ts, 9))) bodies =
  [ None;
    Some ("Unrecognized production label: not found in rule", 4);
    Some ("Cannot refer to production by name, as it appears multiple times in the rule. Use `#n` instead, where `n` is the index in the rule.", 4);
    Some ("Index is out of range of rules, expected within [0, 4)", 2);
    Some ("invalid digit found in string", 2);
    Some ("number too large to fit in target type", 2);
    Some ("`#` must be followed by an identifier or index", 1);
    Some ("`#` must be followed by an identifier or index", 3) ].
Proof. vm_compute. reflexivity. Qed.

(** S => P; P => A X | B Y; A: u32 => Z { #7 }; B: u32 => Z { #C } *)
Definition unit_rule (name : string) (nodes : list pnode) : srule nat := mk_srule nat name None nodes None 1.
Definition two_rules : list (srule nat) :=
  [ unit_rule "S" [PNProduction "P"];
    unit_rule "P" [PNProduction "A"; PNSymbol (mk_symbol "X" PGNone)];
    unit_rule "P" [PNProduction "B"; PNSymbol (mk_symbol "Y" PGNone)];
    mk_srule nat "A" u32 [PNSymbol (mk_symbol "Z" PGNone)] (Some (Brace, [sign 11; lit "7" 12], 10)) 13;
    mk_srule nat "B" u32 [PNSymbol (mk_symbol "Z" PGNone)] (Some (Brace, [sign 21; word "C" 22], 20)) 23 ].
Definition two_types : hash_map string (option (list ttree)) := [("S", None); ("P", None); ("A", u32); ("B", u32)].
Definition two : grammar_info := info (TTEnum [TIdent "Tok"]) two_types (map (sr_rule nat) two_rules).

Lemma two_accepted (bm : BuildMode) : accepted (bm := bm) two.
Proof.
  assert (Hb : build_info (bm := bm) (TTEnum [TIdent "Tok"]) two_types (map (sr_rule nat) two_rules) = Ok two) by (destruct bm; vm_compute; reflexivity).
  eapply build_info_accepted; [exact Hb|vm_compute; reflexivity|vm_compute; reflexivity].
Qed.

Definition report_two (bm : BuildMode) (ho : hash_orders) := cg_generate_parser (bm := bm) nat 0 no_literal all_literals ho two two_rules.

Lemma two_forward (bm : BuildMode) : report_two bm forward = Err (mk_diag nat "Index is out of range of rules, expected within [0, 1)" 12).
Proof. destruct bm; vm_compute; reflexivity. Qed.
Lemma two_backward (bm : BuildMode) : report_two bm backward = Err (mk_diag nat "Unrecognized production label: not found in rule" 22).
Proof. destruct bm; vm_compute; reflexivity. Qed.

Lemma two_names : names_usable two /\ root_unused (gi_rules two).
Proof.
  split.
  - intros s Hs _. apply terminals_ok in Hs. change (terminals (gi_rules two)) with (terminals (map (sr_rule nat) two_rules)) in Hs.
    vm_compute in Hs. repeat (destruct Hs as [<-|Hs]; [reflexivity|]). destruct Hs.
  - intros r Hr. vm_compute in Hr. injection Hr as <-. simpl. intros [H|[]]. discriminate.
Qed.

(** The same with correct constructors. *)
Definition good_rules : list (srule nat) :=
  firstn 3 two_rules ++
  [ mk_srule nat "A" u32 [PNSymbol (mk_symbol "Z" PGNone)] (Some (Brace, [sign 11; lit "0" 12], 10)) 13;
    mk_srule nat "B" u32 [PNSymbol (mk_symbol "Z" PGNone)] None 23 ].
Definition good : grammar_info := info (TTEnum [TIdent "Tok"]) two_types (map (sr_rule nat) good_rules).

Lemma good_accepted (bm : BuildMode) : accepted (bm := bm) good.
Proof.
  assert (Hb : build_info (bm := bm) (TTEnum [TIdent "Tok"]) two_types (map (sr_rule nat) good_rules) = Ok good) by (destruct bm; vm_compute; reflexivity).
  eapply build_info_accepted; [exact Hb|vm_compute; reflexivity|vm_compute; reflexivity].
Qed.
Lemma good_names : names_usable good /\ root_unused (gi_rules good).
Proof.
  split.
  - intros s Hs _. apply terminals_ok in Hs. change (terminals (gi_rules good)) with (terminals (map (sr_rule nat) good_rules)) in Hs.
    vm_compute in Hs. repeat (destruct Hs as [<-|Hs]; [reflexivity|]). destruct Hs.
  - intros r Hr. vm_compute in Hr. injection Hr as <-. simpl. intros [H|[]]. discriminate.
Qed.
Lemma good_generated (bm : BuildMode) : is_ok (cg_generate_parser (bm := bm) nat 0 no_literal all_literals backward good good_rules) = true.
Proof. destruct bm; vm_compute; reflexivity. Qed.

(** Terminals that are the tokens themselves: [foo] is no literal. *)
Definition raw_rules : list (srule nat) :=
  [ unit_rule "S" [PNProduction "P"]; unit_rule "P" [PNSymbol (mk_symbol "foo" PGNone)] ].
Definition raw : grammar_info := info (TTRaw [TIdent "char"]) [("S", None); ("P", None)] (map (sr_rule nat) raw_rules).
Lemma raw_accepted (bm : BuildMode) : accepted (bm := bm) raw.
Proof.
  assert (Hb : build_info (bm := bm) (TTRaw [TIdent "char"]) [("S", None); ("P", None)] (map (sr_rule nat) raw_rules) = Ok raw) by (destruct bm; vm_compute; reflexivity).
  eapply build_info_accepted; [exact Hb|vm_compute; reflexivity|vm_compute; reflexivity].
Qed.
Lemma raw_report (bm : BuildMode) : cg_generate_parser (bm := bm) nat 0 no_literal (fun _ => false) forward raw raw_rules =
  Err (mk_diag nat "cannot lex foo" 0).
Proof. destruct bm; vm_compute; reflexivity. Qed.

Lemma report_depends : exists (span : Type) (call_site : span) (lex_error : string -> string) (literal_ok : string -> bool)
         (ho1 ho2 : hash_orders) (gi : grammar_info) (rules : list (srule span)) d1 d2,
  gi_rules gi = map (sr_rule span) rules /\ orders_ok ho1 /\ orders_ok ho2 /\ (forall bm : BuildMode, accepted gi) /\
  (forall bm : BuildMode, cg_generate_parser span call_site lex_error literal_ok ho1 gi rules = Err d1) /\
  (forall bm : BuildMode, cg_generate_parser span call_site lex_error literal_ok ho2 gi rules = Err d2) /\
  dg_message span d1 <> dg_message span d2 /\ dg_span span d1 <> dg_span span d2.
Proof.
  exists nat, 0, no_literal, all_literals, forward, backward, two, two_rules.
  exists (mk_diag nat "Index is out of range of rules, expected within [0, 1)" 12), (mk_diag nat "Unrecognized production label: not found in rule" 22).
  split; [reflexivity|]. split; [apply forward_ok|]. split; [apply backward_ok|]. split; [apply two_accepted|]. split; [apply two_forward|]. split; [apply two_backward|].
  simpl. split; discriminate.
Qed.
