(** What is reported while code is generated, and where. *)
From Coq Require Import Arith Bool String Ascii NArith List.
From Verif Require Import Base.Prelude Spec.Grammar Model.Error Model.IndexedGrammar Model.LRTable.
From Verif Require Import Model.TokenTree Model.Terminal Model.Constructor Model.CodeGen Model.Diagnostics Model.CodeGenDiagnostics.
From Verif Require Import Spec.Values Spec.Substitution Spec.CodeGenDiagnostics.
From Verif Require Import Proofs.GenExamples Proofs.CodeGenDiagnostics Proofs.CodeGenReports Proofs.CodeGenExamples.
Import ListNotations.
Open Scope string_scope.
Open Scope list_scope.

(** ** C50: errors in constructors and terminals are reported where they are

    A constructor is accepted iff all its references are good, and otherwise
    the first bad one is reported, as [bad_at] tells. *)
Theorem C50_references_are_located :
  forall (span : Type) (nodes : list pnode) (ts : list (stree span)) (place : span),
  (forall body, cg_rewrite_provided_constructor span nodes (Brace, ts, place) = Ok (CUser body) <-> substituted nodes (plain ts) body) /\
  (forall d, cg_rewrite_provided_constructor span nodes (Brace, ts, place) = Err d <-> bad_at nodes ts (dg_message span d) (dg_span span d)).
Proof. exact (fun span nodes ts place => conj (fun body => rewrite_at_ok nodes ts place body) (fun d => rewrite_at_err nodes ts place d)). Qed.
Print Assumptions C50_references_are_located.

(** A good body, and bad ones with their messages and places. *)
Example C50_bodies : map (fun ts => texts (cg_rewrite_provided_constructor nat body_nodes (Brace, ts, 9))) bodies =
  [ None;
    Some ("Unrecognized production label: not found in rule", 4);
    Some ("Cannot refer to production by name, as it appears multiple times in the rule. Use `#n` instead, where `n` is the index in the rule.", 4);
    Some ("Index is out of range of rules, expected within [0, 4)", 2);
    Some ("invalid digit found in string", 2);
    Some ("number too large to fit in target type", 2);
    Some ("`#` must be followed by an identifier or index", 1);
    Some ("`#` must be followed by an identifier or index", 3) ].
Proof. exact bodies_reports. Qed.

(** The same for all of a rule: also the delimiter of the block, and rules that
    need one. *)
Theorem C50_rules_are_located :
  forall (span : Type) (rules : list (srule span)) i r, nth_error rules i = Some r ->
  forall d, cg_build_constructor span rules i = Err d <-> bad_rule r d.
Proof. exact (fun span rules i r Hr => proj1 (rule_exact rules i r Hr)). Qed.
Print Assumptions C50_rules_are_located.

Example C50_rules : nth_error two_rules 3 <> None /\
  texts (cg_build_constructor nat two_rules 3) = Some ("Index is out of range of rules, expected within [0, 1)", 12).
Proof. split; [discriminate|vm_compute; reflexivity]. Qed.

(** What is reported for a grammar is wrong with a rule that some action
    reduces, or with a terminal that some state has an action on. *)
Theorem C50_reports_are_genuine :
  forall (span : Type) (call_site : span) (lex_error : string -> string) (bm : BuildMode) (literal_ok : string -> bool)
         (ho : hash_orders) (gi : grammar_info) (rules : list (srule span)) d,
  gi_rules gi = map (sr_rule span) rules -> orders_ok ho -> accepted gi ->
  cg_generate_parser span call_site lex_error literal_ok ho gi rules = Err d ->
  reportable call_site lex_error literal_ok gi rules d.
Proof. exact (fun span call_site lex_error bm literal_ok ho gi rules d Hr Ho Ha => report_genuine call_site lex_error literal_ok ho gi rules Hr Ho Ha d). Qed.
Print Assumptions C50_reports_are_genuine.

(** Spans have no influence on anything else. *)
Theorem C50_spans_change_nothing :
  forall (span : Type) (call_site : span) (lex_error : string -> string) (bm : BuildMode) (literal_ok : string -> bool)
         (ho : hash_orders) (gi : grammar_info) (rules : list (srule span)),
  gi_rules gi = map (sr_rule span) rules -> orders_ok ho -> accepted gi ->
  match cg_generate_parser span call_site lex_error literal_ok ho gi rules, generate_parser literal_ok ho gi with
  | Ok p, Ok p' => p = p'
  | Err _, Err _ => True
  | Panic w, Panic w' => w = w'
  | _, _ => False
  end.
Proof. exact (fun span call_site lex_error bm literal_ok ho gi rules => report_same call_site lex_error literal_ok ho gi rules). Qed.
Print Assumptions C50_spans_change_nothing.

Example C50_grammars : forall bm : BuildMode,
  (gi_rules two = map (sr_rule nat) two_rules /\ orders_ok forward /\ accepted two /\
   cg_generate_parser nat 0 no_literal all_literals forward two two_rules = Err (mk_diag nat "Index is out of range of rules, expected within [0, 1)" 12)) /\
  (gi_rules raw = map (sr_rule nat) raw_rules /\ accepted raw /\
   cg_generate_parser nat 0 no_literal (fun _ => false) forward raw raw_rules = Err (mk_diag nat "cannot lex foo" 0)).
Proof.
  exact (fun bm => conj (conj eq_refl (conj forward_ok (conj (two_accepted bm) (two_forward bm)))) (conj eq_refl (conj (raw_accepted bm) (raw_report bm)))).
Qed.

(** ** C51: what is reported does not depend on hash orders

    It does.  S => P; P => A X | B Y; A: u32 => Z { #7 }; B: u32 => Z { #C }; both
    reductions are in one state, and the order of its [reduce_map] decides. *)
Theorem C51_report_independent_refuted :
  exists (span : Type) (call_site : span) (lex_error : string -> string) (literal_ok : string -> bool)
         (ho1 ho2 : hash_orders) (gi : grammar_info) (rules : list (srule span)) d1 d2,
  gi_rules gi = map (sr_rule span) rules /\ orders_ok ho1 /\ orders_ok ho2 /\ (forall bm : BuildMode, accepted gi) /\
  (forall bm : BuildMode, cg_generate_parser span call_site lex_error literal_ok ho1 gi rules = Err d1) /\
  (forall bm : BuildMode, cg_generate_parser span call_site lex_error literal_ok ho2 gi rules = Err d2) /\
  dg_message span d1 <> dg_message span d2 /\ dg_span span d1 <> dg_span span d2.
Proof. exact report_depends. Qed.
Print Assumptions C51_report_independent_refuted.

(** Whether a parser is generated does not: it is iff nothing is to be reported. *)
Theorem C51_generated_iff_clean_partial :
  forall (span : Type) (call_site : span) (lex_error : string -> string) (bm : BuildMode) (literal_ok : string -> bool)
         (ho : hash_orders) (gi : grammar_info) (rules : list (srule span)),
  gi_rules gi = map (sr_rule span) rules -> orders_ok ho -> accepted gi -> names_usable gi -> root_unused (gi_rules gi) ->
  ((exists p, cg_generate_parser span call_site lex_error literal_ok ho gi rules = Ok p) <->
   forall d, ~ reportable call_site lex_error literal_ok gi rules d) /\
  ((exists d, cg_generate_parser span call_site lex_error literal_ok ho gi rules = Err d) <->
   exists d, reportable call_site lex_error literal_ok gi rules d).
Proof. exact (fun span call_site lex_error bm literal_ok ho gi rules => generate_decides call_site lex_error literal_ok ho gi rules). Qed.
Print Assumptions C51_generated_iff_clean_partial.

Example C51_example : forall bm : BuildMode,
  (gi_rules two = map (sr_rule nat) two_rules /\ accepted two /\ names_usable two /\ root_unused (gi_rules two) /\
   exists d, cg_generate_parser nat 0 no_literal all_literals backward two two_rules = Err d) /\
  (gi_rules good = map (sr_rule nat) good_rules /\ accepted good /\ names_usable good /\ root_unused (gi_rules good) /\
   is_ok (cg_generate_parser nat 0 no_literal all_literals backward good good_rules) = true).
Proof.
  exact (fun bm => conj (conj eq_refl (conj (two_accepted bm) (conj (proj1 two_names) (conj (proj2 two_names) (ex_intro _ _ (two_backward bm))))))
    (conj eq_refl (conj (good_accepted bm) (conj (proj1 good_names) (conj (proj2 good_names) (good_generated bm)))))).
Qed.
