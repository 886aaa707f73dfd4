(** Where errors in constructors are reported, and what they say. *)
From Coq Require Import Arith Bool String Ascii NArith List.
From Verif Require Import Base.Prelude Spec.Grammar Model.Error Model.Vocabulary Model.IndexedGrammar Model.LRTable Model.TokenTree Model.Terminal Model.Constructor Model.CodeGen.
From Verif Require Import Model.Diagnostics Model.CodeGenDiagnostics Spec.Values Spec.Substitution.
From Verif Require Spec.TableText.
Import ListNotations.
Open Scope string_scope.
Open Scope list_scope.

(** What is said about a text that is no number: a number that is too large is
    noticed before what follows it. *)
Definition too_large (text : string) : Prop :=
  exists ds rest, Forall (fun d => d < 10) ds /\ (2 ^ 64 <= digits_value 0 ds)%N /\
    (text = (digit_string ds ++ rest)%string \/ text = ("+" ++ digit_string ds ++ rest)%string).

Inductive not_a_number (text : string) : string -> Prop :=
| nn_empty : text = "" -> not_a_number text "cannot parse integer from empty string"
| nn_large : too_large text -> not_a_number text "number too large to fit in target type"
| nn_digit : text <> "" -> ~ too_large text -> not_a_number text "invalid digit found in string".

(** State [s] of the table has the action [act] on the terminal [a]. *)
Definition has_action {bm : BuildMode} (gi : grammar_info) (s : nat) (a : aug user_symbol) (act : action) : Prop :=
  exists a', s < num_states (gi_table gi) /\ augmented_token_to_id (ivocab (gi_grammar gi)) a = Some a' /\
    get_action (E := unit) (gi_table gi) s a' = Ok (Some act).

(** The rules that are reduced by some action, and the terminals that some
    state has an action on. *)
Definition used_rule {bm : BuildMode} (gi : grammar_info) (i : nat) : Prop :=
  exists s a, (exists j r, has_action gi s a (Reduce j) /\ nth_error (rules (gi_grammar gi)) j = Some r /\ original_index r = i) \/
              (has_action gi s a Accept /\ i = 0).
Definition used_terminal {bm : BuildMode} (gi : grammar_info) (t : user_symbol) : Prop :=
  exists s act, has_action gi s (Token t) act.

Section Spans.
Context {span : Type} (call_site : span) (lex_error : string -> string).
Notation stree := (stree span).
Notation srule := (srule span).
Notation diag := (diag span).

Definition sign_at (s : span) : stree := STPunct span "#" Alone s.
Definition plain (ts : list stree) : list ttree := map (st_tree span) ts.

(** The first bad reference of [ts] is reported by [message], at [place]. *)
Inductive bad_at (nodes : list pnode) : list stree -> string -> span -> Prop :=
| ba_unknown name s place ts :
    (forall i, nth_error nodes i <> Some (PNProduction name)) ->
    bad_at nodes (sign_at s :: STIdent span name place :: ts) "Unrecognized production label: not found in rule" place
| ba_ambiguous name i j s place ts :
    i <> j -> nth_error nodes i = Some (PNProduction name) -> nth_error nodes j = Some (PNProduction name) ->
    bad_at nodes (sign_at s :: STIdent span name place :: ts)
      "Cannot refer to production by name, as it appears multiple times in the rule. Use `#n` instead, where `n` is the index in the rule."
      place
| ba_number text message s place ts :
    (forall n, ~ decimal text n) -> not_a_number text message ->
    bad_at nodes (sign_at s :: STLiteral span text place :: ts) message place
| ba_range text n w s place ts :
    decimal text n -> length nodes <= N.to_nat n -> Spec.TableText.numeral (length nodes) w ->
    bad_at nodes (sign_at s :: STLiteral span text place :: ts)
      ("Index is out of range of rules, expected within [0, " ++ w ++ ")") place
| ba_epsilon text n w s place ts :
    decimal text n -> nth_error nodes (N.to_nat n) = Some PNEpsilon -> Spec.TableText.numeral (N.to_nat n) w ->
    bad_at nodes (sign_at s :: STLiteral span text place :: ts) ("Index " ++ w ++ " refers to `!` which matches nothing") place
(** Otherwise the place is that of the [#]. *)
| ba_dangling place ts :
    (forall name ts', plain ts <> TIdent name :: ts') -> (forall text ts', plain ts <> TLiteral text :: ts') ->
    bad_at nodes (sign_at place :: ts) "`#` must be followed by an identifier or index" place
| ba_group d ts s ts' message place :
    bad_at nodes ts message place -> bad_at nodes (STGroup span d ts s :: ts') message place
| ba_later ts body ts' message place :
    substituted nodes (plain ts) body -> bad_at nodes ts' message place -> bad_at nodes (ts ++ ts') message place.

(** What is wrong with a rule. *)
Inductive bad_rule (r : srule) : diag -> Prop :=
| br_reference ts s message place :
    sr_block span r = Some (Brace, ts, s) -> bad_at (sr_nodes span r) ts message place ->
    bad_rule r (mk_diag span message place)
| br_delimiter d ts place :
    sr_block span r = Some (d, ts, place) -> d <> Brace ->
    bad_rule r (mk_diag span "Constructor must be delimited by ""{}""" place)
| br_missing ty :
    sr_block span r = None -> sr_type span r = Some ty -> length (sr_nodes span r) <> 1 ->
    bad_rule r (mk_diag span "Must provide a constructor for rules with more than 1 node" (sr_span span r)).

(** Terminals that stand for tokens themselves must be literals; these errors
    have no place of their own. *)
Inductive bad_terminal (literal_ok : string -> bool) (s : user_symbol) : diag -> Prop :=
| bt_pattern : sparen s <> PGNone ->
    bad_terminal literal_ok s (mk_diag span "Cannot cast UserDefinedSymbol with pattern to literal" call_site)
| bt_literal : sparen s = PGNone -> literal_ok (sname s) = false ->
    bad_terminal literal_ok s (mk_diag span (lex_error (sname s)) call_site).

(** The errors there are to report. *)
Inductive reportable {bm : BuildMode} (literal_ok : string -> bool) (gi : grammar_info) (rules : list srule) : diag -> Prop :=
| rp_rule i r d : used_rule gi i -> nth_error rules i = Some r -> bad_rule r d -> reportable literal_ok gi rules d
| rp_terminal t ty d : used_terminal gi t -> gi_terminal_type gi = TTRaw ty -> bad_terminal literal_ok t d ->
    reportable literal_ok gi rules d.

End Spans.
