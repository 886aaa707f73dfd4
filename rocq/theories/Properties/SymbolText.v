(** The texts of operators, symbols and conflicts (C84).  [print] stands for
    [TokenStream::to_string]. *)
From Coq Require Import String Ascii List.
From Verif Require Import Base.Prelude Spec.Grammar Spec.Macro Spec.SymbolText Model.Error Model.TokenTree Model.Symbol.
From Verif Require Import Model.LRTable Model.ParseSimulator Model.Terminal Model.Constructor Model.CodeGen Model.FrontEnd Model.ErrorText Model.SymbolText Spec.Values.
From Verif Require Import Proofs.GenExamples Proofs.MacroExamples Proofs.SymbolText.
Import ListNotations.
Open Scope string_scope.

(** The text of an operator is what it is written with. *)
Theorem C84_operators_as_written :
  forall op ts, symbol_tokens (SOp op) ts -> show_operator op = spelled ts.
Proof. exact operator_spelled. Qed.
Print Assumptions C84_operators_as_written.

Theorem C84_operators_told :
  forall op op', show_operator op = show_operator op' -> op = op'.
Proof. exact operator_told. Qed.
Print Assumptions C84_operators_told.

(** Symbols have the same text just if they are the same, as far as the texts of the
    tokens in groups tell. *)
Theorem C84_symbols_told :
  forall print x y, show_symbol print x = show_symbol print y <-> same_symbol print x y.
Proof. exact symbol_told. Qed.
Print Assumptions C84_symbols_told.

(** In full, "the text of tokens between delimiters is that of the tokens, between the
    delimiters" is false: groups in braces are shown in two pairs of braces; ... *)
Theorem C84_groups_refuted :
  forall print, prints_braces print -> exists x o ts c, between x = Some (o, ts, c) /\ (exists tokens, symbol_tokens x tokens) /\
  show_symbol print x <> String o (print ts ++ String c "").
Proof. exact braces_refuted. Qed.
Print Assumptions C84_groups_refuted.

(** ... it is true of parentheses and brackets. *)
Theorem C84_groups_partial :
  forall print x o ts c, (forall d ts', x <> SGroup d ts') -> between x = Some (o, ts, c) ->
  show_symbol print x = String o (print ts ++ String c "").
Proof. exact others_between. Qed.
Print Assumptions C84_groups_partial.

(** In full, "the text of a conflict tells which conflict it is" is false: a token whose
    text is a dollar sign looks like the end of the stream, ... *)
Theorem C84_conflicts_refuted :
  forall bm : BuildMode, exists (g g' : Spec.Grammar.grammar string string) e e',
  parser_new 50 g = Err e /\ parser_new 50 g' = Err e' /\
  conflict_at e = Some (Token "$") /\ conflict_at e' = Some EndOfStream /\
  forall show_label, show_lr_error (fun t => t) show_label e = show_lr_error (fun t => t) show_label e'.
Proof. exact dollar_or_end. Qed.
Print Assumptions C84_conflicts_refuted.

(** ... it is true if tokens have texts of their own.  No other error has the text of a
    conflict. *)
Theorem C84_conflicts_partial :
  forall (T L : Type) (show_token : T -> string) (show_label : L -> string) (e e' : lr_error T L),
  told_apart show_token -> conflict_at e <> None ->
  show_lr_error show_token show_label e = show_lr_error show_token show_label e' -> e = e'.
Proof. exact (fun T L show_token show_label e e' => @conflict_told T L show_token show_label e e'). Qed.
Print Assumptions C84_conflicts_partial.

(** The token of a conflict is one of the grammar. *)
Theorem C84_conflict_token :
  forall (bm : BuildMode) (T L : Type) (dT : EqDec T) (dL : EqDec L) fuel (g : Spec.Grammar.grammar T L) e t,
  parser_new fuel g = Err e -> conflict_at e = Some (Token t) ->
  exists r, In r g /\ In (Terminal (Token t)) (rhs r).
Proof. exact (fun bm T L dT dL fuel g e t => @conflict_occurs T L g bm dT dL fuel e t). Qed.
Print Assumptions C84_conflict_token.

(** The terminals of [grammar!] have texts of their own, unless a pattern is printed as
    the wildcard is; so that what it says of a conflict tells which it is. *)
Theorem C84_macro_conflicts_partial :
  forall (bm : BuildMode) print ts ts' d d' fuel fuel' (show_label : string -> string) (e e' : lr_error user_symbol string),
  reads_as print ts d -> reads_as print ts' d' ->
  (forall n pat, terminal_in (d_rules d) (mk_symbol n (PGPattern pat)) \/ terminal_in (d_rules d') (mk_symbol n (PGPattern pat)) -> pat <> "..") ->
  parse_grammar print fuel (tokenize_from_stream ts) = Err (GrammarError e) -> parse_grammar print fuel' (tokenize_from_stream ts') = Err (GrammarError e') ->
  conflict_at e <> None -> show_lr_error show_user_symbol show_label e = show_lr_error show_user_symbol show_label e' -> e = e'.
Proof. exact (fun bm print ts ts' d d' fuel fuel' show_label e e' => @macro_conflict_told bm print ts ts' d d' fuel fuel' show_label e e'). Qed.
Print Assumptions C84_macro_conflicts_partial.

Example C84_macro_example : forall bm : BuildMode, exists d e, reads_as show doubtful_input d /\
  (forall n pat, terminal_in (d_rules d) (mk_symbol n (PGPattern pat)) -> pat <> "..") /\
  parser_new 50 (source (d_rules d)) = Err e /\ parse_grammar show 50 (tokenize_from_stream doubtful_input) = Err (GrammarError e) /\
  conflict_at e = Some (Token (mk_symbol "Plus" PGNone)) /\
  show_lr_error show_user_symbol (fun l => l) e = "Reduce conflict between rule RuleId(4) and rule RuleId(3) with lookahead Plus".
Proof. exact doubtful_conflict. Qed.

Example C84_example :
  map (show_symbol plain_text) [SOp Arrow; SIdent "A"; SLiteral "'\n'"; SLiteral "'""'"; SParen [TIdent "x"; TPunct "," Alone]; SGroup Brace [TIdent "x"]] =
    ["Arrow"; "<A>"; """'\\n'"""; """'\""'"""; "(x,)"; "{{x}}"] /\
  prints_braces plain_text /\ symbol_tokens (SOp Arrow) [TPunct "=" Joint; TPunct ">" Alone] /\ show_operator Arrow = "=>" /\
  told_apart bit_text /\ conflict_at (T := bool) (L := string) (ReduceConflict 3 12 (Token true)) <> None /\
  show_lr_error bit_text (fun l : string => l) (ReduceConflict 3 12 (Token true)) =
    "Reduce conflict between rule RuleId(3) and rule RuleId(12) with lookahead one".
Proof. exact text_examples. Qed.
