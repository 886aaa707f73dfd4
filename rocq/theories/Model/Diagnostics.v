(** Model of what [grammar!] reports to its user: the front end once more (see
    Model/Symbol.v and Model/FrontEnd.v), with the spans of tokens and the texts of
    messages.  Functions that read tokens have the prefix [sp_]. *)
From Coq Require Import Arith Bool String Ascii List.
From Verif Require Import Base.Prelude Spec.Grammar Model.Error Model.IndexedGrammar Model.LRTable.
From Verif Require Import Model.TokenTree Model.Terminal Model.Constructor Model.CodeGen Model.Symbol Model.FrontEnd.
From Verif Require Import Model.ErrorText.
Import ListNotations.
Open Scope string_scope.
Open Scope list_scope.

Section Spans.
(** proc_macro2::Span, with [Span::call_site] and [Span::join]. *)
Variable span : Type.
Variable call_site : span.
Variable join_spans : span -> span -> option span.

(** proc_macro2::TokenTree with spans.  The span of a group is from its opening
    to its closing delimiter. *)
Inductive stree :=
| STGroup (d : delimiter) (ts : list stree) (sp : span)
| STPunct (c : ascii) (s : spacing) (sp : span)
| STIdent (name : string) (sp : span)
| STLiteral (text : string) (sp : span).

(** TokenTree::span *)
Definition st_span (t : stree) : span :=
  match t with
  | STGroup _ _ sp | STPunct _ _ sp | STIdent _ sp | STLiteral _ sp => sp
  end.

(** The token without spans, as in Model/TokenTree.v. *)
Fixpoint st_tree (t : stree) : ttree :=
  match t with
  | STGroup d ts _ => TGroup d (map st_tree ts)
  | STPunct c s _ => TPunct c s
  | STIdent name _ => TIdent name
  | STLiteral text _ => TLiteral text
  end.

(** A token of the input, with [Group::span_open] if it is a group. *)
Record token := mk_token { tk_with : stree; tk_open : span }.
Definition tk_tree (t : token) : ttree := st_tree (tk_with t).
Definition tk_span (t : token) : span := st_span (tk_with t).

(** error.rs:9-13 [ParserGeneratorError] *)
Record diag := mk_diag { dg_message : string; dg_span : span }.

(** error.rs:48-61 *)
Definition intercept {A} (note : string) (m : outcome diag A) : outcome diag A :=
  map_err (fun err => mk_diag (dg_message err ++ ": " ++ note) (dg_span err)) m.

(** symbol.rs:18-22 *)
Record meta := mk_meta { mt_span : span; mt_tokens : list ttree }.

(** symbol.rs:40-45 *)
Definition merge (m other : meta) : meta :=
  mk_meta (match join_spans (mt_span m) (mt_span other) with Some s => s | None => mt_span m end)
          (mt_tokens m ++ mt_tokens other).

(** symbol.rs:47-49 *)
Definition make_err {A} (m : meta) (message : string) : outcome diag A := Err (mk_diag message (mt_span m)).

(** symbol.rs:127-131; [at_inside] has the tokens in a block, with their spans. *)
Record symbol_at := mk_at { at_kind : symbol_t; at_inside : list stree; at_meta : meta }.
Definition at_type (x : symbol_at) : symbol_t :=
  match at_kind x with
  | SGroup d _ => SGroup d (map st_tree (at_inside x))
  | k => k
  end.

(** symbol.rs:146-162 *)
Definition sp_from_group (d : delimiter) (ts : list ttree) (t : token) : outcome diag symbol_at :=
  let meta := mk_meta (tk_span t) [tk_tree t] in
  match d with
  | Brace => Ok (mk_at (SGroup d ts) (match tk_with t with STGroup _ inside _ => inside | _ => [] end) meta)
  | Parenthesis => Ok (mk_at (SParen ts) [] meta)
  | Bracket => Ok (mk_at (SArray ts) [] meta)
  | NoDelimiter => Err (mk_diag "Group without delimiter" (tk_open t))
  end.

(** symbol.rs:164-184 *)
Definition sp_from_ident (name : string) (t : token) : outcome diag symbol_at :=
  if string_is_identifier name then Ok (mk_at (SIdent name) [] (mk_meta (tk_span t) [tk_tree t]))
  else Err (mk_diag ("Identifier " ++ quoted name ++ " is not alphanumeric/_ with a non-numeric leading character")
              (tk_span t)).

(** symbol.rs:186-203 *)
Definition sp_from_literal (text : string) (t : token) : outcome diag symbol_at :=
  let meta := mk_meta (tk_span t) [tk_tree t] in
  if prefix "'" text then Ok (mk_at (SLiteral text) [] meta)
  else if string_is_identifier text then Ok (mk_at (SIdent text) [] meta)
  else make_err meta ("Unrecognized literal: " ++ text).

(** symbol.rs:226-232 *)
Inductive sp_punct_builder :=
| SpEmpty
| SpPrevWasEq (prev_meta : meta)
| SpPrevWasColon (other_meta : meta).

Definition unexpected_token (s : string) : string := "Unexpected token " ++ quoted s.

(** symbol.rs:234-292.  The state is not changed by an error. *)
Definition sp_consume_next (b : sp_punct_builder) (c : ascii) (sp : spacing) (t : token)
  : sp_punct_builder * outcome diag (option symbol_at) :=
  let meta := mk_meta (tk_span t) [tk_tree t] in
  let as_punctuation op := (b, Ok (Some (mk_at (SOp op) [] meta))) in
  match b with
  | SpEmpty =>
      if eqb c ";"%char then as_punctuation Semicolon
      else if eqb c "#"%char then as_punctuation NumberSign
      else if eqb c "<"%char then as_punctuation BeginProd
      else if eqb c ">"%char then as_punctuation EndProd
      else if eqb c "|"%char then as_punctuation Pipe
      else if eqb c "!"%char then as_punctuation Bang
      else if eqb c "="%char then
        match sp with
        | Joint => (SpPrevWasEq meta, Ok None)
        | Alone => (b, make_err meta (unexpected_token "="))
        end
      else if eqb c ":"%char then
        match sp with
        | Joint => (SpPrevWasColon meta, Ok None)
        | Alone => as_punctuation Colon
        end
      else (b, make_err meta (unexpected_token (String c "")))
  | SpPrevWasEq prev_meta =>
      if eqb c ">"%char then (SpEmpty, Ok (Some (mk_at (SOp Arrow) [] (merge prev_meta meta))))
      else (b, make_err meta (unexpected_token (String "=" (String c ""))))
  | SpPrevWasColon other_meta =>
      if eqb c ":"%char then (SpEmpty, Ok (Some (mk_at (SOp Scope) [] (merge other_meta meta))))
      else (b, make_err meta (unexpected_token (String ":" (String c ""))))
  end.

(** symbol.rs:294-308 *)
Definition sp_consume_next_token (b : sp_punct_builder) (t : token)
  : sp_punct_builder * outcome diag (option symbol_at) :=
  match tk_tree t with
  | TGroup d ts => (b, s <- sp_from_group d ts t ;; Ok (Some s))
  | TIdent name => (b, s <- sp_from_ident name t ;; Ok (Some s))
  | TLiteral text => (b, s <- sp_from_literal text t ;; Ok (Some s))
  | TPunct c sp => sp_consume_next b c sp t
  end.

(** The items of an [Iterator<Item = ParserGeneratorResult<Symbol>>]. *)
Definition items := list (symbol_at + diag).

(** symbol.rs:310-319, computed at once. *)
Fixpoint sp_tokenize (b : sp_punct_builder) (tokens : list token) : items :=
  match tokens with
  | [] => []
  | t :: tokens' =>
      let '(b', r) := sp_consume_next_token b t in
      match r with
      | Ok (Some s) => inl s :: sp_tokenize b' tokens'
      | Err e => inr e :: sp_tokenize b' tokens'
      | _ => sp_tokenize b' tokens'
      end
  end.
Definition sp_tokenize_from_stream (tokens : list token) : items := sp_tokenize SpEmpty tokens.

(** symbol_stream.rs:20-23 *)
Record sp_stream := mk_stream { ss_iter : items; ss_current_span : option span }.

(** symbol_stream.rs:26-31 *)
Definition stream_new (iter : items) : sp_stream := mk_stream iter None.

(** The error of [expect_symbol] and [peek_expect_symbol]. *)
Definition end_of_input {A} (s : sp_stream) : outcome diag A :=
  Err (mk_diag "Unexpected end of input" (match ss_current_span s with Some sp => sp | None => call_site end)).

(** symbol_stream.rs:41-53; the current span is not changed. *)
Definition sp_expect_symbol (s : sp_stream) : outcome diag (symbol_at * sp_stream) :=
  match ss_iter s with
  | [] => end_of_input s
  | inl x :: iter => Ok (x, mk_stream iter (ss_current_span s))
  | inr e :: _ => Err e
  end.

(** symbol_stream.rs:55-66 with 77-85 and 97-116: the symbol of the proxy, and
    the stream after [take] (68-75). *)
Definition sp_peek_expect_symbol (s : sp_stream) : outcome diag (symbol_at * sp_stream) :=
  match ss_iter s with
  | [] => end_of_input s
  | inl x :: iter => Ok (x, mk_stream iter (Some (mt_span (at_meta x))))
  | inr e :: _ => Err e
  end.

(** annotated_grammar/util.rs:7-21 *)
Definition sp_expect_symbol_with (s : sp_stream) (cmp : symbol_t -> bool) (message : string)
  : outcome diag (meta * sp_stream) :=
  '(x, s) <- sp_expect_symbol s ;;
  if cmp (at_type x) then Ok (at_meta x, s) else make_err (at_meta x) message.

(** type_symbol.rs:24-36; [fuel] bounds the number of passes, each of which
    takes a symbol. *)
Fixpoint sp_type_rest (fuel : nat) (m : meta) (s : sp_stream) : outcome diag (meta * sp_stream) :=
  match fuel with
  | O => Diverge
  | S fuel' =>
      '(x, s') <- intercept "expected type" (sp_peek_expect_symbol s) ;;
      if is_op (at_type x) Arrow || is_op (at_type x) Semicolon then Ok (m, s)
      else sp_type_rest fuel' (merge m (at_meta x)) s'
  end.

(** type_symbol.rs:16-39; a [Type] is its [SymbolMeta]. *)
Definition sp_type_parse (s : sp_stream) : outcome diag (meta * sp_stream) :=
  '(first_sym, s) <- sp_expect_symbol s ;;
  sp_type_rest (S (List.length (ss_iter s))) (at_meta first_sym) s.

(** ident.rs:25-34 *)
Definition sp_ident_parse (s : sp_stream) : outcome diag (string * sp_stream) :=
  '(x, s) <- sp_expect_symbol s ;;
  match at_type x with
  | SIdent name => Ok (name, s)
  | _ => make_err (at_meta x) "Expected identifier"
  end.

(** production_ref.rs:28-49 *)
Definition sp_production_ref_parse (s : sp_stream) : outcome diag (string * meta * sp_stream) :=
  '(m, s) <- sp_expect_symbol_with s (fun x => is_op x BeginProd) "Expected production name to begin with '<'." ;;
  '(prod_name_sym, s) <- sp_expect_symbol s ;;
  name <- match at_type prod_name_sym with
          | SIdent ident => Ok ident
          | _ => make_err (at_meta prod_name_sym) "Expected production name."
          end ;;
  '(end_meta, s) <- sp_expect_symbol_with s (fun x => is_op x EndProd) "Expected production name to end with '>'." ;;
  Ok (name, merge m end_meta, s).

(** [TokenStream::to_string], as a function of the tokens. *)
Variable print : list ttree -> string.

(** A [ProductionNode] and its metadata. *)
Definition node_at := (pnode * meta)%type.

(** terminal.rs:203-223 *)
Definition sp_parse_ident (ident_name : string) (m : meta) (s : sp_stream) : outcome diag (node_at * sp_stream) :=
  '(next_token, s') <- sp_peek_expect_symbol s ;;
  match at_type next_token with
  | SParen pattern =>
      if is_wildcard pattern then Ok (PNSymbol (mk_symbol ident_name PGWildcard), m, s')
      else Ok (PNSymbol (mk_symbol ident_name (PGPattern (print pattern))), m, s')
  | _ => Ok (PNSymbol (mk_symbol ident_name PGNone), m, s)
  end.

(** terminal.rs:225-236 *)
Definition sp_terminal_parse (s : sp_stream) : outcome diag (node_at * sp_stream) :=
  '(next_token, s) <- sp_expect_symbol s ;;
  match at_type next_token with
  | SLiteral text => Ok (PNSymbol (mk_symbol text PGNone), at_meta next_token, s)
  | SIdent ident => sp_parse_ident ident (at_meta next_token) s
  | SOp Bang => Ok (PNEpsilon, at_meta next_token, s)
  | _ => make_err (at_meta next_token) "Unexpected token"
  end.

(** production_node.rs:44-50 with 16-22 *)
Definition sp_production_node_parse (s : sp_stream) : outcome diag (node_at * sp_stream) :=
  '(next_token, _) <- sp_peek_expect_symbol s ;;
  match at_type next_token with
  | SOp BeginProd => '(name, m, s) <- sp_production_ref_parse s ;; Ok (PNProduction name, m, s)
  | _ => sp_terminal_parse s
  end.

(** production_rule.rs:15-23 *)
Definition sp_maybe_parse_return_type (s : sp_stream) : outcome diag (option meta * sp_stream) :=
  '(next_symbol, s') <- sp_peek_expect_symbol s ;;
  match at_type next_symbol with
  | SOp Colon => '(ty, s) <- sp_type_parse s' ;; Ok (Some ty, s)
  | _ => Ok (None, s)
  end.

(** production_rule.rs:85-101; [fuel] as above. *)
Fixpoint sp_rule_loop (fuel : nat) (m : meta) (rule : list node_at) (s : sp_stream)
  : outcome diag (meta * list node_at * option (delimiter * list stree * span) * sp_stream) :=
  match fuel with
  | O => Diverge
  | S fuel' =>
      '(next_symbol, s') <- sp_peek_expect_symbol s ;;
      match at_type next_symbol with
      | SOp Semicolon | SOp Pipe => Ok (m, rule, None, s)
      | SGroup d _ => Ok (m, rule, Some (d, at_inside next_symbol, mt_span (at_meta next_symbol)), s')
      | _ =>
          '(node, s) <- sp_production_node_parse s ;;
          sp_rule_loop fuel' (merge m (snd node)) (rule ++ [node]) s
      end
  end.

(** production_rule.rs:41-47; the metadata of the nodes and of the rule. *)
Record rule_at := mk_rule_at {
  ra_name : string;
  ra_type : option (list ttree);
  ra_at : list node_at;
  ra_block : option (delimiter * list stree * span);
  ra_meta : meta;
}.
(** A block and a rule without spans, as in Model/Constructor.v. *)
Definition block_tree (b : delimiter * list stree * span) : delimiter * list ttree :=
  (fst (fst b), map st_tree (snd (fst b))).
Definition ra_rule (r : rule_at) : prule :=
  mk_prule (ra_name r) (ra_type r) (map fst (ra_at r)) (option_map block_tree (ra_block r)).

(** production_rule.rs:75-120 *)
Definition sp_parse_rule (s : sp_stream) (name : string) (return_type : option meta) : outcome diag (rule_at * sp_stream) :=
  '(first_node, s) <- sp_production_node_parse s ;;
  '(m, rule, block, s) <- sp_rule_loop (S (List.length (ss_iter s))) (snd first_node) [first_node] s ;;
  match find (fun node => pnode_is_epsilon (fst node)) rule with
  | Some epsilon =>
      if (1 <? List.length rule)%nat then make_err (snd epsilon) "Epsilon may only appear in a rule by itself"
      else Ok (mk_rule_at name (option_map mt_tokens return_type) rule block m, s)
  | None =>
      Ok (mk_rule_at name (option_map mt_tokens return_type) rule block m, s)
  end.

(** label_type_map.rs:15-18 *)
Definition sp_label_type_map := hash_map string (option meta).

(** label_type_map.rs:29-55 *)
Definition sp_label_types_add (m : sp_label_type_map) (label : string) (label_type : option meta)
  : outcome diag sp_label_type_map :=
  match hm_get label m with
  | Some existing =>
      if negb (types_equal print (option_map mt_tokens existing) (option_map mt_tokens label_type)) then
        match label_type, existing with
        | Some ty, _ | None, Some ty =>
            make_err ty "Production rules for the same label have different return types"
        | None, None => Panic "LabelTypeMap::add: both label_type and existing `None` unexpectedly"
        end
      else Ok m
  | None => Ok (hm_insert_vacant label label_type m)
  end.

(** production_rule.rs:139-151; [fuel] as above. *)
Fixpoint sp_alternatives (fuel : nat) (name : string) (return_type : option meta) (rules : list rule_at) (s : sp_stream)
  : outcome diag (list rule_at * sp_stream) :=
  match fuel with
  | O => Diverge
  | S fuel' =>
      '(next_symbol, s) <- sp_expect_symbol s ;;
      match at_type next_symbol with
      | SOp Pipe =>
          '(rule, s) <- sp_parse_rule s name return_type ;;
          sp_alternatives fuel' name return_type (rules ++ [rule]) s
      | SOp Semicolon => Ok (rules, s)
      | _ => make_err (at_meta next_symbol) "Expected either `;` or `|`"
      end
  end.

(** production_rule.rs:122-154 *)
Definition sp_production_rule_parse (s : sp_stream) (label_map : sp_label_type_map)
  : outcome diag (list rule_at * sp_label_type_map * sp_stream) :=
  '(name, _, s) <- sp_production_ref_parse s ;;
  '(return_type, s) <- sp_maybe_parse_return_type s ;;
  label_map <- sp_label_types_add label_map name return_type ;;
  '(_, s) <- sp_expect_symbol_with s (fun x => is_op x Arrow) "Expected `=>` to follow production name" ;;
  '(first_rule, s) <- sp_parse_rule s name return_type ;;
  '(rules, s) <- sp_alternatives (S (List.length (ss_iter s))) name return_type [first_rule] s ;;
  Ok (rules, label_map, s).

(** parse_grammar.rs:27-51 *)
Definition sp_parse_option_remainder {T} (s : sp_stream) (option_name : string)
  (value_parser : sp_stream -> outcome diag (T * sp_stream)) : outcome diag (T * sp_stream) :=
  '(_, s) <- sp_expect_symbol_with s (fun x => is_op x Colon)
               ("Expected "":"" to follow " ++ quoted option_name ++ " keyword.") ;;
  '(value, s) <- value_parser s ;;
  '(_, s) <- sp_expect_symbol_with s (fun x => is_op x Semicolon)
               ("Expected "";"" to follow " ++ quoted option_name ++ " value.") ;;
  Ok (value, s).

(** parse_grammar.rs:54-69 *)
Definition sp_parse_option {T} (s : sp_stream) (option_name : string)
  (value_parser : sp_stream -> outcome diag (T * sp_stream)) : outcome diag (T * sp_stream) :=
  '(_, s) <- sp_expect_symbol_with s (fun x => is_identifier_with_name x option_name)
               ("Expected " ++ quoted option_name ++ " keyword") ;;
  sp_parse_option_remainder s option_name value_parser.

(** parse_grammar.rs:172-175 *)
Definition sp_parse_name (s : sp_stream) : outcome diag (string * sp_stream) :=
  intercept """name: `MyName`;"" specifies the name the generated parser struct will be given"
    (sp_parse_option s "name" sp_ident_parse).

Definition expected_terminal_option : string := "Expected ""terminal"" or ""enum_terminal"" option".

(** parse_grammar.rs:177-204; the type's span is kept for no message. *)
Definition sp_parse_terminal_symbol_type (s : sp_stream) : outcome diag (terminal_type * sp_stream) :=
  '(next, s) <- intercept expected_terminal_option (sp_expect_symbol s) ;;
  if is_identifier_with_name (at_type next) "terminal" then
    intercept """terminal: `type`;"" specifies the `type` of tokens that this grammar will parse"
      (sp_parse_option_remainder s "terminal" (fun s => '(ty, s) <- sp_type_parse s ;; Ok (TTRaw (mt_tokens ty), s)))
  else if is_identifier_with_name (at_type next) "enum_terminal" then
    intercept """enum_terminal: `enum_type`;"" specifies the `enum_type` of tokens that this grammar will parse"
      (sp_parse_option_remainder s "enum_terminal"
         (fun s => '(ty, s) <- sp_type_parse s ;; Ok (TTEnum (mt_tokens ty), s)))
  else make_err (at_meta next) expected_terminal_option.

(** parse_grammar.rs:206-223; [None] for [ErrorType::None]. *)
Definition sp_maybe_parse_error_type (s : sp_stream) : outcome diag (option (list ttree) * sp_stream) :=
  '(next, s') <- intercept "Unexpected end of stream" (sp_peek_expect_symbol s) ;;
  if negb (is_identifier_with_name (at_type next) "error_type") then Ok (None, s)
  else
    intercept ("""error_type: `type`;"" specifies the `type` of errors that either the input stream " ++
               "and/or constructors may yield.")
      (sp_parse_option_remainder s' "error_type"
         (fun s => '(ty, s) <- sp_type_parse s ;; Ok (Some (mt_tokens ty), s))).

(** parse_grammar.rs:232-235; [fuel] as above. *)
Fixpoint sp_rules_loop (fuel : nat) (label_types : sp_label_type_map) (production_rules : list rule_at) (s : sp_stream)
  : outcome diag (sp_label_type_map * list rule_at) :=
  match fuel with
  | O => Diverge
  | S fuel' =>
      match ss_iter s with
      | [] => Ok (label_types, production_rules)
      | _ =>
          '(rules, label_types, s) <- sp_production_rule_parse s label_types ;;
          sp_rules_loop fuel' label_types (production_rules ++ rules) s
      end
  end.

(** parse_grammar.rs:225-235: what is read before the grammar is built. *)
Record declarations_at := mk_declarations_at {
  da_name : string;
  da_terminal_type : terminal_type;
  da_error_type : option (list ttree);
  da_label_types : sp_label_type_map;
  da_rules : list rule_at;
}.

Definition sp_parse_declarations (s : sp_stream) : outcome diag declarations_at :=
  '(name, s) <- sp_parse_name s ;;
  '(terminal_type, s) <- sp_parse_terminal_symbol_type s ;;
  '(error_type, s) <- sp_maybe_parse_error_type s ;;
  '(label_types, production_rules) <- sp_rules_loop (S (List.length (ss_iter s))) [] [] s ;;
  Ok (mk_declarations_at name terminal_type error_type label_types production_rules).

(** error.rs:23-25 with [Span::call_site], as in parse_grammar.rs:247, 249. *)
Definition from_lr_error {A} (m : outcome (lr_error user_symbol string) A) : outcome diag A :=
  map_err (fun e => mk_diag (show_lr_error show_user_symbol show_ref_name e) call_site) m.

(** parse_grammar.rs:237-259 *)
Definition sp_grammar_info {bm : BuildMode} (fuel : nat) (d : declarations_at) : outcome diag grammar_info :=
  let rules := map ra_rule (da_rules d) in
  let grammar := map to_lr_production_rule rules in
  indexed_grammar <- from_lr_error (indexed_build fuel grammar) ;;
  lr_table <- from_lr_error (table_build indexed_grammar fuel) ;;
  Ok (mk_grammar_info (da_terminal_type d)
        (map (fun '(l, ty) => (l, option_map mt_tokens ty)) (da_label_types d)) rules indexed_grammar lr_table).

(** parse_grammar.rs:225-260, as [parse_grammar] in Model/FrontEnd.v. *)
Definition sp_parse_grammar {bm : BuildMode} (fuel : nat) (s : sp_stream)
  : outcome diag (string * option (list ttree) * grammar_info) :=
  d <- sp_parse_declarations s ;;
  gi <- sp_grammar_info fuel d ;;
  Ok (da_name d, da_error_type d, gi).

End Spans.
