(** Model of parser_generator_impl/src/annotated_grammar: parsing the input of
    [grammar!]. *)
From Coq Require Import Arith Bool String Ascii List.
From Verif Require Import Base.Prelude Spec.Grammar Model.Error Model.IndexedGrammar Model.LRTable.
From Verif Require Import Model.TokenTree Model.Terminal Model.Constructor Model.CodeGen Model.Symbol.
Import ListNotations.

(** terminal.rs:22-41 *)
Definition is_wildcard (tokens : list ttree) : bool :=
  match tokens with
  | [] => false
  | first_token :: rest =>
      if is_punct first_token "." Joint then
        match rest with
        | [next_token] => is_punct next_token "." Alone
        | _ => false
        end
      else if is_punct first_token "_" Alone then
        match rest with [] => true | _ => false end
      else false
  end.

(** production_ref.rs:28-49; metadata, used for error messages only, is omitted
    here and below. *)
Definition production_ref_parse (s : stream) : outcome front_error (string * stream) :=
  '(_, s) <- expect_symbol_with s (fun x => is_op x BeginProd) ExpectedBeginProd ;;
  '(prod_name_sym, s) <- expect_symbol s ;;
  name <- match sym_type prod_name_sym with
          | SIdent ident => Ok ident
          | _ => Err ExpectedProductionName
          end ;;
  '(_, s) <- expect_symbol_with s (fun x => is_op x EndProd) ExpectedEndProd ;;
  Ok (name, s).

Section FrontEnd.
Context {bm : BuildMode}.
(** [TokenStream::to_string], as a function of the tokens. *)
Variable print : list ttree -> string.

(** terminal.rs:203-223 *)
Definition parse_ident (ident_name : string) (s : stream) : outcome front_error (pnode * stream) :=
  '(next_token, s') <- peek_expect_symbol s ;;
  match sym_type next_token with
  | SParen pattern =>
      if is_wildcard pattern then Ok (PNSymbol (mk_symbol ident_name PGWildcard), s')
      else Ok (PNSymbol (mk_symbol ident_name (PGPattern (print pattern))), s')
  | _ => Ok (PNSymbol (mk_symbol ident_name PGNone), s)
  end.

(** terminal.rs:225-236 *)
Definition terminal_parse (s : stream) : outcome front_error (pnode * stream) :=
  '(next_token, s) <- expect_symbol s ;;
  match sym_type next_token with
  | SLiteral text => Ok (PNSymbol (mk_symbol text PGNone), s)
  | SIdent ident => parse_ident ident s
  | SOp Bang => Ok (PNEpsilon, s)
  | _ => Err UnexpectedToken
  end.

(** production_node.rs:44-50 *)
Definition production_node_parse (s : stream) : outcome front_error (pnode * stream) :=
  '(next_token, _) <- peek_expect_symbol s ;;
  match sym_type next_token with
  | SOp BeginProd => '(name, s) <- production_ref_parse s ;; Ok (PNProduction name, s)
  | _ => terminal_parse s
  end.

(** production_rule.rs:15-23 *)
Definition maybe_parse_return_type (s : stream) : outcome front_error (option (list ttree) * stream) :=
  '(next_symbol, s') <- peek_expect_symbol s ;;
  match sym_type next_symbol with
  | SOp Colon => '(ty, s) <- type_parse s' ;; Ok (Some ty, s)
  | _ => Ok (None, s)
  end.

(** production_rule.rs:85-101; every pass takes a symbol, [fuel] bounds the
    number of passes. *)
Fixpoint rule_loop (fuel : nat) (rule : list pnode) (s : stream)
  : outcome front_error (list pnode * option (delimiter * list ttree) * stream) :=
  match fuel with
  | O => Diverge
  | S fuel' =>
      '(next_symbol, s') <- peek_expect_symbol s ;;
      match sym_type next_symbol with
      | SOp Semicolon | SOp Pipe => Ok (rule, None, s)
      | SGroup d ts => Ok (rule, Some (d, ts), s')
      | _ =>
          '(node, s) <- production_node_parse s ;;
          rule_loop fuel' (rule ++ [node]) s
      end
  end.

(** production_rule.rs:75-120 *)
Definition parse_rule (s : stream) (name : string) (return_type : option (list ttree))
  : outcome front_error (prule * stream) :=
  '(first_node, s) <- production_node_parse s ;;
  '(rule, block, s) <- rule_loop (S (List.length s)) [first_node] s ;;
  if (1 <? List.length rule) && existsb pnode_is_epsilon rule then Err EpsilonNotAlone
  else Ok (mk_prule name return_type rule block, s).

(** label_type_map.rs:7-13 with type_symbol.rs:41-43 *)
Definition types_equal (t1 t2 : option (list ttree)) : bool :=
  match t1, t2 with
  | Some t1, Some t2 => String.eqb (print t1) (print t2)
  | None, None => true
  | _, _ => false
  end.

(** label_type_map.rs:15-18 *)
Definition label_type_map := hash_map string (option (list ttree)).

(** label_type_map.rs:29-55 *)
Definition label_types_add (m : label_type_map) (label : string) (label_type : option (list ttree))
  : outcome front_error label_type_map :=
  match hm_get label m with
  | Some existing =>
      if negb (types_equal existing label_type) then
        match label_type, existing with
        | None, None => Panic "LabelTypeMap::add: both label_type and existing `None` unexpectedly"
        | _, _ => Err DifferentReturnTypes
        end
      else Ok m
  | None => Ok (hm_insert_vacant label label_type m)
  end.

(** production_rule.rs:139-151; [fuel] as above. *)
Fixpoint alternatives (fuel : nat) (name : string) (return_type : option (list ttree)) (rules : list prule) (s : stream)
  : outcome front_error (list prule * stream) :=
  match fuel with
  | O => Diverge
  | S fuel' =>
      '(next_symbol, s) <- expect_symbol s ;;
      match sym_type next_symbol with
      | SOp Pipe =>
          '(rule, s) <- parse_rule s name return_type ;;
          alternatives fuel' name return_type (rules ++ [rule]) s
      | SOp Semicolon => Ok (rules, s)
      | _ => Err ExpectedSemicolonOrPipe
      end
  end.

(** production_rule.rs:122-154 *)
Definition production_rule_parse (s : stream) (label_map : label_type_map)
  : outcome front_error (list prule * label_type_map * stream) :=
  '(name, s) <- production_ref_parse s ;;
  '(return_type, s) <- maybe_parse_return_type s ;;
  label_map <- label_types_add label_map name return_type ;;
  '(_, s) <- expect_symbol_with s (fun x => is_op x Arrow) ExpectedArrow ;;
  '(first_rule, s) <- parse_rule s name return_type ;;
  '(rules, s) <- alternatives (S (List.length s)) name return_type [first_rule] s ;;
  Ok (rules, label_map, s).

(** parse_grammar.rs:27-51 *)
Definition parse_option_remainder {T} (s : stream) (option_name : string)
  (value_parser : stream -> outcome front_error (T * stream)) : outcome front_error (T * stream) :=
  '(_, s) <- expect_symbol_with s (fun x => is_op x Colon) (ExpectedColon option_name) ;;
  '(value, s) <- value_parser s ;;
  '(_, s) <- expect_symbol_with s (fun x => is_op x Semicolon) (ExpectedSemicolon option_name) ;;
  Ok (value, s).

(** parse_grammar.rs:54-69 *)
Definition parse_option {T} (s : stream) (option_name : string)
  (value_parser : stream -> outcome front_error (T * stream)) : outcome front_error (T * stream) :=
  '(_, s) <- expect_symbol_with s (fun x => is_identifier_with_name x option_name) (ExpectedKeyword option_name) ;;
  parse_option_remainder s option_name value_parser.

(** parse_grammar.rs:172-175 *)
Definition parse_name (s : stream) : outcome front_error (string * stream) := parse_option s "name" ident_parse.

(** parse_grammar.rs:177-204 *)
Definition parse_terminal_symbol_type (s : stream) : outcome front_error (terminal_type * stream) :=
  '(next, s) <- expect_symbol s ;;
  if is_identifier_with_name (sym_type next) "terminal" then
    parse_option_remainder s "terminal" (fun s => '(ty, s) <- type_parse s ;; Ok (TTRaw ty, s))
  else if is_identifier_with_name (sym_type next) "enum_terminal" then
    parse_option_remainder s "enum_terminal" (fun s => '(ty, s) <- type_parse s ;; Ok (TTEnum ty, s))
  else Err ExpectedTerminalOption.

(** parse_grammar.rs:206-223; [None] for [ErrorType::None]. *)
Definition maybe_parse_error_type (s : stream) : outcome front_error (option (list ttree) * stream) :=
  '(next, s') <- peek_expect_symbol s ;;
  if negb (is_identifier_with_name (sym_type next) "error_type") then Ok (None, s)
  else parse_option_remainder s' "error_type" (fun s => '(ty, s) <- type_parse s ;; Ok (Some ty, s)).

(** parse_grammar.rs:232-235; [fuel] as above. *)
Fixpoint rules_loop (fuel : nat) (label_types : label_type_map) (production_rules : list prule) (s : stream)
  : outcome front_error (label_type_map * list prule) :=
  match fuel with
  | O => Diverge
  | S fuel' =>
      match s with
      | [] => Ok (label_types, production_rules)
      | _ =>
          '(rules, label_types, s) <- production_rule_parse s label_types ;;
          rules_loop fuel' label_types (production_rules ++ rules) s
      end
  end.

(** parse_grammar.rs:225-235: what is read before the grammar is built. *)
Record declarations := mk_declarations {
  d_name : string;
  d_terminal_type : terminal_type;
  d_error_type : option (list ttree);
  d_label_types : label_type_map;
  d_rules : list prule;
}.

Definition parse_declarations (s : stream) : outcome front_error declarations :=
  '(name, s) <- parse_name s ;;
  '(terminal_type, s) <- parse_terminal_symbol_type s ;;
  '(error_type, s) <- maybe_parse_error_type s ;;
  '(label_types, production_rules) <- rules_loop (S (List.length s)) [] [] s ;;
  Ok (mk_declarations name terminal_type error_type label_types production_rules).

(** An error of crate lr_table becomes one of the front end's. *)
Definition lift_lr {A} (m : outcome (lr_error user_symbol string) A) : outcome front_error A :=
  match m with
  | Ok a => Ok a
  | Err e => Err (GrammarError e)
  | Panic why => Panic why
  | Diverge => Diverge
  end.

(** parse_grammar.rs:225-260; the [fuel] is that of the loops in lr_table.  The
    name and the error type are returned beside the rest of [GrammarInfo]. *)
Definition parse_grammar (fuel : nat) (s : stream) : outcome front_error (string * option (list ttree) * grammar_info) :=
  d <- parse_declarations s ;;
  let grammar := map to_lr_production_rule (d_rules d) in
  indexed_grammar <- lift_lr (indexed_build fuel grammar) ;;
  lr_table <- lift_lr (table_build indexed_grammar fuel) ;;
  Ok (d_name d, d_error_type d,
      mk_grammar_info (d_terminal_type d) (d_label_types d) (d_rules d) indexed_grammar lr_table).

(** What [grammar!] reports. *)
Inductive macro_error :=
| FrontError (e : front_error)
| CodeGenError (e : gen_error).

Definition map_err {E F A} (f : E -> F) (m : outcome E A) : outcome F A :=
  match m with
  | Ok a => Ok a
  | Err e => Err (f e)
  | Panic why => Panic why
  | Diverge => Diverge
  end.

(** lib.rs:28-36 *)
Definition build_grammar (literal_ok : string -> bool) (ho : hash_orders) (fuel : nat) (tokens : list ttree)
  : outcome macro_error program :=
  '(_, _, grammar_info) <- map_err FrontError (parse_grammar fuel (tokenize_from_stream tokens)) ;;
  map_err CodeGenError (generate_parser literal_ok ho grammar_info).

End FrontEnd.
