(** Model of parser_generator_impl/src/symbol.rs and symbol_stream.rs.  Spans are
    omitted, and so are texts of error messages: an error tells what was wrong. *)
From Coq Require Import Arith Bool String Ascii List.
From Verif Require Import Base.Prelude Spec.Grammar Model.Error Model.TokenTree Model.Terminal.
Import ListNotations.

(** What the front end reports ([ParserGeneratorError]), one constructor for each
    place that makes an error.  Notes added by [intercept] are omitted. *)
Inductive front_error :=
| GroupWithoutDelimiter                     (* symbol.rs:153-158            *)
| BadIdentifier (ident : string)            (* symbol.rs:164-176            *)
| UnrecognizedLiteral (literal : string)    (* symbol.rs:201                *)
| UnexpectedPunct (c : ascii)               (* symbol.rs:255, 265           *)
| UnexpectedAfterEq (c : ascii)             (* symbol.rs:276                *)
| UnexpectedAfterColon (c : ascii)          (* symbol.rs:287                *)
| UnexpectedEnd                             (* symbol_stream.rs:46-51, 59-64 *)
| ExpectedIdentifier                        (* ident.rs:32                  *)
| ExpectedKeyword (option_name : string)    (* parse_grammar.rs:63-67       *)
| ExpectedColon (option_name : string)      (* parse_grammar.rs:36-40       *)
| ExpectedSemicolon (option_name : string)  (* parse_grammar.rs:44-48       *)
| ExpectedTerminalOption                    (* parse_grammar.rs:198-202     *)
| ExpectedBeginProd                         (* production_ref.rs:29-33      *)
| ExpectedProductionName                    (* production_ref.rs:38         *)
| ExpectedEndProd                           (* production_ref.rs:41-45      *)
| ExpectedArrow                             (* production_rule.rs:131-135   *)
| ExpectedSemicolonOrPipe                   (* production_rule.rs:146       *)
| EpsilonNotAlone                           (* production_rule.rs:105-109   *)
| UnexpectedToken                           (* terminal.rs:234              *)
| DifferentReturnTypes                      (* label_type_map.rs:39-45      *)
| GrammarError (e : lr_error user_symbol string).  (* parse_grammar.rs:245-248 *)

(** symbol.rs:52-72 *)
Inductive operator :=
| Arrow | Colon | Semicolon | NumberSign | BeginProd | EndProd | Pipe | Scope | Bang.

#[global] Instance EqDec_operator : EqDec operator.
Proof. intros x y; decide equality. Defined.

(** symbol.rs:93-109; a [Group] has braces. *)
Inductive symbol_t :=
| SOp (op : operator)
| SIdent (name : string)
| SLiteral (text : string)
| SGroup (d : delimiter) (ts : list ttree)
| SParen (ts : list ttree)
| SArray (ts : list ttree).

(** symbol.rs:18-22 [SymbolMeta] (its tokens) and 127-131 [Symbol] *)
Record sym := mk_sym { sym_type : symbol_t; sym_meta : list ttree }.

(** symbol.rs:112-117 *)
Definition is_op (s : symbol_t) (expected_op : operator) : bool :=
  match s with SOp op => eqb op expected_op | _ => false end.

(** symbol.rs:119-124 *)
Definition is_identifier_with_name (s : symbol_t) (expected_name : string) : bool :=
  match s with SIdent name => String.eqb name expected_name | _ => false end.

(** symbol.rs:146-162 *)
Definition from_group (d : delimiter) (ts : list ttree) : outcome front_error sym :=
  let meta := [TGroup d ts] in
  match d with
  | Brace => Ok (mk_sym (SGroup d ts) meta)
  | Parenthesis => Ok (mk_sym (SParen ts) meta)
  | Bracket => Ok (mk_sym (SArray ts) meta)
  | NoDelimiter => Err GroupWithoutDelimiter
  end.

(** symbol.rs:164-184 *)
Definition from_ident (name : string) : outcome front_error sym :=
  if string_is_identifier name then Ok (mk_sym (SIdent name) [TIdent name])
  else Err (BadIdentifier name).

(** symbol.rs:186-203 *)
Definition from_literal (text : string) : outcome front_error sym :=
  let meta := [TLiteral text] in
  if prefix "'" text then Ok (mk_sym (SLiteral text) meta)
  else if string_is_identifier text then Ok (mk_sym (SIdent text) meta)
  else Err (UnrecognizedLiteral text).

(** symbol.rs:226-232 *)
Inductive punct_builder :=
| PBEmpty
| PrevWasEq (meta : list ttree)
| PrevWasColon (meta : list ttree).

(** symbol.rs:234-292.  The state is not changed by an error. *)
Definition consume_next (b : punct_builder) (c : ascii) (sp : spacing)
  : punct_builder * outcome front_error (option sym) :=
  let meta := [TPunct c sp] in
  let as_punctuation op := (b, Ok (Some (mk_sym (SOp op) meta))) in
  match b with
  | PBEmpty =>
      if eqb c ";"%char then as_punctuation Semicolon
      else if eqb c "#"%char then as_punctuation NumberSign
      else if eqb c "<"%char then as_punctuation BeginProd
      else if eqb c ">"%char then as_punctuation EndProd
      else if eqb c "|"%char then as_punctuation Pipe
      else if eqb c "!"%char then as_punctuation Bang
      else if eqb c "="%char then
        match sp with
        | Joint => (PrevWasEq meta, Ok None)
        | Alone => (b, Err (UnexpectedPunct c))
        end
      else if eqb c ":"%char then
        match sp with
        | Joint => (PrevWasColon meta, Ok None)
        | Alone => as_punctuation Colon
        end
      else (b, Err (UnexpectedPunct c))
  | PrevWasEq prev_meta =>
      if eqb c ">"%char then (PBEmpty, Ok (Some (mk_sym (SOp Arrow) (prev_meta ++ meta))))
      else (b, Err (UnexpectedAfterEq c))
  | PrevWasColon other_meta =>
      if eqb c ":"%char then (PBEmpty, Ok (Some (mk_sym (SOp Scope) (other_meta ++ meta))))
      else (b, Err (UnexpectedAfterColon c))
  end.

(** symbol.rs:294-308 *)
Definition consume_next_token (b : punct_builder) (t : ttree)
  : punct_builder * outcome front_error (option sym) :=
  match t with
  | TGroup d ts => (b, s <- from_group d ts ;; Ok (Some s))
  | TIdent name => (b, s <- from_ident name ;; Ok (Some s))
  | TLiteral text => (b, s <- from_literal text ;; Ok (Some s))
  | TPunct c sp => consume_next b c sp
  end.

(** The items of an [Iterator<Item = ParserGeneratorResult<Symbol>>]. *)
Definition stream := list (sym + front_error).

(** symbol.rs:310-319.  The iterator is lazy; computing it at once makes no
    difference, since nothing else reads or changes its state. *)
Fixpoint tokenize (b : punct_builder) (tokens : list ttree) : stream :=
  match tokens with
  | [] => []
  | t :: tokens' =>
      let '(b', r) := consume_next_token b t in
      match r with
      | Ok (Some s) => inl s :: tokenize b' tokens'
      | Err e => inr e :: tokenize b' tokens'
      | _ => tokenize b' tokens'
      end
  end.
Definition tokenize_from_stream (tokens : list ttree) : stream := tokenize PBEmpty tokens.

(** symbol_stream.rs:41-53.  The span remembered for the error is
    omitted. *)
Definition expect_symbol (s : stream) : outcome front_error (sym * stream) :=
  match s with
  | [] => Err UnexpectedEnd
  | inl x :: s' => Ok (x, s')
  | inr e :: _ => Err e
  end.

(** symbol_stream.rs:55-66 with 77-85 and 97-116: the symbol of the proxy, and
    the stream after [take]. *)
Definition peek_expect_symbol (s : stream) : outcome front_error (sym * stream) :=
  match s with
  | [] => Err UnexpectedEnd
  | inl x :: s' => Ok (x, s')
  | inr e :: _ => Err e
  end.

(** annotated_grammar/util.rs:7-21 *)
Definition expect_symbol_with (s : stream) (cmp : symbol_t -> bool) (message : front_error)
  : outcome front_error (list ttree * stream) :=
  '(x, s') <- expect_symbol s ;;
  if cmp (sym_type x) then Ok (sym_meta x, s') else Err message.

(** type_symbol.rs:24-36.  Each pass takes a symbol, so there are fewer passes
    than there are symbols left. *)
Fixpoint type_rest (meta : list ttree) (s : stream) : outcome front_error (list ttree * stream) :=
  match s with
  | [] => Err UnexpectedEnd
  | inr e :: _ => Err e
  | inl x :: s' =>
      if is_op (sym_type x) Arrow || is_op (sym_type x) Semicolon then Ok (meta, s)
      else type_rest (meta ++ sym_meta x) s'
  end.

(** type_symbol.rs:16-39 *)
Definition type_parse (s : stream) : outcome front_error (list ttree * stream) :=
  '(first_sym, s') <- expect_symbol s ;;
  type_rest (sym_meta first_sym) s'.

(** ident.rs:25-34 *)
Definition ident_parse (s : stream) : outcome front_error (string * stream) :=
  '(x, s') <- expect_symbol s ;;
  match sym_type x with
  | SIdent name => Ok (name, s')
  | _ => Err ExpectedIdentifier
  end.
