(** Where errors in the input of [grammar!] are reported, and what they say. *)
From Coq Require Import Arith Bool String Ascii List.
From Verif Require Import Base.Prelude Spec.Grammar Model.Error Model.TokenTree Model.Terminal Model.Symbol Model.Diagnostics Spec.Macro.
From Verif Require Spec.TableText.
Import ListNotations.
Open Scope string_scope.
Open Scope list_scope.

(** ** The syntax of the input, as a regular expression over symbols *)

Inductive rx :=
| RSym (p : symbol_t -> Prop)
| REmpty
| RSeq (r1 r2 : rx)
| RAlt (r1 r2 : rx)
| RStar (r : rx).

Inductive matches : rx -> list symbol_t -> Prop :=
| m_sym (p : symbol_t -> Prop) x : p x -> matches (RSym p) [x]
| m_empty : matches REmpty []
| m_seq r1 r2 xs ys : matches r1 xs -> matches r2 ys -> matches (RSeq r1 r2) (xs ++ ys)
| m_left r1 r2 xs : matches r1 xs -> matches (RAlt r1 r2) xs
| m_right r1 r2 xs : matches r2 xs -> matches (RAlt r1 r2) xs
| m_star_nil r : matches (RStar r) []
| m_star_cons r xs ys : matches r xs -> matches (RStar r) ys -> matches (RStar r) (xs ++ ys).

Definition seq_of (rs : list rx) : rx := fold_right RSeq REmpty rs.

Definition op (o : operator) : rx := RSym (eq (SOp o)).
Definition keyword (n : string) : rx := RSym (eq (SIdent n)).
Definition an_ident : rx := RSym (fun t => exists n, t = SIdent n).
Definition a_literal : rx := RSym (fun t => exists s, t = SLiteral s).
Definition a_paren : rx := RSym (fun t => exists ts, t = SParen ts).
Definition a_block : rx := RSym (fun t => exists d ts, t = SGroup d ts).
Definition in_type (t : symbol_t) : Prop := t <> SOp Arrow /\ t <> SOp Semicolon.
Definition maybe (r : rx) : rx := RAlt REmpty r.

(** Any symbol, and what follows up to [=>] or [;]. *)
Definition a_type : rx := RSeq (RSym (fun _ => True)) (RStar (RSym in_type)).
Definition an_option (n : string) (value : rx) : rx := seq_of [keyword n; op Colon; value; op Semicolon].
Definition a_ref : rx := seq_of [op BeginProd; an_ident; op EndProd].
Definition a_node : rx := RAlt a_ref (RAlt a_literal (RAlt (RSeq an_ident (maybe a_paren)) (op Bang))).
Definition an_alternative : rx := RSeq a_node (RSeq (RStar a_node) (maybe a_block)).
Definition alternatives_rx : rx := RSeq an_alternative (RStar (RSeq (op Pipe) an_alternative)).
Definition a_declaration : rx :=
  seq_of [a_ref; maybe (RSeq (op Colon) a_type); op Arrow; alternatives_rx; op Semicolon].
Definition a_file : rx :=
  seq_of [an_option "name" an_ident;
          RAlt (an_option "terminal" a_type) (an_option "enum_terminal" a_type);
          RAlt (RSeq (an_option "error_type" a_type) (RStar a_declaration))
               (RSeq a_declaration (RStar a_declaration))].

(** Symbols that some input begins with. *)
Definition starts (ts : list symbol_t) : Prop := exists us, matches a_file (ts ++ us).

(** ** Messages *)

(** The message without the notes that [intercept] adds. *)
Definition error_text (e : front_error) : string :=
  match e with
  | GroupWithoutDelimiter => "Group without delimiter"
  | BadIdentifier n => "Identifier """ ++ n ++ """ is not alphanumeric/_ with a non-numeric leading character"
  | UnrecognizedLiteral t => "Unrecognized literal: " ++ t
  | UnexpectedPunct c => "Unexpected token """ ++ String c """"
  | UnexpectedAfterEq c => "Unexpected token ""=" ++ String c """"
  | UnexpectedAfterColon c => "Unexpected token "":" ++ String c """"
  | UnexpectedEnd => "Unexpected end of input"
  | ExpectedIdentifier => "Expected identifier"
  | ExpectedKeyword n => "Expected """ ++ n ++ """ keyword"
  | ExpectedColon n => "Expected "":"" to follow """ ++ n ++ """ keyword."
  | ExpectedSemicolon n => "Expected "";"" to follow """ ++ n ++ """ value."
  | ExpectedTerminalOption => "Expected ""terminal"" or ""enum_terminal"" option"
  | ExpectedBeginProd => "Expected production name to begin with '<'."
  | ExpectedProductionName => "Expected production name."
  | ExpectedEndProd => "Expected production name to end with '>'."
  | ExpectedArrow => "Expected `=>` to follow production name"
  | ExpectedSemicolonOrPipe => "Expected either `;` or `|`"
  | EpsilonNotAlone => "Epsilon may only appear in a rule by itself"
  | UnexpectedToken => "Unexpected token"
  | DifferentReturnTypes => "Production rules for the same label have different return types"
  | GrammarError _ => "" (* see [grammar_text] *)
  end%string.

(** The name of a token, as it is written. *)
Inductive token_text : aug user_symbol -> string -> Prop :=
| tt_plain n : token_text (Token (mk_symbol n PGNone)) n
| tt_wildcard n : token_text (Token (mk_symbol n PGWildcard)) (n ++ "(..)")
| tt_pattern n p : token_text (Token (mk_symbol n (PGPattern p))) (n ++ "(" ++ p ++ ")")
| tt_epsilon : token_text Epsilon (String (ascii_of_nat 206) (String (ascii_of_nat 181) "")) (* UTF-8 *)
| tt_end : token_text EndOfStream "$".

(** Labels as they are written, with commas between them. *)
Inductive labels_text : list string -> string -> Prop :=
| lt_none : labels_text [] ""
| lt_one l : labels_text [l] ("<" ++ l ++ ">")
| lt_more l ls t : ls <> [] -> labels_text ls t -> labels_text (l :: ls) ("<" ++ l ++ ">, " ++ t).

Inductive rule_text (n : nat) : string -> Prop :=
| rt_number s : Spec.TableText.numeral n s -> rule_text n ("RuleId(" ++ s ++ ")").

(** What is said about a grammar. *)
Inductive grammar_text : lr_error user_symbol string -> string -> Prop :=
| gt_empty : grammar_text (BuildGrammar EmptyGrammar) "Build grammar error: grammar is empty"
| gt_repeated : grammar_text (BuildGrammar RootProductionRepeated) "Build grammar error: the root production has multiple rules"
| gt_referenced : grammar_text (BuildGrammar RootProductionReferenced)
    "Build grammar error: the root production is referenced by another rule"
| gt_connected ls t : labels_text ls t -> grammar_text (BuildGrammar (NotConnected ls))
    ("Build grammar error: The grammar is not fully connected: Rules disconnected: " ++ t)
| gt_label l : grammar_text (UnrecognizedLabel l) ("Unrecognized label ""<" ++ l ++ ">""")
| gt_shift a t : token_text a t -> grammar_text (ShiftConflict a) ("Shift conflict for lookahead " ++ t)
| gt_shift_reduce r a tr t : rule_text r tr -> token_text a t ->
    grammar_text (ShiftReduceConflict r a) ("Shift/reduce conflict with rule " ++ tr ++ " and lookahead " ++ t)
| gt_reduce r1 r2 a t1 t2 t : rule_text r1 t1 -> rule_text r2 t2 -> token_text a t ->
    grammar_text (ReduceConflict r1 r2 a) ("Reduce conflict between rule " ++ t1 ++ " and rule " ++ t2 ++ " with lookahead " ++ t)
| gt_unresolved : grammar_text UnresolvedStates "Unresolved states while building the LR state map"
| gt_resolve : grammar_text StateResolveConflict "Conflict resolving states while building the LR state map"
| gt_generic m : grammar_text (Generic m) ("Error: " ++ m).

(** A message with notes. *)
Inductive noted (m : string) : string -> Prop :=
| n_none : noted m m
| n_note t note : noted m t -> noted m (t ++ ": " ++ note)%string.

(** The symbols that a message says were expected. *)
Inductive asks_for : front_error -> symbol_t -> Prop :=
| af_identifier n : asks_for ExpectedIdentifier (SIdent n)
| af_keyword n : asks_for (ExpectedKeyword n) (SIdent n)
| af_colon n : asks_for (ExpectedColon n) (SOp Colon)
| af_semicolon n : asks_for (ExpectedSemicolon n) (SOp Semicolon)
| af_terminal : asks_for ExpectedTerminalOption (SIdent "terminal")
| af_enum_terminal : asks_for ExpectedTerminalOption (SIdent "enum_terminal")
| af_begin : asks_for ExpectedBeginProd (SOp BeginProd)
| af_name n : asks_for ExpectedProductionName (SIdent n)
| af_end : asks_for ExpectedEndProd (SOp EndProd)
| af_arrow : asks_for ExpectedArrow (SOp Arrow)
| af_pipe : asks_for ExpectedSemicolonOrPipe (SOp Pipe)
| af_semi : asks_for ExpectedSemicolonOrPipe (SOp Semicolon).

Section Spans.
Context {span : Type} (call_site : span) (join_spans : span -> span -> option span).
Variable print : list ttree -> string.

Notation token := (token span).
Notation symbol_at := (symbol_at span).
Notation items := (items span).
Notation diag := (diag span).

(** ** Symbols and their spans *)

Definition trees (ts : list token) : list ttree := map (tk_tree span) ts.
Definition types_at (xs : list symbol_at) : list symbol_t := map (at_type span) xs.
Definition span_of (x : symbol_at) : span := mt_span span (at_meta span x).
Definition tokens_of (x : symbol_at) : list ttree := mt_tokens span (at_meta span x).

(** The span of several symbols: spans are joined if that is possible. *)
Definition cover (s t : span) : span := match join_spans s t with Some u => u | None => s end.
Definition cover_all (x : symbol_at) (xs : list symbol_at) : span := fold_left cover (map span_of xs) (span_of x).

(** Where tokens that are no symbol are reported: at the second one, if the first
    one is the beginning of a symbol. *)
Definition bad_span (e : front_error) (ts : list token) (s : span) : Prop :=
  match e with
  | GroupWithoutDelimiter => exists t ts', ts = t :: ts' /\ s = tk_open span t
  | UnexpectedAfterEq _ | UnexpectedAfterColon _ => exists t t' ts', ts = t :: t' :: ts' /\ s = tk_span span t'
  | _ => exists t ts', ts = t :: ts' /\ s = tk_span span t
  end.

(** The symbols that tokens are read as, up to the first error. *)
Inductive symbols_at : list token -> items -> Prop :=
| sa_nil : symbols_at [] []
| sa_one t x ts its : symbol_tokens (at_type span x) [tk_tree span t] -> tokens_of x = [tk_tree span t] ->
    span_of x = tk_span span t -> (forall inside s, tk_with span t = STGroup span Brace inside s -> at_inside span x = inside) ->
    symbols_at ts its -> symbols_at (t :: ts) (inl x :: its)
| sa_two t1 t2 x ts its : symbol_tokens (at_type span x) [tk_tree span t1; tk_tree span t2] ->
    tokens_of x = [tk_tree span t1; tk_tree span t2] ->
    span_of x = cover (tk_span span t1) (tk_span span t2) -> symbols_at ts its ->
    symbols_at (t1 :: t2 :: ts) (inl x :: its)
| sa_bad ts e s its : not_a_symbol (trees ts) e -> bad_span e ts s ->
    symbols_at ts (inr (mk_diag span (error_text e) s) :: its).

(** Errors of single tokens. *)
Definition token_error (e : front_error) : Prop := exists ts, not_a_symbol ts e.

(** ** Places *)

Definition ref_syms (label : string) (xs : list symbol_at) : Prop :=
  types_at xs = [SOp BeginProd; SIdent label; SOp EndProd].

(** A return type, as its span and its tokens. *)
Inductive type_at : option (span * list ttree) -> list symbol_at -> Prop :=
| ta_none : type_at None []
| ta_some c x xs : at_type span c = SOp Colon -> Forall in_type (types_at xs) ->
    type_at (Some (cover_all x xs, flat_map tokens_of (x :: xs))) (c :: x :: xs).

(** The symbols [xs] contain a declaration of [label] with type [ty]. *)
Definition declared_at (xs : list symbol_at) (label : string) (ty : option (span * list ttree)) : Prop :=
  exists l xl xt xd r, xs = l ++ (xl ++ xt ++ xd) ++ r /\ ref_syms label xl /\ type_at ty xt /\
  matches a_declaration (types_at (xl ++ xt ++ xd)).

(** What follows a type in the input. *)
Definition type_ends (ty : option (span * list ttree)) (its : items) : Prop :=
  ty <> None -> exists y its', its = inl y :: its' /\ (at_type span y = SOp Arrow \/ at_type span y = SOp Semicolon).

(** [located its e d]: the error [d], of the kind [e], is reported at the right
    place of the input [its]. *)
Inductive located : items -> front_error -> diag -> Prop :=
(** The first symbol that no input continues with.  A symbol that the message
    asks for would have been right. *)
| l_symbol pre x post e msg : starts (types_at pre) -> ~ starts (types_at (pre ++ [x])) ->
    e = UnexpectedToken \/ (exists t, asks_for e t) -> (forall t, asks_for e t -> starts (types_at pre ++ [t])) ->
    noted (error_text e) msg ->
    located (map inl pre ++ inl x :: post) e (mk_diag span msg (span_of x))
(** Tokens that are no symbol, after the beginning of some input. *)
| l_bad pre d post e msg : starts (types_at pre) -> noted (dg_message span d) msg ->
    token_error e -> dg_message span d = error_text e ->
    located (map inl pre ++ inr d :: post) e (mk_diag span msg (dg_span span d))
(** The beginning of an input, but not an input. *)
| l_end pre msg s : starts (types_at pre) -> ~ matches a_file (types_at pre) -> noted (error_text UnexpectedEnd) msg ->
    s = call_site \/ In s (map span_of pre) ->
    located (map inl pre) UnexpectedEnd (mk_diag span msg s)
(** The first [!] of an alternative that has other nodes. *)
| l_epsilon pre b n1 x n2 post msg : at_type span b = SOp Arrow \/ at_type span b = SOp Pipe ->
    starts (types_at (pre ++ b :: n1 ++ x :: n2)) -> at_type span x = SOp Bang ->
    matches (RStar a_node) (types_at n1) -> matches (RStar a_node) (types_at n2) -> n1 ++ n2 <> [] ->
    ~ In (SOp Bang) (types_at n1) -> noted (error_text EpsilonNotAlone) msg ->
    located (map inl (pre ++ b :: n1 ++ x :: n2) ++ post) EpsilonNotAlone (mk_diag span msg (span_of x))
(** The type of a declaration that differs from an earlier one, or the earlier
    one if the declaration has no type. *)
| l_types pre label ty old xl xt s ts post msg : declared_at pre label old -> ref_syms label xl -> type_at ty xt ->
    type_ends ty post -> starts (types_at (pre ++ xl ++ xt)) ->
    ~ same_type print (option_map snd old) (option_map snd ty) ->
    match ty with Some _ => ty | None => old end = Some (s, ts) -> noted (error_text DifferentReturnTypes) msg ->
    located (map inl (pre ++ xl ++ xt) ++ post) DifferentReturnTypes (mk_diag span msg s).

End Spans.
