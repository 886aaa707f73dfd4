(** What the input of [grammar!] means: symbols are groups of one or two tokens,
    and a file of declarations is a sequence of symbols. *)
From Coq Require Import Arith Bool String Ascii List.
From Verif Require Import Base.Prelude Model.TokenTree Model.Terminal Model.Constructor Model.Symbol Model.FrontEnd.
Import ListNotations.

(** ** Symbols *)

Definition letter (c : ascii) : Prop :=
  65 <= nat_of_ascii c <= 90 \/ 97 <= nat_of_ascii c <= 122 \/ c = "_"%char.
Definition identifier (s : string) : Prop :=
  exists c s', s = String c s' /\ letter c /\
  Forall (fun c => letter c \/ 48 <= nat_of_ascii c <= 57) (list_ascii_of_string s').

Definition punctuation : list (ascii * operator) :=
  [(";", Semicolon); ("#", NumberSign); ("<", BeginProd); (">", EndProd); ("|", Pipe); ("!", Bang)]%char.

(** The tokens a symbol is written with. *)
Inductive symbol_tokens : symbol_t -> list ttree -> Prop :=
| st_punctuation c op sp : In (c, op) punctuation -> symbol_tokens (SOp op) [TPunct c sp]
| st_colon : symbol_tokens (SOp Colon) [TPunct ":" Alone]
| st_arrow sp : symbol_tokens (SOp Arrow) [TPunct "=" Joint; TPunct ">" sp]
| st_scope sp : symbol_tokens (SOp Scope) [TPunct ":" Joint; TPunct ":" sp]
| st_ident n : identifier n -> symbol_tokens (SIdent n) [TIdent n]
| st_ident_literal n : identifier n -> symbol_tokens (SIdent n) [TLiteral n]
| st_literal t : symbol_tokens (SLiteral (String "'" t)) [TLiteral (String "'" t)]
| st_brace ts : symbol_tokens (SGroup Brace ts) [TGroup Brace ts]
| st_paren ts : symbol_tokens (SParen ts) [TGroup Parenthesis ts]
| st_bracket ts : symbol_tokens (SArray ts) [TGroup Bracket ts].

(** A symbol with its tokens, and a sequence of them that makes up [ts]. *)
Definition symbol_ok (x : sym) : Prop := symbol_tokens (sym_type x) (sym_meta x).
Definition symbols_of (ts : list ttree) (xs : list sym) : Prop := Forall symbol_ok xs /\ flat_map sym_meta xs = ts.

(** A joint punctuation character is followed by another one, as in any token
    stream that comes from source text. *)
Definition well_spaced (ts : list ttree) : Prop :=
  forall l c r, ts = l ++ TPunct c Joint :: r -> exists c' sp r', r = TPunct c' sp :: r'.

(** Tokens that are not a symbol. *)
Inductive not_a_symbol : list ttree -> front_error -> Prop :=
| nas_group ts r : not_a_symbol (TGroup NoDelimiter ts :: r) GroupWithoutDelimiter
| nas_ident n r : ~ identifier n -> not_a_symbol (TIdent n :: r) (BadIdentifier n)
| nas_literal t r : ~ identifier t -> (forall t', t <> String "'" t') ->
    not_a_symbol (TLiteral t :: r) (UnrecognizedLiteral t)
| nas_eq r : not_a_symbol (TPunct "=" Alone :: r) (UnexpectedPunct "=")
| nas_eq_other c sp r : c <> ">"%char ->
    not_a_symbol (TPunct "=" Joint :: TPunct c sp :: r) (UnexpectedAfterEq c)
| nas_colon_other c sp r : c <> ":"%char ->
    not_a_symbol (TPunct ":" Joint :: TPunct c sp :: r) (UnexpectedAfterColon c)
| nas_punct c sp r : (forall op, ~ In (c, op) punctuation) -> c <> "="%char -> c <> ":"%char ->
    not_a_symbol (TPunct c sp :: r) (UnexpectedPunct c).

(** ** Declarations *)

Definition types (xs : list sym) : list symbol_t := map sym_type xs.

(** The argument [..] of a wildcard. *)
Definition wildcard (ts : list ttree) : Prop :=
  ts = [TPunct "." Joint; TPunct "." Alone] \/ ts = [TPunct "_" Alone].

Definition plain (name : string) : pnode := PNSymbol (mk_symbol name PGNone).

Section Declarations.
Variable print : list ttree -> string.

Inductive node_syms : pnode -> list sym -> Prop :=
| ns_production n xs : types xs = [SOp BeginProd; SIdent n; SOp EndProd] -> node_syms (PNProduction n) xs
| ns_literal t xs : types xs = [SLiteral t] -> node_syms (plain t) xs
| ns_ident n xs : types xs = [SIdent n] -> node_syms (plain n) xs
| ns_wildcard n ts xs : types xs = [SIdent n; SParen ts] -> wildcard ts ->
    node_syms (PNSymbol (mk_symbol n PGWildcard)) xs
| ns_pattern n ts xs : types xs = [SIdent n; SParen ts] -> ~ wildcard ts ->
    node_syms (PNSymbol (mk_symbol n (PGPattern (print ts)))) xs
| ns_epsilon xs : types xs = [SOp Bang] -> node_syms PNEpsilon xs.

Inductive nodes_syms : list pnode -> list sym -> Prop :=
| nds_nil : nodes_syms [] []
| nds_cons n xs ns ys : node_syms n xs -> nodes_syms ns ys -> nodes_syms (n :: ns) (xs ++ ys).

Inductive block_syms : option (delimiter * list ttree) -> list sym -> Prop :=
| bs_none : block_syms None []
| bs_some d ts xs : types xs = [SGroup d ts] -> block_syms (Some (d, ts)) xs.

(** An alternative: one or more nodes, and possibly a constructor.  [!] stands
    only by itself. *)
Definition alternative := (list pnode * option (delimiter * list ttree))%type.

Inductive alt_syms : alternative -> list sym -> Prop :=
| as_alt ns block xs ys : ns <> [] -> nodes_syms ns xs -> block_syms block ys ->
    (In PNEpsilon ns -> ns = [PNEpsilon]) -> alt_syms (ns, block) (xs ++ ys).

Inductive alts_syms : list alternative -> list sym -> Prop :=
| als_one a xs : alt_syms a xs -> alts_syms [a] xs
| als_more a xs x a' al ys : alt_syms a xs -> sym_type x = SOp Pipe -> alts_syms (a' :: al) ys ->
    alts_syms (a :: a' :: al) (xs ++ x :: ys).

(** A type: any symbol, then all symbols up to the next [=>] or [;]. *)
Inductive type_syms : list ttree -> list sym -> Prop :=
| ts_type x xs : Forall (fun y => sym_type y <> SOp Arrow /\ sym_type y <> SOp Semicolon) xs ->
    type_syms (flat_map sym_meta (x :: xs)) (x :: xs).

Inductive return_type_syms : option (list ttree) -> list sym -> Prop :=
| rts_none : return_type_syms None []
| rts_some x ty xs : sym_type x = SOp Colon -> type_syms ty xs -> return_type_syms (Some ty) (x :: xs).

(** [<A>: T => alternatives;] *)
Record declaration := mk_declaration {
  dc_label : string;
  dc_type : option (list ttree);
  dc_alts : list alternative;
}.

Inductive declaration_syms : declaration -> list sym -> Prop :=
| ds_declaration label ty alts xl xt x xa y : types xl = [SOp BeginProd; SIdent label; SOp EndProd] ->
    return_type_syms ty xt -> sym_type x = SOp Arrow -> alts_syms alts xa -> sym_type y = SOp Semicolon ->
    declaration_syms (mk_declaration label ty alts) (xl ++ xt ++ x :: xa ++ [y]).

Inductive declarations_syms : list declaration -> list sym -> Prop :=
| dss_nil : declarations_syms [] []
| dss_cons d xs ds ys : declaration_syms d xs -> declarations_syms ds ys -> declarations_syms (d :: ds) (xs ++ ys).

(** [keyword: type;] *)
Inductive option_syms (keyword : string) : list ttree -> list sym -> Prop :=
| os_option x y ty xs z : sym_type x = SIdent keyword -> sym_type y = SOp Colon -> type_syms ty xs ->
    sym_type z = SOp Semicolon -> option_syms keyword ty (x :: y :: xs ++ [z]).

Inductive terminal_type_syms : terminal_type -> list sym -> Prop :=
| tts_raw ty xs : option_syms "terminal" ty xs -> terminal_type_syms (TTRaw ty) xs
| tts_enum ty xs : option_syms "enum_terminal" ty xs -> terminal_type_syms (TTEnum ty) xs.

Inductive error_type_syms : option (list ttree) -> list sym -> Prop :=
| ets_none : error_type_syms None []
| ets_some ty xs : option_syms "error_type" ty xs -> error_type_syms (Some ty) xs.

(** The whole input. *)
Inductive file_syms (name : string) (tt : terminal_type) (et : option (list ttree)) (ds : list declaration)
  : list sym -> Prop :=
| fs_file xn xt xe xd : types xn = [SIdent "name"; SOp Colon; SIdent name; SOp Semicolon] ->
    terminal_type_syms tt xt -> error_type_syms et xe -> declarations_syms ds xd ->
    (et = None -> ds <> []) -> file_syms name tt et ds (xn ++ xt ++ xe ++ xd).

(** Types are compared as text. *)
Definition same_type (t1 t2 : option (list ttree)) : Prop := option_map print t1 = option_map print t2.
Definition one_type_each (ds : list declaration) : Prop :=
  forall d1 d2, In d1 ds -> In d2 ds -> dc_label d1 = dc_label d2 -> same_type (dc_type d1) (dc_type d2).

(** A file that declares, after declarations that agree with each other, a label
    again with another type; up to the symbol after that type. *)
Definition ends_type (ty : option (list ttree)) (y : sym) : Prop :=
  match ty with
  | None => sym_type y <> SOp Colon
  | Some _ => sym_type y = SOp Arrow \/ sym_type y = SOp Semicolon
  end.

Inductive conflict_syms : list sym -> Prop :=
| cs_conflict n tt et ds d label ty xn xt xe xd xl xr y : types xn = [SIdent "name"; SOp Colon; SIdent n; SOp Semicolon] ->
    terminal_type_syms tt xt -> error_type_syms et xe -> declarations_syms ds xd -> one_type_each ds ->
    types xl = [SOp BeginProd; SIdent label; SOp EndProd] -> return_type_syms ty xr -> ends_type ty y ->
    In d ds -> dc_label d = label -> ~ same_type (dc_type d) ty ->
    conflict_syms (xn ++ xt ++ xe ++ xd ++ (xl ++ xr) ++ [y]).

(** The rules declared, in order. *)
Definition rules_of (d : declaration) : list prule :=
  map (fun '(ns, block) => mk_prule (dc_label d) (dc_type d) ns block) (dc_alts d).

(** The type of the first declaration of a label. *)
Definition declared_type (ds : list declaration) (label : string) : option (option (list ttree)) :=
  option_map dc_type (find (fun d => String.eqb (dc_label d) label) ds).

(** What is read from the input. *)
Definition declares (xs : list sym) (d : declarations) : Prop :=
  exists ds, file_syms (d_name d) (d_terminal_type d) (d_error_type d) ds xs /\ one_type_each ds /\
  d_rules d = flat_map rules_of ds /\ forall l, hm_get l (d_label_types d) = declared_type ds l.

End Declarations.

(** ** Tokens *)

(** What the tokens of a macro call declare. *)
Definition reads_as (print : list ttree -> string) (ts : list ttree) (d : declarations) : Prop :=
  exists xs, symbols_of ts xs /\ declares print xs d.

(** The map of types is seen through look-ups only. *)
Definition same_declarations (d d' : declarations) : Prop :=
  d_name d = d_name d' /\ d_terminal_type d = d_terminal_type d' /\ d_error_type d = d_error_type d' /\
  d_rules d = d_rules d' /\ forall l, hm_get l (d_label_types d) = hm_get l (d_label_types d').

(** The name of a terminal that is written as a character. *)
Definition character (n : string) : Prop := exists n', n = String "'" n'.
