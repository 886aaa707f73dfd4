(** Types of emitted code.  The rules are those of Rust for the fragment of
    Model/Rust.v: types with references, binding modes of patterns, exhaustive
    matches, and the signatures of the functions of src/ and std that are called.
    Moves and borrows are checked in Spec/Ownership.v.  What the user writes (bodies, patterns,
    literals and the impls of their types) is checked by [user_code]. *)
From Coq Require Import Arith Bool String Ascii List.
From Verif Require Import Base.Prelude Spec.Grammar.
From Verif Require Import Model.TokenTree Model.Terminal Model.Constructor Model.CodeGen Model.Symbol Model.FrontEnd Model.Rust Model.Emit.
From Verif Require Import Spec.Values Spec.Substitution Spec.EmittedCode Spec.EmittedNames Spec.Expansion.
Import ListNotations.
Open Scope string_scope.
Open Scope list_scope.

(** Types: those the user wrote, the type parameters [B] and [E] of parsers, that
    of the input and of its iterator, and those of std and src/.  [TyStates] is the
    enum of the states; the arguments of [ParserError], [ParserState] and
    [ParserStream] are always the same and left out. *)
Inductive rty :=
| TyWritten (ts : list ttree)
| TyRef (mutable : bool) (t : rty)
| TyOption (t : rty)
| TyResult (t e : rty)
| TyControl (t : rty)
| TyParserError
| TyParserState
| TyParserStream
| TyStates
| TyB
| TyE
| TyInput
| TyIter
| TyUsize
| TyString
| TyConversionError.

Definition unit_tokens : list ttree := [TGroup Parenthesis []].
Definition written (ty : option (list ttree)) : rty :=
  TyWritten match ty with Some ts => ts | None => unit_tokens end.

(** What the user's part of the program says. *)
Record user_code := mk_user {
  (* the variants of the token type, with the types of their fields *)
  u_variants : list (string * option (list ttree));
  (* a literal has a type *)
  u_literal : string -> list ttree -> Prop;
  (* a pattern can be matched with values of a type; it binds nothing *)
  u_pattern : string -> list ttree -> Prop;
  (* it is not several ones with [|] between them *)
  u_single : string -> Prop;
  (* a type implements Clone, Debug, ParserUserError *)
  u_clone : list ttree -> Prop;
  u_debug : list ttree -> Prop;
  u_error : list ttree -> Prop;
  (* values of the first type have a [try_into] to the second, whose error is
     [Infallible] or converts into the error type *)
  u_try_into : list ttree -> list ttree -> Prop;
  (* the body of the constructor of a rule has a type, given variables in scope *)
  u_body : nat -> list ttree -> (string -> option rty) -> list ttree -> Prop;
}.

(** A type that can be written before [::A] in a pattern or expression, without
    [<] (which would begin a comparison there). *)
Definition path_like (ty : list ttree) : Prop :=
  Forall (fun t => match t with TIdent _ => True | TPunct c _ => c = ":"%char | _ => False end) ty.

(** The identifiers in tokens that begin a path. *)
Fixpoint tree_heads (t : ttree) : list string :=
  match t with
  | TGroup _ ts =>
      (fix go (colons : nat) (ts : list ttree) : list string :=
         match ts with
         | [] => []
         | TIdent x :: ts => (if Nat.leb 2 colons then [] else [x]) ++ go 0 ts
         | TPunct c _ :: ts => go (if Ascii.eqb c ":"%char then S colons else 0) ts
         | t :: ts => tree_heads t ++ go 0 ts
         end) 0 ts
  | _ => []
  end.
Definition heads (ts : list ttree) : list string := tree_heads (TGroup Parenthesis ts).

(** The item that is checked. *)
Section Item.
Variable u : user_code.
Variable em : emitted.

Local Notation token := (TyWritten (em_token em)).
Local Notation value := (TyWritten (em_value em)).
Local Notation user_error := (TyWritten (em_error em)).

(** Constructors of enums: None, Some, Ok, Err, Continue, Accept and the states. *)
Inductive constructs : path -> list rty -> rty -> Prop :=
| cs_none t : constructs ["None"] [] (TyOption t)
| cs_some t : constructs ["Some"] [t] (TyOption t)
| cs_ok t e : constructs ["Ok"] [t] (TyResult t e)
| cs_err t e : constructs ["Err"] [e] (TyResult t e)
| cs_continue t : constructs ["parser_generator"; "parser_state"; "ParserControl"; "Continue"] [] (TyControl t)
| cs_accept t : constructs ["parser_generator"; "parser_state"; "ParserControl"; "Accept"] [t] (TyControl t)
| cs_state v ty : In (v, ty) (e_variants (em_enum em)) -> constructs [e_name (em_enum em); v] [written ty] TyStates.

(** *** Patterns *)

(** Whether values can be moved out of where a pattern looks, and how variables
    are bound there by default. *)
Inductive place := Owned | Borrowed.
Inductive binding := ByMove | ByRef.

(** Patterns that look through references. *)
Definition looks_through (p : rpat) : Prop :=
  match p with PtLit _ | PtCon _ _ | PtConRest _ | PtVariant _ _ _ | PtVariantRest _ _ => True | _ => False end.

Definition context := list (string * rty).

Inductive matches_type : place -> binding -> rpat -> rty -> context -> Prop :=
| mt_wild pl b t : matches_type pl b PtWild t []
| mt_move x t : matches_type Owned ByMove (PtVar x) t [(x, t)]
| mt_by_ref pl x t : matches_type pl ByRef (PtVar x) t [(x, TyRef false t)]
| mt_literal pl b text ty : u_literal u text ty -> matches_type pl b (PtLit text) (TyWritten ty) []
| mt_ref pl p t bs m : matches_type Borrowed ByMove p t bs -> matches_type pl ByMove (PtRef p) (TyRef m t) bs
| mt_ref_bind pl x text ty : u_pattern u text ty -> u_single u text ->
    matches_type pl ByMove (PtRefBind x (PtUser text)) (TyWritten ty) [(x, TyRef false (TyWritten ty))]
| mt_con pl b c ps ts t bs : constructs c ts t -> match_types pl b ps ts bs -> matches_type pl b (PtCon c ps) t bs
| mt_con_rest pl b c ts t : constructs c ts t -> ts <> [] -> matches_type pl b (PtConRest c) t []
| mt_variant pl b name : path_like (em_token em) -> In (name, None) (u_variants u) ->
    matches_type pl b (PtVariant (em_token em) name None) token []
| mt_variant_field pl b name ty p bs : path_like (em_token em) -> In (name, Some ty) (u_variants u) ->
    matches_type pl b p (TyWritten ty) bs -> matches_type pl b (PtVariant (em_token em) name (Some p)) token bs
| mt_variant_rest pl b name ty : path_like (em_token em) -> In (name, Some ty) (u_variants u) ->
    matches_type pl b (PtVariantRest (em_token em) name) token []
| mt_user pl b text ty : u_pattern u text ty -> matches_type pl b (PtUser text) (TyWritten ty) []
| mt_or pl b ps t bs : ps <> [] -> (forall p, In p ps -> matches_type pl b p t bs) -> matches_type pl b (PtOr ps) t bs
| mt_through pl b p m t bs : looks_through p -> matches_type Borrowed ByRef p t bs -> matches_type pl b p (TyRef m t) bs
with match_types : place -> binding -> list rpat -> list rty -> context -> Prop :=
| mts_nil pl b : match_types pl b [] [] []
| mts_cons pl b p t bs ps ts bs' : matches_type pl b p t bs -> match_types pl b ps ts bs' ->
    match_types pl b (p :: ps) (t :: ts) (bs ++ bs').

(** The patterns match every value of a type: there is a pattern that does, or
    for each constructor of the type one that matches what is made with it. *)
Inductive covers : list rpat -> rty -> Prop :=
| cv_any ps t p : In p ps -> irrefutable p -> covers ps t
| cv_ref ps m t : covers ps t -> covers ps (TyRef m t)
| cv_option ps t : covered ps ["None"] 0 -> covered ps ["Some"] 1 -> covers ps (TyOption t)
| cv_result ps t e : covered ps ["Ok"] 1 -> covered ps ["Err"] 1 -> covers ps (TyResult t e)
| cv_control ps t : covered ps ["parser_generator"; "parser_state"; "ParserControl"; "Continue"] 0 ->
    covered ps ["parser_generator"; "parser_state"; "ParserControl"; "Accept"] 1 -> covers ps (TyControl t)
| cv_states ps : (forall v ty, In (v, ty) (e_variants (em_enum em)) -> covered ps [e_name (em_enum em); v] 1) ->
    covers ps TyStates.

(** *** Functions and methods *)

(** What a function of the item returns: [ParserResult<ParserControl<value>, ..>]. *)
Definition control_result : rty := TyResult (TyControl value) TyParserError.

(** src/parser_state.rs:14-22, src/error.rs:47-54, and the functions of the item. *)
Inductive function_type : path -> list rty -> rty -> Prop :=
| ft_new : function_type ["parser_generator"; "parser_state"; "ParserState"; "new"] [TyIter; TyStates] TyParserState
| ft_error : function_type ["parser_generator"; "error"; "ParserError"; "new"] [TyOption token] TyParserError
| ft_overlap : function_type ["parser_generator"; "error"; "ParserError"; "overlapping_token_matchers"] [TyString] TyParserError
| ft_fn f : In f (em_fns em) -> function_type [f_name f] [TyRef true TyParserState] control_result.

(** A value or a reference to it; one that can be written through. *)
Inductive reads (t : rty) : rty -> Prop :=
| rd_value : reads t t
| rd_ref m : reads t (TyRef m t).
Inductive writes (t : rty) : rty -> Prop :=
| wr_value : writes t t
| wr_ref : writes t (TyRef true t).

(** src/parser_state.rs:24-47, src/parser_stream.rs:15-22, src/error.rs:9-17,
    [Borrow], [Clone], [IntoIterator] and [Option::transpose]. *)
Inductive method_type : rty -> string -> list rty -> rty -> Prop :=
| me_stream t : reads TyParserState t -> method_type t "stream" [] (TyRef false TyParserStream)
| me_stream_mut t : writes TyParserState t -> method_type t "stream_mut" [] (TyRef true TyParserStream)
| me_push t : writes TyParserState t -> method_type t "push" [TyStates] (TyWritten unit_tokens)
| me_state t : reads TyParserState t -> method_type t "state" [] (TyRef false TyStates)
| me_pop_state t : writes TyParserState t -> method_type t "pop_state" [] TyStates
| me_verify t : reads TyParserState t -> method_type t "verify_empty_stack" [] (TyWritten unit_tokens)
| me_peek_next t : reads TyParserStream t -> method_type t "peek_next" [] (TyOption (TyRef false (TyResult TyB TyE)))
| me_advance t : writes TyParserStream t -> method_type t "advance" [] (TyWritten unit_tokens)
| me_borrow : method_type (TyRef false TyB) "borrow" [] (TyRef false token)
| me_clone_error m : method_type (TyRef m TyE) "clone" [] TyE
| me_clone m ty : u_clone u ty -> method_type (TyRef m (TyWritten ty)) "clone" [] (TyWritten ty)
| me_into_user_error : method_type TyE "into_user_error" [] TyParserError
| me_into_iter : method_type TyInput "into_iter" [] TyIter
| me_transpose t e : method_type (TyOption (TyResult t e)) "transpose" [] (TyResult (TyOption t) e).

(** What [?] makes an error into: error.rs:56-60. *)
Inductive try_from : rty -> rty -> Prop :=
| tf_same e : try_from e e
| tf_user : u_error u (em_error em) -> try_from user_error TyParserError.

(** *** Expressions

    [typed ret G e t]: in a function that returns [ret], and with variables [G],
    [e] can be used as a [t]; an expression that does not return can be used as
    anything. *)
Fixpoint type_of (G : context) (x : string) : option rty :=
  match G with
  | [] => None
  | (y, t) :: G' => if String.eqb x y then Some t else type_of G' x
  end.

Inductive typed : rty -> context -> expr -> rty -> Prop :=
| ty_var ret G x t : type_of G x = Some t -> typed ret G (EVar x) t
| ty_unit ret G : typed ret G EUnit (TyWritten unit_tokens)
| ty_literal ret G text ty : u_literal u text ty -> typed ret G (ELit text) (TyWritten ty)
| ty_con ret G c es ts t : constructs c ts t -> typed_all ret G es ts -> typed ret G (ECon c es) t
| ty_variant ret G name : path_like (em_token em) -> In (name, None) (u_variants u) ->
    typed ret G (EVariant (em_token em) name []) token
| ty_variant_field ret G name ty e : path_like (em_token em) -> In (name, Some ty) (u_variants u) ->
    typed ret G e (TyWritten ty) -> typed ret G (EVariant (em_token em) name [e]) token
| ty_call ret G f es ts t : function_type f ts t -> typed_all ret G es ts -> typed ret G (ECall f es) t
| ty_method ret G e t name es ts t' : typed ret G e t -> method_type t name ts t' -> typed_all ret G es ts ->
    typed ret G (EMethod e name es) t'
| ty_ref_mut ret G x t : type_of G x = Some t -> typed ret G (ERefMut (EVar x)) (TyRef true t)
| ty_map ret G e t x body t' : typed ret G e (TyOption t) -> typed t' ((x, t) :: G) body t' ->
    typed ret G (EMapOption e x body) (TyOption t')
| ty_map_err ret G e t : typed ret G e (TyResult t TyConversionError) -> u_error u (em_error em) ->
    typed ret G (EMapErr e ["parser_generator"; "error"; "ParserUserErrorOrInfallible"; "into_user_error"]) (TyResult t TyParserError)
| ty_try_into ret G e ty rule ty' : typed ret G e (TyWritten ty) -> u_try_into u ty ty' ->
    typed ret G (ETryInto e rule) (TyResult (TyWritten ty') TyConversionError)
| ty_match ret G e t arms t' : typed ret G e t -> covers (map fst arms) t -> typed_arms ret G t arms t' ->
    typed ret G (EMatch e arms) t'
| ty_sum_matches ret G x ps t : type_of G x = Some t ->
    (forall p, In p ps -> exists bs, matches_type Owned ByMove p t bs) -> ps <> [] ->
    typed ret G (ESumMatches (EVar x) ps) TyUsize
| ty_if_more ret G e n body : typed ret G e TyUsize -> typed ret G body (TyWritten unit_tokens) ->
    typed ret G (EIfMore e n body) (TyWritten unit_tokens)
| ty_format ret G x : type_of G x = Some (TyOption (TyRef false token)) -> u_debug u (em_token em) -> typed ret G (EFormat (EVar x)) TyString
| ty_let ret G x e t rest t' : typed ret G e t -> typed ret ((x, t) :: G) rest t' -> typed ret G (ELet x e rest) t'
| ty_seq ret G e t rest t' : typed ret G e t -> typed ret G rest t' -> typed ret G (ESeq e rest) t'
| ty_debug ret G e rest t' : typed ret G e (TyWritten unit_tokens) -> typed ret G rest t' -> typed ret G (EDebug e rest) t'
| ty_return ret G e t : typed ret G e ret -> typed ret G (EReturn e) t
| ty_try ret G e t err t' err' : typed ret G e (TyResult t err) -> ret = TyResult t' err' -> try_from err err' ->
    typed ret G (ETry e) t
| ty_closure ret G body t : typed (TyResult t user_error) G body (TyResult t user_error) ->
    typed ret G (ECallClosure (em_error em) body) (TyResult t user_error)
| ty_user ret G rule body ty : u_body u rule body (type_of G) ty -> typed ret G (EUser rule body) (TyWritten ty)
| ty_unreachable ret G t : typed ret G EUnreachable t
| ty_loop ret G body t : typed ret G body (TyWritten unit_tokens) -> typed ret G (ELoop body) t
with typed_all : rty -> context -> list expr -> list rty -> Prop :=
| ta_nil ret G : typed_all ret G [] []
| ta_cons ret G e t es ts : typed ret G e t -> typed_all ret G es ts -> typed_all ret G (e :: es) (t :: ts)
with typed_arms : rty -> context -> rty -> list (rpat * expr) -> rty -> Prop :=
| tr_nil ret G t t' : typed_arms ret G t [] t'
| tr_cons ret G t p bs e arms t' : matches_type Owned ByMove p t bs -> typed ret (bs ++ G) e t' -> typed_arms ret G t arms t' ->
    typed_arms ret G t ((p, e) :: arms) t'.

(** The item: names are not declared twice, functions have the types that they
    are called with ([f_signature] lists what is spliced into
    [fn f<I, B: Borrow<_>, E: ParserUserErrorOrInfallible<_, _> + Clone>(
    &mut ParserState<Result<B, E>, _, I>) -> ParserResult<ParserControl<_>, _, _>]),
    and no type parameter of theirs hides a type of the user; the associated types
    meet the bounds of the trait [Parser] (src/parser.rs:6-8), and bodies are typed. *)
Record well_typed : Prop := mk_well_typed {
  wt_token : u_clone u (em_token em) /\ u_debug u (em_token em);
  wt_error : u_error u (em_error em);
  wt_captures : forall f x ty, In f (em_fns em) -> In x (f_generics f) -> In ty (f_signature f) -> ~ In x (heads ty);
  wt_variants : NoDup (map fst (e_variants (em_enum em)));
  wt_names : NoDup (map f_name (em_fns em));
  wt_signatures : forall f, In f (em_fns em) -> f_signature f =
    [em_token em; em_token em; em_error em; [TIdent (e_name (em_enum em))]; em_value em; em_token em; em_error em];
  wt_functions : forall f, In f (em_fns em) -> typed control_result [(f_param f, TyRef true TyParserState)] (f_body f) control_result;
  wt_body : typed (TyResult value TyParserError) [(em_param em, TyInput)] (em_body em) (TyResult value TyParserError);
}.
End Item.

(** *** The user's part is right

    for the declarations of a grammar: tokens are as their terminals say, and
    constructors give values of the types of their labels. *)
Section User.
Variable u : user_code.
Variable d : declarations.

(** The type of a label. *)
Definition label_tokens (l : string) (ty : list ttree) : Prop :=
  exists o, hm_get l (d_label_types d) = Some o /\ ty = match o with Some ts => ts | None => unit_tokens end.

(** The type of the argument that a node is for a constructor. *)
Inductive argument_type : pnode -> list ttree -> Prop :=
| at_label l ty : label_tokens l ty -> argument_type (PNProduction l) ty
| at_token name : argument_type (PNSymbol (mk_symbol name PGNone)) (inner_type (d_terminal_type d))
| at_field name paren ty : paren <> PGNone -> In (name, Some ty) (u_variants u) -> argument_type (PNSymbol (mk_symbol name paren)) ty.

Definition terminal_fits (s : user_symbol) : Prop :=
  match d_terminal_type d, sparen s with
  | TTRaw ty, _ => u_literal u (sname s) ty
  | TTEnum _, PGNone => In (sname s, None) (u_variants u)
  | TTEnum _, PGWildcard => exists ty, In (sname s, Some ty) (u_variants u) /\ u_clone u ty
  | TTEnum _, PGPattern pat => exists ty, In (sname s, Some ty) (u_variants u) /\ u_clone u ty /\ u_pattern u pat ty
  end.

Record user_part_fits : Prop := mk_fits {
  uf_token : u_clone u (inner_type (d_terminal_type d)) /\ u_debug u (inner_type (d_terminal_type d));
  uf_error : u_error u match d_error_type d with Some ty => ty | None => no_error_type end;
  uf_variants : NoDup (map fst (u_variants u));
  uf_terminals : forall s, terminal_in (d_rules d) s -> terminal_fits s;
  uf_conversions : forall r nd ty ty' own, In r (d_rules d) -> pr_block r = None -> pr_type r = Some own -> pr_nodes r = [nd] ->
    argument_type nd ty -> label_tokens (pr_name r) ty' -> u_try_into u ty ty';
  uf_bodies : forall i r dl ts body ty G, nth_error (d_rules d) i = Some r -> pr_block r = Some (dl, ts) -> substituted (pr_nodes r) ts body ->
    label_tokens (pr_name r) ty ->
    (forall k nd ty', nth_error (pr_nodes r) k = Some nd -> argument_type nd ty' -> G (argument_name k) = Some (TyWritten ty')) ->
    u_body u i (map body_text body) G ty;
}.

(** The user's patterns are single ones, and tokens are of a type without
    parameters (if they are variants). *)
Definition single_patterns : Prop :=
  forall name pat, terminal_in (d_rules d) (mk_symbol name (PGPattern pat)) -> u_single u pat.
Definition plain_token_type : Prop :=
  match d_terminal_type d with TTRaw _ => True | TTEnum ty => path_like ty end.

(** The types that occur in signatures do not name their type parameters. *)
Definition parameters_unused : Prop :=
  forall x, In x ["I"; "B"; "E"] -> ~ In x (heads (inner_type (d_terminal_type d))) /\
    ~ In x (heads (value_type (d_rules d))) /\ ~ In x (heads match d_error_type d with Some ty => ty | None => no_error_type end).
End User.
