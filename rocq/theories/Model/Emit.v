(** The Rust code that is emitted: the [quote!] templates of
    parser_generator_impl/src/code_gen, filled in from the [program] that
    Model/CodeGen.v computes.  What is emitted is an item of Model/Rust.v instead
    of a token stream. *)
From Coq Require Import Arith Bool String Ascii NArith List.
From Verif Require Import Base.Prelude Spec.Grammar Model.IndexedGrammar Model.LRTable.
From Verif Require Import Model.TokenTree Model.Terminal Model.Constructor Model.CodeGen Model.Runtime Model.Rust.
From Verif Require Model.TableText.
Import ListNotations.
Open Scope string_scope.
Open Scope list_scope.

(** code_gen/util.rs:9-11 *)
Definition unique_prefixed_ident (name : string) : string := "__parser_generator_" ++ name.

(** code_gen/states_enum.rs:14-20 *)
Definition enum_name (grammar : string) : string := grammar ++ "DfaStates".

(** states_enum.rs:22-24 *)
Definition enum_variant_name (state : nat) : string := "S" ++ TableText.decimal state.

(** states_enum.rs:26-33 *)
Definition qualified_enum_variant_name (grammar : string) (state : nat) : path :=
  [enum_name grammar; enum_variant_name state].

(** states_enum.rs:59-62 *)
Definition enum_matcher (grammar : string) (state : nat) : rpat :=
  PtConRest (qualified_enum_variant_name grammar state).

(** code_gen/state_action_builder.rs:38-40 *)
Definition state_action_function_name (state : nat) : string := "parse_s" ++ TableText.decimal state.

(** state_action_builder.rs:64-66 *)
Definition peeked_val_ident : string := "__peeked_val".

(** code_gen/reduce_rule.rs:26-29 *)
Definition bound_variable_ident (node_index : nat) : string := "__v" ++ TableText.decimal node_index.

(** annotated_grammar/terminal.rs:69-71 *)
Definition wildcard_bound_variable : string := "wildcard_var".

(** parse_grammar.rs:110-125 *)
Inductive error_type := Custom (ty : list ttree) | NoErrorType.
Definition path_sep : list ttree := [TPunct ":" Joint; TPunct ":" Alone].
Definition error_type_tokens (e : error_type) : list ttree :=
  match e with
  | Custom ty => ty
  | NoErrorType =>
      path_sep ++ [TIdent "parser_generator"] ++ path_sep ++ [TIdent "error"] ++ path_sep ++ [TIdent "NoUserErrorType"]
  end.

(** What follows [#enum_type::], and how it is used as a pattern:
    terminal.rs:100-126.  [PClone] is no pattern. *)
Definition emit_pattern (ty : list ttree) (p : pat_code) : rpat :=
  match p with
  | PLiteral l => PtLit l
  | PVariant n => PtVariant ty n None
  | PRest n => PtVariantRest ty n
  | PBind n => PtVariant ty n (Some (PtVar wildcard_bound_variable))
  | PPat n pat => PtVariant ty n (Some (PtUser pat))
  | PBindPat n pat => PtVariant ty n (Some (PtRefBind wildcard_bound_variable (PtUser pat)))
  | PClone _ => PtOr []
  end.

(** ... and as an expression (terminal.rs:114,120,122; parse_grammar.rs:89-92). *)
Definition emit_token (ty : list ttree) (p : pat_code) : expr :=
  match p with
  | PLiteral l => ELit l
  | PVariant n => EVariant ty n []
  | PClone n => EVariant ty n [EMethod (EVar wildcard_bound_variable) "clone" []]
  | _ => EInvalid
  end.

(** parse_grammar.rs:97-108 and state_action_builder.rs:51 *)
Definition emit_matcher (ty : list ttree) (m : matcher) : rpat :=
  match m with
  | MNone => PtCon ["None"] []
  | MSome p =>
      match p with
      | PRest _ | PBind _ => PtCon ["Some"] [emit_pattern ty p]
      | _ => PtCon ["Some"] [PtRef (emit_pattern ty p)]
      end
  end.

(** constructor.rs:137, 148-163: the body after substitution. *)
Fixpoint emit_body (b : cbody) : ttree :=
  match b with
  | CToken t => t
  | CGroup d ts => TGroup d (map emit_body ts)
  | CVar i => TIdent (bound_variable_ident i)
  end.

Section Emit.
Variable grammar : string.            (* the name of the grammar *)
Variable token_type : list ttree.
Variable error_ty : error_type.

Local Notation state_var := (unique_prefixed_ident "state").

(** code_gen/constructor.rs:29-33, 190, 204; the number of the rule is that of
    Model/Runtime.v and not in the text. *)
Definition emit_constructor (rule : nat) (c : ctor_code) : expr :=
  match c with
  | CUnit => EUnit
  | CDefault i => ETry (EMapErr (ETryInto (EVar (bound_variable_ident i)) rule) p_into_user_error)
  | CUser body =>
      ETry (ECallClosure (error_type_tokens error_ty) (ECon ["Ok"] [EUser rule (map emit_body body)]))
  end.

(** reduce_rule.rs:34-67 *)
Definition emit_extract_state (b : bind_code) : expr :=
  EMatch (EMethod (EVar state_var) "pop_state" [])
    (map (fun state =>
       let name := qualified_enum_variant_name grammar state in
       (match b_destruct b with
        | Some variant => PtCon name [PtVariant token_type variant (Some (PtVar "v"))]
        | None => PtCon name [PtVar "v"]
        end, EVar "v")) (b_arms b) ++
     [(PtWild, EUnreachable)]).

(** reduce_rule.rs:72-83, 102-127: the bindings, before [rest]. *)
Fixpoint emit_binds (bs : list bind_code) (rest : expr) : expr :=
  match bs with
  | [] => rest
  | b :: bs' => ELet (bound_variable_ident (b_var b)) (emit_extract_state b) (emit_binds bs' rest)
  end.

(** reduce_rule.rs:133-147 *)
Definition match_any (states : list nat) : rpat := PtOr (map (enum_matcher grammar) states).

(** reduce_rule.rs:149-196, followed by [rest]. *)
Definition emit_goto (rule : nat) (c : ctor_code) (g : goto_code) (rest : expr) : expr :=
  match g with
  | GotoOne next =>
      ESeq (EMethod (EVar state_var) "push" [ECon (qualified_enum_variant_name grammar next) [emit_constructor rule c]]) rest
  | GotoMatch arms =>
      ELet "__constructed" (emit_constructor rule c)
        (ESeq (EMatch (EMethod (EVar state_var) "state" [])
           (map (fun arm : list nat * nat =>
              (match_any (fst arm),
               EMethod (EVar state_var) "push" [ECon (qualified_enum_variant_name grammar (snd arm)) [EVar "__constructed"]])) arms ++
            [(PtWild, EUnreachable)])) rest)
  end.

(** state_action_builder.rs:106-146, before [rest]. *)
Definition emit_check (check : option (list matcher)) (rest : expr) : expr :=
  match check with
  | None => rest
  | Some ms =>
      EDebug
        (ELet "count_matches" (ESumMatches (EVar peeked_val_ident) (map (emit_matcher token_type) ms))
          (EIfMore (EVar "count_matches") 1
             (EReturn (ECon ["Err"] [ECall (p_error "overlapping_token_matchers") [EFormat (EVar peeked_val_ident)]]))))
        rest
  end.

(** state_action_builder.rs:151-169 *)
Definition emit_shift_arm (a : matcher * nat * pat_code) : rpat * expr :=
  let '(m, next, rhs) := a in
  (emit_matcher token_type m, ECon (qualified_enum_variant_name grammar next) [emit_token token_type rhs]).

(** state_action_builder.rs:176-217 *)
Definition emit_reduce_arm (a : list matcher * reduce_code) : rpat * expr :=
  let '(ms, r) := a in
  (PtOr (map (emit_matcher token_type) ms),
   emit_binds (r_binds r) (emit_goto (r_rule r) (r_ctor r) (r_goto r)
     (EReturn (ECon ["Ok"] [ECon (p_control "Continue") []])))).

(** state_action_builder.rs:221-250 *)
Definition emit_accept_arm (a : matcher * accept_code) : rpat * expr :=
  let '(m, a) := a in
  (emit_matcher token_type m,
   emit_binds (a_binds a)
     (ESeq (EMethod (EVar state_var) "verify_empty_stack" [])
        (EReturn (ECon ["Ok"] [ECon (p_control "Accept") [emit_constructor (a_rule a) (a_ctor a)]])))).

(** state_action_builder.rs:262-267 *)
Definition emit_peek_next : expr :=
  ETry (EMethod
    (EMapOption (EMethod (EMethod (EVar state_var) "stream" []) "peek_next" []) "token"
       (EMatch (EVar "token")
          [(PtCon ["Ok"] [PtVar "token"], ECon ["Ok"] [EMethod (EVar "token") "borrow" []]);
           (PtCon ["Err"] [PtVar "err"],
            ECon ["Err"] [EMethod (EMethod (EVar "err") "clone" []) "into_user_error" []])]))
    "transpose" []).

(** state_action_builder.rs:274-281 *)
Definition emit_return_err : list (rpat * expr) :=
  [(PtCon ["Some"] [PtVar "peeked_token"],
    EReturn (ECon ["Err"] [ECall (p_error "new") [ECon ["Some"] [EMethod (EVar "peeked_token") "clone" []]]]));
   (PtCon ["None"] [], EReturn (ECon ["Err"] [ECall (p_error "new") [ECon ["None"] []]]))].

(** state_action_builder.rs:254-314 *)
Definition emit_actions (c : state_code) : expr :=
  let others :=
    map emit_reduce_arm (sc_reduce c) ++
    match sc_accept c with Some a => [emit_accept_arm a] | None => [] end ++
    emit_return_err in
  ELet peeked_val_ident emit_peek_next
    (emit_check (sc_check c)
       (match sc_shift c with
        | [] => EMatch (EVar peeked_val_ident) others
        | shifts =>
            ELet "next_state" (EMatch (EVar peeked_val_ident) (map emit_shift_arm shifts ++ others))
              (ESeq (EMethod (EMethod (EVar state_var) "stream_mut" []) "advance" [])
                 (ESeq (EMethod (EVar state_var) "push" [EVar "next_state"])
                    (ECon ["Ok"] [ECon (p_control "Continue") []])))
        end)).

(** state_action_builder.rs:317-351.  The signature lists what is spliced into
    it, in order. *)
Definition emit_function (result_type : list ttree) (state : nat) (c : state_code) : fn_item :=
  mk_fn (state_action_function_name state) ["I"; "B"; "E"]
    [token_type; token_type; error_type_tokens error_ty; [TIdent (enum_name grammar)]; result_type;
     token_type; error_type_tokens error_ty]
    state_var (emit_actions c).

(** states_enum.rs:50-57, 64-81 *)
Definition emit_enum (types : list (option (list ttree))) : enum_item :=
  mk_enum (enum_name grammar) (map (fun e => (enum_variant_name (fst e), snd e)) (enumerate types)).

(** parse_loop.rs:13-45, in a function with [num_states] states *)
Definition emit_parse_loop (num_states root : nat) : expr :=
  ELet "state"
    (ECall p_state_new
       [EMethod (EVar (unique_prefixed_ident "input_stream")) "into_iter" [];
        ECon (qualified_enum_variant_name grammar root) [EUnit]])
    (ELoop
       (ELet "action"
          (ETry (EMatch (EMethod (EVar "state") "state" [])
             (map (fun s => (enum_matcher grammar s, ECall [state_action_function_name s] [ERefMut (EVar "state")])) (seq 0 num_states))))
          (EMatch (EVar "action")
             [(PtCon (p_control "Accept") [PtVar "result"], EReturn (ECon ["Ok"] [EVar "result"]));
              (PtCon (p_control "Continue") [], EUnit)]))).

End Emit.

(** parser_generator_impl/src/lib.rs:24-27 *)
Inductive visibility := Private | Public.

(** code_gen.rs:46-69: the struct, its associated items, and the function
    [parse_fallible]. *)
Record emitted := mk_emitted {
  em_public : bool;
  em_struct : string;
  em_table_size : nat;
  em_token : list ttree;
  em_value : list ttree;
  em_error : list ttree;
  em_generics : list string;
  em_param : string;
  em_enum : enum_item;
  em_fns : list fn_item;
  em_body : expr;
}.

(** code_gen.rs:15-70, given the program of [generate_parser] and the type of
    the root ([root_production_type], the unit type if it has none). *)
Definition emit (vis : visibility) (grammar : string) (error_ty : error_type) (tt : terminal_type)
    (root_type : option (list ttree)) (p : program) : emitted :=
  let token_type := inner_type tt in
  let result_type := match root_type with Some ty => ty | None => [TGroup Parenthesis []] end in
  mk_emitted
    (match vis with Public => true | Private => false end)
    grammar
    (List.length (p_states p))
    token_type
    result_type
    (error_type_tokens error_ty)
    [unique_prefixed_ident "I"; unique_prefixed_ident "B"; unique_prefixed_ident "E"]
    (unique_prefixed_ident "input_stream")
    (emit_enum grammar (p_types p))
    (map (fun e => emit_function grammar token_type error_ty result_type (fst e) (snd e)) (enumerate (p_states p)))
    (emit_parse_loop grammar (List.length (p_states p)) (p_root p)).

(** Calling [parse_fallible] of the emitted parser. *)
Definition run_emitted {bm : BuildMode} {E : Type} (R : rust) {SErr : Type} (into : SErr -> UErr R)
    (input : nat -> option (tok R + SErr))
    (body_value : nat -> list ttree -> (string -> option (rvalue (Raw R) (Pay R) (UVal R) (UErr R) SErr)) -> val R + UErr R)
    (fuel : nat) (em : emitted) : result (E := E) (SErr := SErr) R :=
  returned R (eval R into input body_value (em_token em) fuel
    (call_fn R into input body_value (em_token em) (em_fns em))
    [(em_param em, VInput)] None (em_body em)).
