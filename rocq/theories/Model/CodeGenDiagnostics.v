(** Model of what generating code reports to the user of [grammar!]: the code
    generator once more (see Model/Constructor.v and Model/CodeGen.v), with the
    spans of tokens and the texts of messages.  Only functions on the way of an
    error that has a place of its own are repeated; the prefix is [cg_]. *)
From Coq Require Import Arith Bool String Ascii NArith List.
From Verif Require Import Base.Prelude Spec.Grammar Model.Error.
From Verif Require Import Model.IndexedGrammar Model.LRTable Model.StateMap.
From Verif Require Import Model.TokenTree Model.Terminal Model.Constructor Model.CodeGen Model.TableText Model.ErrorText Model.Diagnostics.
Import ListNotations.
Open Scope string_scope.
Open Scope list_scope.

(** core::num::ParseIntError, as displayed, for [str::parse::<usize>] of a text
    that is no number: see [parse_usize] in Model/Constructor.v. *)
Definition invalid_digit : string := "invalid digit found in string".
Definition pos_overflow : string := "number too large to fit in target type".

(** A digit is looked at before the number is found to be too large. *)
Fixpoint digits_error (acc : N) (s : string) : string :=
  match s with
  | EmptyString => invalid_digit
  | String c s' =>
      let n := nat_of_ascii c in
      if (48 <=? n)%nat && (n <=? 57)%nat then
        let acc' := (acc * 10 + N.of_nat (n - 48))%N in
        if (acc' <? 2 ^ 64)%N then digits_error acc' s' else pos_overflow
      else invalid_digit
  end.

Definition parse_usize_error (s : string) : string :=
  match s with
  | EmptyString => "cannot parse integer from empty string"
  | String "+" EmptyString => invalid_digit
  | String "+" s' => digits_error 0 s'
  | _ => digits_error 0 s
  end.

Section Spans.
(** As in Model/Diagnostics.v; [lex_error] is the text of the error of
    [proc_macro2::Literal::from_str]. *)
Variable span : Type.
Variable call_site : span.
Variable lex_error : string -> string.
Local Notation diag := (diag span).
Local Notation mk_diag := (mk_diag span).
Local Notation stree := (stree span).
Local Notation st_span := (st_span span).
Local Notation st_tree := (st_tree span).

(** production_rule.rs:41-47; [sr_span] is the span of the metadata of the rule,
    which is that of its nodes (Model/Diagnostics.v, [sp_parse_rule]). *)
Record srule := mk_srule {
  sr_name : string;
  sr_type : option (list ttree);
  sr_nodes : list pnode;
  sr_block : option (delimiter * list stree * span);
  sr_span : span;
}.

(** The rule without spans, as in Model/Constructor.v. *)
Definition sr_rule (r : srule) : prule :=
  mk_prule (sr_name r) (sr_type r) (sr_nodes r)
    (option_map (block_tree span) (sr_block r)).

(** constructor.rs:19-34 *)
Definition cg_default_constructor (r : srule) : outcome diag ctor_code :=
  if negb (List.length (sr_nodes r) =? 1)%nat then
    Err (mk_diag "Must provide a constructor for rules with more than 1 node" (sr_span r))
  else Ok (CDefault 0).

(** constructor.rs:69-90 *)
Definition cg_lookup_label (m : subst_map) (ident : string) (sp : span) : outcome diag nat :=
  match hm_get ident (production_label_map m) with
  | None => Err (mk_diag "Unrecognized production label: not found in rule" sp)
  | Some None =>
      Err (mk_diag ("Cannot refer to production by name, as it appears multiple times in " ++
                    "the rule. Use `#n` instead, where `n` is the index in the rule.") sp)
  | Some (Some index) => Ok index
  end.

(** constructor.rs:92-118 *)
Definition cg_literal_to_index (m : subst_map) (literal : string) (sp : span) (rule : list pnode)
  : outcome diag nat :=
  match parse_usize literal with
  | None => Err (mk_diag (parse_usize_error literal) sp)
  | Some i =>
      if (N.of_nat (num_nodes m) <=? i)%N then
        Err (mk_diag ("Index is out of range of rules, expected within [0, " ++ decimal (num_nodes m) ++ ")") sp)
      else
        let index := N.to_nat i in
        node <- Base.Prelude.index rule index ;;
        if pnode_is_epsilon node then
          Err (mk_diag ("Index " ++ decimal index ++ " refers to `!` which matches nothing") sp)
        else Ok index
  end.

(** constructor.rs:120-138, applied to the token after the [#]; [rule_span] is
    the span of the [#]. *)
Definition cg_substitute_at (m : subst_map) (rule : list pnode) (next : option stree) (rule_span : span)
  : outcome diag nat :=
  match next with
  | Some (STIdent _ ident sp) => cg_lookup_label m ident sp
  | Some (STLiteral _ literal sp) => cg_literal_to_index m literal sp rule
  | _ => Err (mk_diag "`#` must be followed by an identifier or index" rule_span)
  end.

(** terminal.rs:14-20, inlined in constructor.rs:155 *)
Definition st_is_number_sign (t : stree) : bool :=
  match t with
  | STPunct _ c s _ => eqb s Alone && eqb c "#"%char
  | _ => false
  end.

(** constructor.rs:140-168, as [substitute_tree] and [substitute_vars] in
    Model/Constructor.v.  The spans of what is generated are not modelled. *)
Fixpoint cg_substitute_tree (m : subst_map) (rule : list pnode) (t : stree) : outcome diag cbody :=
  match t with
  | STGroup _ d ts _ =>
      let fix vars (ts : list stree) : outcome diag (list cbody) :=
        match ts with
        | [] => Ok []
        | t :: ts' =>
            if st_is_number_sign t then
              index <- cg_substitute_at m rule (hd_error ts') (st_span t) ;;
              match ts' with
              | [] => Ok [CVar index]
              | _ :: rest => r <- vars rest ;; Ok (CVar index :: r)
              end
            else
              c <- cg_substitute_tree m rule t ;;
              r <- vars ts' ;;
              Ok (c :: r)
        end in
      body <- vars ts ;;
      Ok (CGroup d body)
  | _ => Ok (CToken (st_tree t))
  end.

Fixpoint cg_substitute_vars (m : subst_map) (rule : list pnode) (ts : list stree)
  : outcome diag (list cbody) :=
  match ts with
  | [] => Ok []
  | t :: ts' =>
      if st_is_number_sign t then
        index <- cg_substitute_at m rule (hd_error ts') (st_span t) ;;
        match ts' with
        | [] => Ok [CVar index]
        | _ :: rest => r <- cg_substitute_vars m rule rest ;; Ok (CVar index :: r)
        end
      else
        c <- cg_substitute_tree m rule t ;;
        r <- cg_substitute_vars m rule ts' ;;
        Ok (c :: r)
  end.

(** constructor.rs:171-191 *)
Definition cg_rewrite_provided_constructor (rule : list pnode) (block : delimiter * list stree * span)
  : outcome diag ctor_code :=
  let '(delim, stream, sp) := block in
  if negb (eqb delim Brace) then Err (mk_diag "Constructor must be delimited by ""{}""" sp)
  else
    body <- cg_substitute_vars (subst_build rule) rule stream ;;
    Ok (CUser body).

(** constructor.rs:193-208 *)
Definition cg_build_constructor (rules : list srule) (production_rule : nat) : outcome diag ctor_code :=
  rule <- index rules production_rule ;;
  match sr_block rule with
  | Some constructor => cg_rewrite_provided_constructor (sr_nodes rule) constructor
  | None =>
      match sr_type rule with
      | Some _ => cg_default_constructor rule
      | None => Ok CUnit
      end
  end.

(** The errors with no place of their own: terminal.rs:85-94, parse_grammar.rs:166-169.
    The others are not raised where this is used. *)
Definition cg_error (e : gen_error) : diag :=
  match e with
  | LiteralWithPattern => mk_diag "Cannot cast UserDefinedSymbol with pattern to literal" call_site
  | NotALiteral text => mk_diag (lex_error text) call_site
  | LRError e => mk_diag (show_lr_error show_user_symbol show_ref_name e) call_site
  | _ => mk_diag "" call_site
  end.
Definition cg {A} (m : outcome gen_error A) : outcome diag A := map_err cg_error m.

Section CodeGen.
Context {bm : BuildMode}.
Variable literal_ok : string -> bool.
Variable ho : hash_orders.
(** The rules of [gi] are not used; they are those of [rules], without spans. *)
Variable gi : grammar_info.
Variable rules : list srule.

Local Notation grammar := (gi_grammar gi).
Local Notation table := (gi_table gi).
Local Notation sym := user_symbol.
Local Notation matcher_of := (token_matcher literal_ok (gi_terminal_type gi)).

(** reduce_rule.rs:149-196 *)
Definition cg_apply_goto (key : list nat) (rule_applied label : nat) (possible_states : list nat)
  : outcome diag (ctor_code * goto_code) :=
  goto_map <- foldM (fun goto_map state =>
      og <- get_goto table state label ;;
      goto <- expect og "Missing expected goto action for label" ;;
      Ok (hm_push goto state goto_map)) [] (ho_set ho key possible_states) ;;
  constructor <- cg_build_constructor rules rule_applied ;;
  if (List.length goto_map =? 1)%nat then
    goto_state <- expect (hd_error (map fst (ho_goto ho key goto_map)))
                    "Goto map was just verified to be nonempty..." ;;
    Ok (constructor, GotoOne goto_state)
  else
    Ok (constructor, GotoMatch (map (fun e => (snd e, fst e)) (ho_goto ho key goto_map))).

(** state_action_builder.rs:176-217 *)
Definition cg_reduce_match_and_return (state_id : nat) (m : like_actions) (sm : list (state_info sym))
  : outcome diag (list (list matcher * reduce_code)) :=
  mapM (fun e : nat * list (aug sym) =>
      let '(rule_id, tokens) := e in
      ms <- cg (mapM (fun token => matcher_of token Unnamed) tokens) ;;
      rule <- production_rule grammar rule_id ;;
      '(binds, next_states) <- cg (bind_production_nodes_to_locals ho [state_id; rule_id] state_id rule sm) ;;
      '(ctor, goto) <- cg_apply_goto [state_id; rule_id] (original_index rule) (isymbol rule) next_states ;;
      Ok (ms, mk_reduce binds (original_index rule) ctor goto)) (ho_reduce ho [state_id] (reduce_map m)).

(** state_action_builder.rs:221-250 *)
Definition cg_accept_match_and_return (state_id : nat) (m : like_actions) (sm : list (state_info sym))
  : outcome diag (option (matcher * accept_code)) :=
  match accept m with
  | None => Ok None
  | Some accept_token =>
      mt <- cg (matcher_of accept_token Unnamed) ;;
      root_rule <- production_rule grammar root_production_rule ;;
      '(binds, next_states) <-
        cg (bind_production_nodes_to_locals ho [state_id; root_production_rule] state_id root_rule sm) ;;
      _ <- debug_assert (eqb (ho_set ho [state_id] next_states) [root_state])
             "next_states == [root_state]" ;;
      ctor <- cg_build_constructor rules 0 ;;
      Ok (Some (mt, mk_accept binds 0 ctor))
  end.

(** state_action_builder.rs:254-314, 317-351 *)
Definition cg_generate_state_action_function (sm : list (state_info sym)) (state_id : nat)
  : outcome diag state_code :=
  m <- cg (build_for_state gi state_id) ;;
  check <- cg (debug_check_token_conflict literal_ok ho gi state_id m) ;;
  reduces <- cg_reduce_match_and_return state_id m sm ;;
  acc <- cg_accept_match_and_return state_id m sm ;;
  shifts <- cg (shift_match_and_yield literal_ok gi m) ;;
  Ok (mk_state_code check shifts reduces acc).

(** code_gen.rs:15-70, parse_loop.rs:13-45 *)
Definition cg_generate_parser : outcome diag program :=
  sm <- cg (build_lr_state_map ho gi) ;;
  _ <- cg (root_production_type gi) ;;
  types <- cg (generate_dfa_states gi sm) ;;
  states <- mapM (cg_generate_state_action_function sm) (table_states table) ;;
  Ok (mk_program types states root_state).

End CodeGen.
End Spans.
