(** Model of parser_generator_impl/src/code_gen: what is generated is a small
    abstract syntax ([program]) in place of a Rust token stream.  Names of
    types, functions and enum variants are replaced by state numbers. *)
From Coq Require Import Arith Bool String Ascii NArith List.
From Verif Require Import Base.Prelude Spec.Grammar Model.Error.
From Verif Require Import Model.IndexedGrammar Model.LRTable Model.StateMap.
From Verif Require Import Model.TokenTree Model.Terminal Model.Constructor.
Import ListNotations.

(** annotated_grammar/parse_grammar.rs:127-135; the name and the error type are
    omitted. *)
Record grammar_info := mk_grammar_info {
  gi_terminal_type : terminal_type;
  gi_label_types : hash_map string (option (list ttree));
  gi_rules : list prule;
  gi_grammar : indexed_grammar user_symbol string;
  gi_table : lr_table;
}.

(** The orders in which the hash maps and hash sets created during code
    generation enumerate their elements.  The first argument (of type [list
    nat]) tells the collections apart, since the order of one says nothing about
    the order of another. *)
Record hash_orders := mk_orders {
  ho_states : hash_map nat (state_ty user_symbol) -> list (nat * state_ty user_symbol);
  ho_set : list nat -> list nat -> list nat;
  ho_reduce : list nat -> hash_map nat (list (aug user_symbol)) -> list (nat * list (aug user_symbol));
  ho_goto : list nat -> hash_map nat (list nat) -> list (nat * list nat);
}.

(** reduce_rule.rs:34-83: [let mut __v{b_var} = match state.pop_state() { ... }]
    with one arm [S(v) => v], or [S(T::name(v)) => v], for each of the states and
    [unreachable_unchecked] otherwise. *)
Record bind_code := mk_bind {
  b_var : nat;
  b_arms : list nat;
  b_destruct : option string;
}.

(** reduce_rule.rs:149-196: the constructor of a rule of the source grammar and
    what is pushed. *)
Inductive goto_code :=
| GotoOne (next_state : nat)
| GotoMatch (arms : list (list nat * nat)).

Record reduce_code := mk_reduce {
  r_binds : list bind_code;
  r_rule : nat;
  r_ctor : ctor_code;
  r_goto : goto_code;
}.

(** state_action_builder.rs:221-250 *)
Record accept_code := mk_accept {
  a_binds : list bind_code;
  a_rule : nat;
  a_ctor : ctor_code;
}.

(** state_action_builder.rs:254-314: one state function.  [sc_check] lists the
    patterns counted by the [cfg(debug_assertions)] block, if there is one.
    [sc_shift]: matcher, next state and the token pushed with it. *)
Record state_code := mk_state_code {
  sc_check : option (list matcher);
  sc_shift : list (matcher * nat * pat_code);
  sc_reduce : list (list matcher * reduce_code);
  sc_accept : option (matcher * accept_code);
}.

(** code_gen.rs:15-70: the payload types of the state enum and the state
    functions, by state; the root state is the one the loop starts in. *)
Record program := mk_program {
  p_types : list (option (list ttree));
  p_states : list state_code;
  p_root : nat;
}.

(** [entry(k).or_default().push(v)] *)
Fixpoint hm_push {K V} `{EqDec K} (k : K) (v : V) (m : hash_map K (list V)) : hash_map K (list V) :=
  match m with
  | [] => [(k, [v])]
  | (k', vs) :: m' => if eq_dec k k' then (k', vs ++ [v]) :: m' else (k', vs) :: hm_push k v m'
  end.

(** [HashSet::extend] *)
Definition hs_extend (s : list nat) (xs : list nat) : list nat :=
  fold_left (fun s x => if in_dec Nat.eq_dec x s then s else s ++ [x]) xs s.

Section CodeGen.
Context {bm : BuildMode}.
Variable literal_ok : string -> bool.
Variable ho : hash_orders.
Variable gi : grammar_info.

Local Notation grammar := (gi_grammar gi).
Local Notation table := (gi_table gi).
Local Notation sym := user_symbol.
Local Notation matcher_of := (token_matcher literal_ok (gi_terminal_type gi)).

(** parse_grammar.rs:150-152 with label_type_map.rs:25-27: indexing a HashMap. *)
Definition label_type (label : string) : outcome gen_error (option (list ttree)) :=
  expect (hm_get label (gi_label_types gi)) "label_types[label]".

(** state_action_builder.rs:28-36; [None] is the unit type. *)
Definition root_production_type : outcome gen_error (option (list ttree)) :=
  root_label <- orig_production_label grammar root_production_label ;;
  label_type root_label.

(** states_enum.rs:35-48 *)
Definition state_payload_type (sm : list (state_info sym)) (state : nat)
  : outcome gen_error (option (list ttree)) :=
  ty <- state_type sm state ;;
  match ty with
  | TyReduce production =>
      label <- orig_production_label grammar production ;;
      label_type label
  | TyTerminal _ => Ok (Some (inner_type (gi_terminal_type gi)))
  | TyRoot => Ok None
  end.

(** states_enum.rs:64-81 *)
Definition generate_dfa_states (sm : list (state_info sym)) : outcome gen_error (list (option (list ttree))) :=
  mapM (state_payload_type sm) (table_states table).

(** reduce_rule.rs:34-83.  The pattern is the same in all arms; with no state
    there would be no arm. *)
Definition bind_production_node (node_index : nat) (ty : state_ty sym) (states : list nat)
  : outcome gen_error bind_code :=
  match ty with
  | TyTerminal (Token token) =>
      if is_pattern_symbol token || is_wildcard_symbol token then
        ident <- as_ident token ;;
        Ok (mk_bind node_index states (Some ident))
      else Ok (mk_bind node_index states None)
  | _ => Ok (mk_bind node_index states None)
  end.

(** reduce_rule.rs:104-127: the loop over the nodes, last one first.  The three
    iterations over one set ([iter().next()], [iter()], [into_iter()]) go in the
    same order, as the set is not modified in between. *)
Fixpoint bind_nodes (key : list nat) (sm : list (state_info sym)) (nodes : list (nat * inode)) (states : list nat)
  : outcome gen_error (list bind_code * list nat) :=
  match nodes with
  | [] => Ok ([], states)
  | (node_index, nd) :: nodes' =>
      if is_epsilon nd then bind_nodes key sm nodes' states
      else
        let iter := ho_set ho (key ++ [node_index]) states in
        representative <- expect (hd_error iter) "Unexpected empty state set when building rule reduction" ;;
        ty <- state_type sm representative ;;
        b <- bind_production_node node_index ty iter ;;
        next <- foldM (fun next_states s =>
            edges <- back_edges sm s ;;
            Ok (hs_extend next_states edges)) [] iter ;;
        '(bs, final) <- bind_nodes key sm nodes' next ;;
        Ok (b :: bs, final)
  end.

(** reduce_rule.rs:91-130 *)
Definition bind_production_nodes_to_locals (key : list nat) (state_id : nat) (rule : indexed_rule)
    (sm : list (state_info sym)) : outcome gen_error (list bind_code * list nat) :=
  bind_nodes key sm (rev (enumerate (irhs rule))) [state_id].

(** reduce_rule.rs:149-196 *)
Definition apply_goto (key : list nat) (rule_applied label : nat) (possible_states : list nat)
  : outcome gen_error (ctor_code * goto_code) :=
  goto_map <- foldM (fun goto_map state =>
      og <- get_goto table state label ;;
      goto <- expect og "Missing expected goto action for label" ;;
      Ok (hm_push goto state goto_map)) [] (ho_set ho key possible_states) ;;
  constructor <- build_constructor (gi_rules gi) rule_applied ;;
  if List.length goto_map =? 1 then
    goto_state <- expect (hd_error (map fst (ho_goto ho key goto_map)))
                    "Goto map was just verified to be nonempty..." ;;
    Ok (constructor, GotoOne goto_state)
  else
    Ok (constructor, GotoMatch (map (fun e => (snd e, fst e)) (ho_goto ho key goto_map))).

(** state_action_builder.rs:57-61 *)
Record like_actions := mk_like {
  reduce_map : hash_map nat (list (aug sym));
  shift_map : list (aug sym * nat);
  accept : option (aug sym);
}.

(** state_action_builder.rs:71-89 *)
Definition build_for_state (state_id : nat) : outcome gen_error like_actions :=
  acts <- state_actions table grammar state_id ;;
  foldM (fun m (e : aug sym * action) =>
      let '(token, action) := e in
      match action with
      | Shift next_state => Ok (mk_like (reduce_map m) (shift_map m ++ [(token, next_state)]) (accept m))
      | Reduce rule => Ok (mk_like (hm_push rule token (reduce_map m)) (shift_map m) (accept m))
      | Accept =>
          _ <- debug_assert (match accept m with None => true | Some _ => false end)
                 "action_map.accept.is_none()" ;;
          Ok (mk_like (reduce_map m) (shift_map m) (Some token))
      end) (mk_like [] [] None) acts.

(** state_action_builder.rs:92-99.  The reduce map is never modified after it
    was built, so that every iteration over it goes in the same order. *)
Definition all_lookahead_tokens (state_id : nat) (m : like_actions) : list (aug sym) :=
  concat (map snd (ho_reduce ho [state_id] (reduce_map m))) ++ map fst (shift_map m) ++
  match accept m with Some t => [t] | None => [] end.

(** state_action_builder.rs:106-146 *)
Definition debug_check_token_conflict (state_id : nat) (m : like_actions)
  : outcome gen_error (option (list matcher)) :=
  match gi_terminal_type gi with
  | TTRaw _ => Ok None
  | TTEnum _ =>
      let all_tokens := filter (fun t => match t with Token _ => true | _ => false end)
                          (all_lookahead_tokens state_id m) in
      match all_tokens with
      | [] => Ok None
      | _ =>
          ms <- mapM (fun token => matcher_of token Unnamed) all_tokens ;;
          Ok (Some ms)
      end
  end.

(** state_action_builder.rs:151-169 *)
Definition shift_match_and_yield (m : like_actions) : outcome gen_error (list (matcher * nat * pat_code)) :=
  mapM (fun e : aug sym * nat =>
      let '(token, next_state) := e in
      mt <- matcher_of token Named ;;
      user_token <- expect (match token with Token t => Some t | _ => None end)
        "shift_map should not contain epsilon/eof" ;;
      rhs <- try_build_pattern literal_ok (gi_terminal_type gi) user_token Rhs ;;
      Ok (mt, next_state, rhs)) (shift_map m).

(** state_action_builder.rs:176-217 *)
Definition reduce_match_and_return (state_id : nat) (m : like_actions) (sm : list (state_info sym))
  : outcome gen_error (list (list matcher * reduce_code)) :=
  mapM (fun e : nat * list (aug sym) =>
      let '(rule_id, tokens) := e in
      ms <- mapM (fun token => matcher_of token Unnamed) tokens ;;
      rule <- production_rule grammar rule_id ;;
      '(binds, next_states) <- bind_production_nodes_to_locals [state_id; rule_id] state_id rule sm ;;
      '(ctor, goto) <- apply_goto [state_id; rule_id] (original_index rule) (isymbol rule) next_states ;;
      Ok (ms, mk_reduce binds (original_index rule) ctor goto)) (ho_reduce ho [state_id] (reduce_map m)).

(** state_action_builder.rs:221-250 *)
Definition accept_match_and_return (state_id : nat) (m : like_actions) (sm : list (state_info sym))
  : outcome gen_error (option (matcher * accept_code)) :=
  match accept m with
  | None => Ok None
  | Some accept_token =>
      mt <- matcher_of accept_token Unnamed ;;
      root_rule <- production_rule grammar root_production_rule ;;
      '(binds, next_states) <- bind_production_nodes_to_locals [state_id; root_production_rule] state_id root_rule sm ;;
      _ <- debug_assert (eqb (ho_set ho [state_id] next_states) [root_state])
             "next_states == [root_state]" ;;
      ctor <- build_constructor (gi_rules gi) 0 ;;
      Ok (Some (mt, mk_accept binds 0 ctor))
  end.

(** state_action_builder.rs:254-314, 317-351.  When there is no shift the match
    is the last expression of the function and otherwise it is followed by the
    push; as all other arms return this makes no difference.  The call of
    [root_production_type] (line 325) is left out: it is the same call that
    [generate_parser] made before. *)
Definition generate_state_action_function (sm : list (state_info sym)) (state_id : nat)
  : outcome gen_error state_code :=
  m <- build_for_state state_id ;;
  check <- debug_check_token_conflict state_id m ;;
  reduces <- reduce_match_and_return state_id m sm ;;
  acc <- accept_match_and_return state_id m sm ;;
  shifts <- shift_match_and_yield m ;;
  Ok (mk_state_code check shifts reduces acc).

(** parse_grammar.rs:166-169 *)
Definition build_lr_state_map : outcome gen_error (list (state_info sym)) :=
  map_err LRError (build_from_lr_table (ho_states ho) grammar table).

(** code_gen.rs:15-70, parse_loop.rs:13-45 *)
Definition generate_parser : outcome gen_error program :=
  sm <- build_lr_state_map ;;
  _ <- root_production_type ;;
  types <- generate_dfa_states sm ;;
  states <- mapM (generate_state_action_function sm) (table_states table) ;;
  Ok (mk_program types states root_state).

End CodeGen.
