(** Model of the run-time library (src/parser.rs, parser_state.rs,
    parser_stream.rs, error.rs) and of running a generated parser, i.e. the meaning
    of the Rust code that Model/CodeGen.v represents as a [program]. *)
From Coq Require Import Arith Bool String Ascii NArith List.
From Verif Require Import Base.Prelude Spec.Grammar.
From Verif Require Import Model.TokenTree Model.Terminal Model.Constructor Model.CodeGen.
Import ListNotations.

(** Tokens: values of an [enum_terminal] type are a variant with at most one
    field; values of a [terminal] type are anything. *)
Inductive token (Raw Pay : Type) :=
| TVariant (name : string) (field : option Pay)
| TRaw (r : Raw).
Arguments TVariant {Raw Pay}.
Arguments TRaw {Raw Pay}.

(** Values on the parser's stack and in its local variables. *)
Inductive rval (Raw Pay U : Type) :=
| RUnit
| RTok (t : token Raw Pay)
| RPay (p : Pay)
| RUser (u : U).
Arguments RUnit {Raw Pay U}.
Arguments RTok {Raw Pay U}.
Arguments RPay {Raw Pay U}.
Arguments RUser {Raw Pay U}.

(** The parts of a generated parser that the user writes or that Rust
    defines: the value of a literal, which field values a pattern matches, what
    the body of a constructor evaluates to given the variables [__v{i}], and what
    [try_into] does in the default constructor of a rule.  Constructors are
    functions of the variables, i.e. without side effects; values of fields are
    assumed to equal their clones. *)
Record rust := mk_rust {
  Raw : Type;
  Pay : Type;
  UVal : Type;
  UErr : Type;
  Raw_dec : EqDec Raw;
  literal_value : string -> Raw;
  pat_matches : string -> Pay -> bool;
  user_ctor : nat -> list cbody -> list (nat * rval Raw Pay UVal) -> rval Raw Pay UVal + UErr;
  default_ctor : nat -> rval Raw Pay UVal -> rval Raw Pay UVal + UErr;
}.

Section Runtime.
Context {bm : BuildMode} {E : Type} (R : rust).

Definition tok := token (Raw R) (Pay R).
Definition val := rval (Raw R) (Pay R) (UVal R).
Definition env := list (nat * val).

(** src/error.rs:34-44; the formatted token of [OverlappingTokenMatchers] is the
    token. *)
Inductive parser_error :=
| ParseError (next_token : option tok)
| OverlappingTokenMatchers (t : tok)
| UserError (e : UErr R).

(** The meaning of patterns: [Some b] if the token matches, where [b] is the
    value bound to [wildcard_var], if any.  A pattern for a variant without
    field, used on a token type whose variant has one (or the other way round), is
    a compile error in Rust; here such a pattern simply does not match. *)
Definition match_pat (p : pat_code) (t : tok) : option (option (Pay R)) :=
  match p, t with
  | PLiteral s, TRaw r => if Raw_dec R r (literal_value R s) then Some None else None
  | PVariant n, TVariant n' None => if eqb n n' then Some None else None
  | PRest n, TVariant n' (Some _) => if eqb n n' then Some None else None
  | PBind n, TVariant n' (Some f) => if eqb n n' then Some (Some f) else None
  | PPat n pat, TVariant n' (Some f) =>
      if eqb n n' && pat_matches R pat f then Some None else None
  | PBindPat n pat, TVariant n' (Some f) =>
      if eqb n n' && pat_matches R pat f then Some (Some f) else None
  | _, _ => None
  end.

(** The meaning of a pattern in [Rhs] mode as an expression. *)
Definition eval_rhs (p : pat_code) (bound : option (Pay R)) : outcome E tok :=
  match p with
  | PLiteral s => Ok (TRaw (literal_value R s))
  | PVariant n => Ok (TVariant n None)
  | PClone n =>
      match bound with
      | Some f => Ok (TVariant n (Some f))
      | None => Panic "does not compile: wildcard_var is not bound"
      end
  | _ => Panic "does not compile: not an expression"
  end.

Definition match_matcher (m : matcher) (peeked : option tok) : option (option (Pay R)) :=
  match m, peeked with
  | MNone, None => Some None
  | MSome p, Some t => match_pat p t
  | _, _ => None
  end.

Definition matches (peeked : option tok) (m : matcher) : bool :=
  match match_matcher m peeked with Some _ => true | None => false end.

Section Run.
Context {SErr : Type}.
(** The conversion of an error of the input stream into the error type of the
    grammar ([Into], error.rs:13-17). *)
Variable into : SErr -> UErr R.
(** The input iterator: what the n-th call of [next] returns. *)
Variable input : nat -> option (tok + SErr).

(** src/parser_stream.rs:1-4: the number of times [next] was called on the
    iterator, and the last thing it returned. *)
Record stream := mk_stream { s_calls : nat; s_next : option (tok + SErr) }.

(** parser_stream.rs:10-13 *)
Definition stream_new : stream := mk_stream 1 (input 0).

(** parser_stream.rs:15-17 *)
Definition peek_next (s : stream) : option (tok + SErr) := s_next s.

(** parser_stream.rs:19-22 *)
Definition advance (s : stream) : outcome E stream :=
  _ <- debug_assert (match s_next s with Some _ => true | None => false end) "self.next.is_some()" ;;
  Ok (mk_stream (s_calls s + 1) (input (s_calls s))).

(** src/parser_state.rs:8-11.  The stack, top first, holds enum values: state
    and payload.  [st_log], which the code does not have, records the
    constructors that were run (rule and variables), oldest first. *)
Record pstate := mk_pstate {
  st_stream : stream;
  st_stack : list (nat * val);
  st_log : list (nat * env);
}.

(** parser_state.rs:14-22 *)
Definition state_new (initial : nat * val) : pstate := mk_pstate stream_new [initial] [].

(** parser_state.rs:32-34 *)
Definition push (s : nat * val) (st : pstate) : pstate :=
  mk_pstate (st_stream st) (s :: st_stack st) (st_log st).

(** parser_state.rs:36-38; [unwrap_unchecked] of [None] is undefined behaviour. *)
Definition state (st : pstate) : outcome E (nat * val) :=
  expect (hd_error (st_stack st)) "undefined behaviour: state() on an empty stack".

(** parser_state.rs:40-42 *)
Definition pop_state (st : pstate) : outcome E ((nat * val) * pstate) :=
  match st_stack st with
  | [] => Panic "undefined behaviour: pop_state() on an empty stack"
  | s :: rest => Ok (s, mk_pstate (st_stream st) rest (st_log st))
  end.

(** parser_state.rs:44-47 *)
Definition verify_empty_stack (st : pstate) : outcome E unit :=
  debug_assert (List.length (st_stack st) =? 1) "self.stack.len() == 1".

(** Matching a popped enum value against the arms of a [bind_code]. *)
Definition extract (b : bind_code) (s : nat * val) : outcome E val :=
  let '(state, v) := s in
  if in_dec Nat.eq_dec state (b_arms b) then
    match b_destruct b with
    | None => Ok v
    | Some name =>
        match v with
        | RTok (TVariant name' (Some f)) =>
            if eqb name name' then Ok (RPay f)
            else Panic "undefined behaviour: unreachable_unchecked"
        | _ => Panic "undefined behaviour: unreachable_unchecked"
        end
    end
  else Panic "undefined behaviour: unreachable_unchecked".

(** Running the [let mut __v{i} = ...] statements of a reduction. *)
Fixpoint exec_binds (bs : list bind_code) (st : pstate) (vars : env) : outcome E (pstate * env) :=
  match bs with
  | [] => Ok (st, vars)
  | b :: bs' =>
      '(s, st') <- pop_state st ;;
      v <- extract b s ;;
      exec_binds bs' st' ((b_var b, v) :: vars)
  end.

Fixpoint var_lookup (i : nat) (vars : env) : option val :=
  match vars with
  | [] => None
  | (j, v) :: vars' => if i =? j then Some v else var_lookup i vars'
  end.

(** Running a constructor. *)
Definition eval_ctor (rule : nat) (c : ctor_code) (vars : env) : outcome E (val + UErr R) :=
  match c with
  | CUnit => Ok (inl RUnit)
  | CDefault i =>
      match var_lookup i vars with
      | Some v => Ok (default_ctor R rule v)
      | None => Panic "does not compile: __v is not bound"
      end
  | CUser body => Ok (user_ctor R rule body vars)
  end.

Definition exec_ctor (rule : nat) (c : ctor_code) (vars : env) (st : pstate)
  : outcome E (pstate * (val + UErr R)) :=
  r <- eval_ctor rule c vars ;;
  Ok (mk_pstate (st_stream st) (st_stack st) (st_log st ++ [(rule, vars)]), r).

(** parser_state.rs:3-6 [ParserControl] inside a [Result]. *)
Inductive control :=
| Continue
| Accepted (v : val)
| Failed (e : parser_error).

(** The arms [S1(..) | S2(..) => state.push(G(__constructed))] of a goto. *)
Fixpoint goto_arm (arms : list (list nat * nat)) (s : nat) : option nat :=
  match arms with
  | [] => None
  | (from_states, next) :: arms' =>
      if in_dec Nat.eq_dec s from_states then Some next else goto_arm arms' s
  end.

Definition exec_goto (g : goto_code) (v : val) (st : pstate) : outcome E pstate :=
  match g with
  | GotoOne next => Ok (push (next, v) st)
  | GotoMatch arms =>
      s <- state st ;;
      match goto_arm arms (fst s) with
      | Some next => Ok (push (next, v) st)
      | None => Panic "undefined behaviour: unreachable_unchecked"
      end
  end.

Definition exec_reduce (r : reduce_code) (st : pstate) : outcome E (pstate * control) :=
  '(st, vars) <- exec_binds (r_binds r) st [] ;;
  '(st, v) <- exec_ctor (r_rule r) (r_ctor r) vars st ;;
  match v with
  | inr e => Ok (st, Failed (UserError e))
  | inl v => st <- exec_goto (r_goto r) v st ;; Ok (st, Continue)
  end.

Definition exec_accept (a : accept_code) (st : pstate) : outcome E (pstate * control) :=
  '(st, vars) <- exec_binds (a_binds a) st [] ;;
  _ <- verify_empty_stack st ;;
  '(st, v) <- exec_ctor (a_rule a) (a_ctor a) vars st ;;
  match v with
  | inr e => Ok (st, Failed (UserError e))
  | inl v => Ok (st, Accepted v)
  end.

(** The arms of the [match] on the peeked token, tried in order: shifts,
    reductions, acceptance, and the two error arms. *)
Fixpoint find_shift (arms : list (matcher * nat * pat_code)) (peeked : option tok)
  : option (nat * pat_code * option (Pay R)) :=
  match arms with
  | [] => None
  | (m, next, rhs) :: arms' =>
      match match_matcher m peeked with
      | Some bound => Some (next, rhs, bound)
      | None => find_shift arms' peeked
      end
  end.

Fixpoint find_reduce (arms : list (list matcher * reduce_code)) (peeked : option tok) : option reduce_code :=
  match arms with
  | [] => None
  | (ms, r) :: arms' => if existsb (matches peeked) ms then Some r else find_reduce arms' peeked
  end.

Definition exec_match (c : state_code) (peeked : option tok) (st : pstate) : outcome E (pstate * control) :=
  match find_shift (sc_shift c) peeked with
  | Some (next, rhs, bound) =>
      t <- eval_rhs rhs bound ;;
      s <- advance (st_stream st) ;;
      Ok (push (next, RTok t) (mk_pstate s (st_stack st) (st_log st)), Continue)
  | None =>
      match find_reduce (sc_reduce c) peeked with
      | Some r => exec_reduce r st
      | None =>
          match sc_accept c with
          | Some (m, a) => if matches peeked m then exec_accept a st else Ok (st, Failed (ParseError peeked))
          | None => Ok (st, Failed (ParseError peeked))
          end
      end
  end.

(** state_action_builder.rs:123-135: the number of lookahead patterns that match. *)
Definition count_matches (ms : list matcher) (peeked : option tok) : nat :=
  List.length (filter (matches peeked) ms).

(** A state function, state_action_builder.rs:254-314.  In a check that fails
    the peeked value is a token, as only patterns for tokens are counted. *)
Definition exec_state (c : state_code) (st : pstate) : outcome E (pstate * control) :=
  match peek_next (st_stream st) with
  | Some (inr e) => Ok (st, Failed (UserError (into e)))
  | Some (inl t) =>
      match sc_check c with
      | Some ms =>
          if debug_assertions && (1 <? count_matches ms (Some t)) then
            Ok (st, Failed (OverlappingTokenMatchers t))
          else exec_match c (Some t) st
      | None => exec_match c (Some t) st
      end
  | None => exec_match c None st
  end.

(** parse_loop.rs:30-44: one round of the loop. *)
Definition loop_step (p : program) (st : pstate) : outcome E (pstate + pstate * (val + parser_error)) :=
  s <- state st ;;
  c <- index (p_states p) (fst s) ;;
  '(st, ctl) <- exec_state c st ;;
  match ctl with
  | Continue => Ok (inl st)
  | Accepted v => Ok (inr (st, inl v))
  | Failed e => Ok (inr (st, inr e))
  end.

(** parse_loop.rs:30-44 [parse_fallible]: the result, together with the final
    state of the parser. *)
Definition parse_fallible (fuel : nat) (p : program) : outcome E (pstate * (val + parser_error)) :=
  while_loop fuel (loop_step p) (state_new (p_root p, RUnit)).

End Run.

(** src/parser.rs:18-24 *)
Definition parse (fuel : nat) (p : program) (input : nat -> option tok)
  : outcome E (pstate (SErr := Empty_set) * (val + parser_error)) :=
  parse_fallible (fun e : Empty_set => match e with end) (fun n => option_map inl (input n)) fuel p.

End Runtime.
