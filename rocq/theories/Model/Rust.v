(** The fragment of Rust that generated parsers are written in, and its
    meaning.  This is not a model of code in the repository, but of the language
    that the code of Model/Emit.v is in, and of the functions of src/ that it
    calls (these are those of Model/Runtime.v).  Simplifications: references are
    the values they point to, so that [borrow], [clone], [&] and [&mut] do nothing (values
    are assumed to equal their clones); types are not checked here (but see
    Spec/Typing.v); what does not compile panics when it is run. *)
From Coq Require Import Arith Bool String Ascii NArith List.
From Verif Require Import Base.Prelude Spec.Grammar.
From Verif Require Import Model.TokenTree Model.Terminal Model.Constructor Model.CodeGen Model.Runtime.
Import ListNotations.
Open Scope string_scope.
Open Scope list_scope.

Definition path := list string.

Inductive rpat :=
| PtWild                                                   (* _                *)
| PtVar (x : string)                                       (* x                *)
| PtLit (text : string)                                    (* 'a'              *)
| PtRef (p : rpat)                                         (* &p               *)
| PtRefBind (x : string) (p : rpat)                        (* ref x @ p        *)
| PtCon (c : path) (ps : list rpat)                        (* None, Some(p)    *)
| PtConRest (c : path)                                     (* Enum::S1(..)     *)
| PtVariant (ty : list ttree) (name : string) (field : option rpat)   (* Ty::A, Ty::A(p) *)
| PtVariantRest (ty : list ttree) (name : string)          (* Ty::A(..)        *)
| PtUser (text : string)                                   (* a pattern of the user *)
| PtOr (ps : list rpat).                                   (* p | q            *)

(** Blocks are nested: [ELet x e e'] is [let mut x = e; e']. *)
Inductive expr :=
| EVar (x : string)
| EUnit                                                    (* ()               *)
| ELit (text : string)                                     (* 'a'              *)
| ECon (c : path) (args : list expr)                       (* None, Some(e)    *)
| EVariant (ty : list ttree) (name : string) (field : list expr)      (* Ty::A, Ty::A(e) *)
| ECall (f : path) (args : list expr)                      (* f(e, ...)        *)
| EMethod (e : expr) (name : string) (args : list expr)    (* e.name(e', ...)  *)
| ERefMut (e : expr)                                       (* &mut e           *)
| EMapOption (e : expr) (x : string) (body : expr)         (* e.map(|x| body)  *)
| EMapErr (e : expr) (f : path)                            (* e.map_err(f)     *)
| ETryInto (e : expr) (rule : nat)                         (* e.try_into(), to the type of the rule *)
| EMatch (e : expr) (arms : list (rpat * expr))
| ESumMatches (e : expr) (ps : list rpat)                  (* (matches!(e, p) as usize) + ... *)
| EIfMore (e : expr) (n : nat) (body : expr)               (* if e > n { body } *)
| EFormat (e : expr)                                       (* format!("{:?}", e) *)
| ELet (x : string) (e rest : expr)
| ESeq (e rest : expr)                                     (* e; rest          *)
| EDebug (e rest : expr)                                   (* #[cfg(debug_assertions)] { e } rest *)
| EReturn (e : expr)
| ETry (e : expr)                                          (* e?               *)
| ECallClosure (ret : list ttree) (body : expr)            (* (|| -> Result<_, ret> { body })() *)
| EUser (rule : nat) (body : list ttree)                   (* { body }         *)
| EUnreachable                                             (* unsafe { unreachable_unchecked() } *)
| ELoop (body : expr)
| EInvalid.                                                (* tokens that are no expression *)

(** A function; bounds are left out, [f_signature] has the types and bounds that
    the user wrote, as they occur in it. *)
Record fn_item := mk_fn {
  f_name : string;
  f_generics : list string;
  f_signature : list (list ttree);
  f_param : string;
  f_body : expr;
}.

(** [enum name { variant(type), ... }]; the type is [()] if there is none. *)
Record enum_item := mk_enum {
  e_name : string;
  e_variants : list (string * option (list ttree));
}.

(** Paths that the generated code uses. *)
Definition p_control (c : string) : path := ["parser_generator"; "parser_state"; "ParserControl"; c].
Definition p_error (c : string) : path := ["parser_generator"; "error"; "ParserError"; c].
Definition p_state_new : path := ["parser_generator"; "parser_state"; "ParserState"; "new"].
Definition p_into_user_error : path := ["parser_generator"; "error"; "ParserUserErrorOrInfallible"; "into_user_error"].

Fixpoint tree_eqb (t t' : ttree) : bool :=
  match t, t' with
  | TGroup d ts, TGroup d' ts' =>
      eqb d d' && (fix list_eqb (l l' : list ttree) : bool :=
        match l, l' with
        | [], [] => true
        | x :: l, x' :: l' => tree_eqb x x' && list_eqb l l'
        | _, _ => false
        end) ts ts'
  | TPunct c s, TPunct c' s' => eqb c c' && eqb s s'
  | TIdent n, TIdent n' => String.eqb n n'
  | TLiteral n, TLiteral n' => String.eqb n n'
  | _, _ => false
  end.
Fixpoint trees_eqb (l l' : list ttree) : bool :=
  match l, l' with
  | [], [] => true
  | x :: l, x' :: l' => tree_eqb x x' && trees_eqb l l'
  | _, _ => false
  end.

(** Values. *)
Inductive rvalue (Raw Pay U UErr SErr : Type) :=
| VVal (v : rval Raw Pay U)                (* (), tokens, fields, values of the user *)
| VCon (c : path) (args : list (rvalue Raw Pay U UErr SErr))
| VUErr (e : UErr)                         (* an error of the grammar's error type *)
| VSErr (e : SErr)                         (* an error of the input stream *)
| VNum (n : nat)
| VState                                   (* the ParserState, or a reference to it *)
| VStream                                  (* its stream *)
| VInput.                                  (* the argument of parse_fallible *)
Arguments VVal {Raw Pay U UErr SErr}.
Arguments VCon {Raw Pay U UErr SErr}.
Arguments VUErr {Raw Pay U UErr SErr}.
Arguments VSErr {Raw Pay U UErr SErr}.
Arguments VNum {Raw Pay U UErr SErr}.
Arguments VState {Raw Pay U UErr SErr}.
Arguments VStream {Raw Pay U UErr SErr}.
Arguments VInput {Raw Pay U UErr SErr}.

Section Eval.
Context {bm : BuildMode} {E : Type} (R : rust) {SErr : Type}.
Variable into : SErr -> UErr R.
Variable input : nat -> option (tok R + SErr).

Notation rv := (rvalue (Raw R) (Pay R) (UVal R) (UErr R) SErr).

(** What the body of a constructor evaluates to, given the local variables that
    are in scope; [inr] if it returns [Err], e.g. by [?].  The number of the rule
    stands for the type that is expected. *)
Variable body_value : nat -> list ttree -> (string -> option rv) -> val R + UErr R.

(** The token type of the grammar: only variants of this type match. *)
Variable token_type : list ttree.

Definition locals := list (string * rv).
Fixpoint local (env : locals) (x : string) : option rv :=
  match env with
  | [] => None
  | (y, v) :: env' => if String.eqb x y then Some v else local env' x
  end.

(** Matching a value, giving the variables that are bound. *)
Fixpoint pmatch (p : rpat) (v : rv) {struct p} : option locals :=
  match p with
  | PtWild => Some []
  | PtVar x => Some [(x, v)]
  | PtLit text =>
      match v with
      | VVal (RTok (TRaw r)) => if Raw_dec R r (literal_value R text) then Some [] else None
      | _ => None
      end
  | PtRef p => pmatch p v
  | PtRefBind x p => option_map (cons (x, v)) (pmatch p v)
  | PtCon c ps =>
      match v with
      | VCon c' vs =>
          if eqb c c' then
            (fix go (ps : list rpat) (vs : list rv) : option locals :=
               match ps, vs with
               | [], [] => Some []
               | p :: ps, v :: vs =>
                   match pmatch p v with
                   | Some bs => option_map (app bs) (go ps vs)
                   | None => None
                   end
               | _, _ => None
               end) ps vs
          else None
      | _ => None
      end
  | PtConRest c => match v with VCon c' _ => if eqb c c' then Some [] else None | _ => None end
  | PtVariant ty name field =>
      match v with
      | VVal (RTok (TVariant name' f)) =>
          if trees_eqb ty token_type && String.eqb name name' then
            match field, f with
            | None, None => Some []
            | Some p, Some f => pmatch p (VVal (RPay f))
            | _, _ => None
            end
          else None
      | _ => None
      end
  | PtVariantRest ty name =>
      match v with
      | VVal (RTok (TVariant name' (Some _))) => if trees_eqb ty token_type && String.eqb name name' then Some [] else None
      | _ => None
      end
  | PtUser text => match v with VVal (RPay f) => if pat_matches R text f then Some [] else None | _ => None end
  | PtOr ps =>
      (fix go (ps : list rpat) : option locals :=
         match ps with
         | [] => None
         | p :: ps => match pmatch p v with Some bs => Some bs | None => go ps end
         end) ps
  end.

(** src/parser_state.rs:8-11; there is none before it is made. *)
Record machine := mk_machine {
  m_stream : stream R (SErr := SErr);
  m_stack : list rv;
}.

(** What evaluating an expression does: it has a value, or the function returns. *)
Inductive flow := FVal (v : rv) | FRet (v : rv).
Definition result := outcome E (option machine * flow).

Definition andthen (m : result) (k : option machine -> rv -> result) : result :=
  '(st, f) <- m ;;
  match f with
  | FVal v => k st v
  | FRet v => Ok (st, FRet v)
  end.

(** error.rs:13-17, 56-60: the errors that [?] converts. *)
Definition into_user_error (v : rv) : outcome E rv :=
  match v with
  | VUErr e => Ok (VCon (p_error "UserError") [VUErr e])
  | VSErr e => Ok (VCon (p_error "UserError") [VUErr (into e)])
  | _ => Panic "does not compile: into_user_error"
  end.
Definition from_error (v : rv) : rv :=
  match v with
  | VUErr e => VCon (p_error "UserError") [VUErr e]
  | _ => v
  end.

Definition some (v : rv) : rv := VCon ["Some"] [v].
Definition none : rv := VCon ["None"] [].
Definition ok (v : rv) : rv := VCon ["Ok"] [v].
Definition err (v : rv) : rv := VCon ["Err"] [v].
Definition unit_value : rv := VVal RUnit.

Definition peeked_value (o : option (tok R + SErr)) : rv :=
  match o with
  | None => none
  | Some (inl t) => some (ok (VVal (RTok t)))
  | Some (inr e) => some (err (VSErr e))
  end.

(** Methods: parser_state.rs, parser_stream.rs and those of std. *)
Definition method (name : string) (v : rv) (args : list rv) (st : option machine) : result :=
  match v, st with
  | VState, Some m =>
      match args with
      | [] =>
          if String.eqb name "stream" || String.eqb name "stream_mut" then Ok (st, FVal VStream)
          else if String.eqb name "state" then
            s <- expect (hd_error (m_stack m)) "undefined behaviour: state() on an empty stack" ;;
            Ok (st, FVal s)
          else if String.eqb name "pop_state" then
            match m_stack m with
            | [] => Panic "undefined behaviour: pop_state() on an empty stack"
            | s :: rest => Ok (Some (mk_machine (m_stream m) rest), FVal s)
            end
          else if String.eqb name "verify_empty_stack" then
            _ <- debug_assert (List.length (m_stack m) =? 1)%nat "self.stack.len() == 1" ;;
            Ok (st, FVal unit_value)
          else Panic "does not compile: no such method"
      | [a] =>
          if String.eqb name "push" then Ok (Some (mk_machine (m_stream m) (a :: m_stack m)), FVal unit_value)
          else Panic "does not compile: no such method"
      | _ => Panic "does not compile: no such method"
      end
  | VStream, Some m =>
      if String.eqb name "peek_next" then Ok (st, FVal (peeked_value (peek_next R (m_stream m))))
      else if String.eqb name "advance" then
        s <- advance R input (m_stream m) ;;
        Ok (Some (mk_machine s (m_stack m)), FVal unit_value)
      else Panic "does not compile: no such method"
  | _, _ =>
      if String.eqb name "borrow" || String.eqb name "clone" || String.eqb name "into_iter" then Ok (st, FVal v)
      else if String.eqb name "into_user_error" then e <- into_user_error v ;; Ok (st, FVal e)
      else if String.eqb name "transpose" then
        match v with
        | VCon c [] => if eqb c ["None"] then Ok (st, FVal (ok none)) else Panic "does not compile: transpose"
        | VCon c [VCon c' [x]] =>
            if eqb c ["Some"] then
              if eqb c' ["Ok"] then Ok (st, FVal (ok (some x)))
              else if eqb c' ["Err"] then Ok (st, FVal (err x))
              else Panic "does not compile: transpose"
            else Panic "does not compile: transpose"
        | _ => Panic "does not compile: transpose"
        end
      else Panic "does not compile: no such method"
  end.

(** Functions of src/: [ParserState::new], [ParserError::new] and
    [overlapping_token_matchers]; others are those of the program. *)
Definition function (call : string -> option machine -> result) (f : path) (args : list rv) (st : option machine) : result :=
  match args with
  | [VInput; s] =>
      if eqb f p_state_new then Ok (Some (mk_machine (stream_new R input) [s]), FVal VState)
      else Panic "does not compile: no such function"
  | [v] =>
      if eqb f (p_error "new") then Ok (st, FVal (VCon (p_error "ParseError") [v]))
      else if eqb f (p_error "overlapping_token_matchers") then Ok (st, FVal (VCon (p_error "OverlappingTokenMatchers") [v]))
      else match f, v with
           | [name], VState => call name st
           | _, _ => Panic "does not compile: no such function"
           end
  | _ => Panic "does not compile: no such function"
  end.

Definition matches_any (ps : list rpat) (v : rv) : nat :=
  List.length (filter (fun p => match pmatch p v with Some _ => true | None => false end) ps).

Section Fuel.
(** How often a [loop] may go round, and what calling a function does. *)
Variable fuel : nat.
Variable call : string -> option machine -> result.

Fixpoint eval (env : locals) (st : option machine) (e : expr) {struct e} : result :=
  let eval_list :=
    (fix eval_list (es : list expr) (st : option machine) (k : option machine -> list rv -> result) {struct es} : result :=
       match es with
       | [] => k st []
       | e :: es => andthen (eval env st e) (fun st v => eval_list es st (fun st vs => k st (v :: vs)))
       end) in
  match e with
  | EVar x => v <- expect (local env x) "does not compile: no such variable" ;; Ok (st, FVal v)
  | EUnit => Ok (st, FVal unit_value)
  | ELit text => Ok (st, FVal (VVal (RTok (TRaw (literal_value R text)))))
  | ECon c args => eval_list args st (fun st vs => Ok (st, FVal (VCon c vs)))
  | EVariant ty name args =>
      eval_list args st (fun st vs =>
        if trees_eqb ty token_type then
          match vs with
          | [] => Ok (st, FVal (VVal (RTok (TVariant name None))))
          | [VVal (RPay f)] => Ok (st, FVal (VVal (RTok (TVariant name (Some f)))))
          | _ => Panic "does not compile: field of a token"
          end
        else Panic "does not compile: no such variant")
  | ECall f args => eval_list args st (fun st vs => function call f vs st)
  | EMethod e name args => andthen (eval env st e) (fun st v => eval_list args st (fun st vs => method name v vs st))
  | ERefMut e => eval env st e
  | EMapOption e x body =>
      andthen (eval env st e) (fun st v =>
        match v with
        | VCon c [] => if eqb c ["None"] then Ok (st, FVal none) else Panic "does not compile: map"
        | VCon c [y] =>
            if eqb c ["Some"] then
              '(st, f) <- eval ((x, y) :: env) st body ;;
              match f with FVal r | FRet r => Ok (st, FVal (some r)) end
            else Panic "does not compile: map"
        | _ => Panic "does not compile: map"
        end)
  | EMapErr e f =>
      andthen (eval env st e) (fun st v =>
        match v with
        | VCon c [y] =>
            if eqb c ["Ok"] then Ok (st, FVal v)
            else if eqb c ["Err"] && eqb f p_into_user_error then r <- into_user_error y ;; Ok (st, FVal (err r))
            else Panic "does not compile: map_err"
        | _ => Panic "does not compile: map_err"
        end)
  | ETryInto e rule =>
      andthen (eval env st e) (fun st v =>
        match v with
        | VVal v =>
            match default_ctor R rule v with
            | inl r => Ok (st, FVal (ok (VVal r)))
            | inr e => Ok (st, FVal (err (VUErr e)))
            end
        | _ => Panic "does not compile: try_into"
        end)
  | EMatch e arms =>
      andthen (eval env st e) (fun st v =>
        (fix try (arms : list (rpat * expr)) : result :=
           match arms with
           | [] => Panic "does not compile: a match that is not exhaustive"
           | (p, body) :: arms =>
               match pmatch p v with
               | Some bs => eval (bs ++ env) st body
               | None => try arms
               end
           end) arms)
  | ESumMatches e ps => andthen (eval env st e) (fun st v => Ok (st, FVal (VNum (matches_any ps v))))
  | EIfMore e n body =>
      andthen (eval env st e) (fun st v =>
        match v with
        | VNum k => if (n <? k)%nat then eval env st body else Ok (st, FVal unit_value)
        | _ => Panic "does not compile: comparison"
        end)
  | EFormat e => andthen (eval env st e) (fun st v => Ok (st, FVal (VCon ["String"] [v])))
  | ELet x e rest => andthen (eval env st e) (fun st v => eval ((x, v) :: env) st rest)
  | ESeq e rest => andthen (eval env st e) (fun st _ => eval env st rest)
  | EDebug e rest =>
      if debug_assertions then andthen (eval env st e) (fun st _ => eval env st rest) else eval env st rest
  | EReturn e => andthen (eval env st e) (fun st v => Ok (st, FRet v))
  | ETry e =>
      andthen (eval env st e) (fun st v =>
        match v with
        | VCon c [y] =>
            if eqb c ["Ok"] then Ok (st, FVal y)
            else if eqb c ["Err"] then Ok (st, FRet (err (from_error y)))
            else Panic "does not compile: ?"
        | _ => Panic "does not compile: ?"
        end)
  | ECallClosure _ body =>
      '(st, f) <- eval env st body ;;
      match f with FVal v | FRet v => Ok (st, FVal v) end
  | EUser rule body =>
      match body_value rule body (local env) with
      | inl v => Ok (st, FVal (VVal v))
      | inr e => Ok (st, FRet (err (VUErr e)))
      end
  | EUnreachable => Panic "undefined behaviour: unreachable_unchecked"
  | ELoop body =>
      '(st, v) <- while_loop fuel (fun st =>
          '(st, f) <- eval env st body ;;
          match f with FVal _ => Ok (inl st) | FRet v => Ok (inr (st, v)) end) st ;;
      Ok (st, FRet v)
  | EInvalid => Panic "does not compile: not an expression"
  end.

End Fuel.

(** Calling a function returns its value or what it [return]s. *)
Definition returned (m : result) : result :=
  '(st, f) <- m ;;
  match f with FVal v | FRet v => Ok (st, FVal v) end.

(** Functions of the program: they do not call each other. *)
Definition no_call (_ : string) (_ : option machine) : result := Panic "does not compile: no such function".
Definition call_fn (fns : list fn_item) (name : string) (st : option machine) : result :=
  match find (fun f => String.eqb (f_name f) name) fns with
  | Some f => returned (eval 0 no_call [(f_param f, VState)] st (f_body f))
  | None => Panic "does not compile: no such function"
  end.

End Eval.
