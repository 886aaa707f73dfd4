(** What running emitted code should be compared with, and what is assumed
    about the constructors the user writes. *)
From Coq Require Import Arith Bool String List.
From Verif Require Import Base.Prelude Spec.Grammar Spec.Values.
From Verif Require Import Model.TokenTree Model.Terminal Model.Constructor Model.CodeGen Model.Runtime Model.Rust.
From Verif Require Model.TableText.
Import ListNotations.

(** A token names [x]: it is the identifier, or a literal whose text contains it
    (as format strings may name variables), or a group with such a token. *)
Inductive mentions (x : string) : ttree -> Prop :=
| mentions_ident : mentions x (TIdent x)
| mentions_literal a b : mentions x (TLiteral (a ++ x ++ b))
| mentions_group d ts t : In t ts -> mentions x t -> mentions x (TGroup d ts).

(** The variables that a constructor can be meant to see: [__v{i}]. *)
Definition argument_name (i : nat) : string := ("__v" ++ TableText.decimal i)%string.

(** The local variables of the generated code that user code is not meant to see. *)
Definition internal_names : list string := ["__peeked_val"; "__parser_generator_state"]%string.

(** The text of the body of a constructor: references to nodes are variables. *)
Fixpoint body_text (b : cbody) : ttree :=
  match b with
  | CToken t => t
  | CGroup d ts => TGroup d (map body_text ts)
  | CVar i => TIdent (argument_name i)
  end.

Section Bodies.
Variable R : rust.
Variable SErr : Type.
Local Notation value := (rvalue (Raw R) (Pay R) (UVal R) (UErr R) SErr).
Variable body_value : nat -> list ttree -> (string -> option value) -> val R + UErr R.

(** What a body evaluates to depends only on the variables it names. *)
Definition depends_on_named : Prop :=
  forall i ts e e', (forall x t, In t ts -> mentions x t -> e x = e' x) -> body_value i ts e = body_value i ts e'.

(** The variables of a constructor, by name; one that is bound twice has the
    later value, which comes first. *)
Fixpoint arguments (vars : env R) (x : string) : option value :=
  match vars with
  | [] => None
  | (i, v) :: vars' => if String.eqb x (argument_name i) then Some (VVal v) else arguments vars' x
  end.

(** [R] describes the constructors as evaluating their bodies where nothing but
    their arguments is in scope. *)
Definition describes : Prop :=
  forall i body vars, user_ctor R i body vars = body_value i (map body_text body) (arguments vars).
End Bodies.

(** Constructors of a program, with their rules. *)
Definition ctor_of (p : program) (i : nat) (c : ctor_code) : Prop :=
  exists sc, In sc (p_states p) /\
  ((exists ms rc, In (ms, rc) (sc_reduce sc) /\ r_rule rc = i /\ r_ctor rc = c) \/
   (exists m ac, sc_accept sc = Some (m, ac) /\ a_rule ac = i /\ a_ctor ac = c)).

(** No constructor of the program names an internal variable. *)
Definition hygienic (p : program) : Prop :=
  forall i body x t, ctor_of p i (CUser body) -> In x internal_names -> In t (map body_text body) -> ~ mentions x t.

(** The rules' constructors, as the user wrote them, do not. *)
Definition hygienic_rules (rules : list prule) : Prop :=
  forall r d ts x t, In r rules -> pr_block r = Some (d, ts) -> In x internal_names -> In t ts -> ~ mentions x t.

(** The results of a parser, as values: [Ok(v)] and [Err(e)]. *)
Section Results.
Context {R : rust} {SErr : Type}.
Local Notation value := (rvalue (Raw R) (Pay R) (UVal R) (UErr R) SErr).
Local Open Scope string_scope.

Definition error_value (e : parser_error R) : value :=
  let variant c := ["parser_generator"; "error"; "ParserError"; c] in
  match e with
  | ParseError _ None => VCon (variant "ParseError") [VCon ["None"] []]
  | ParseError _ (Some t) => VCon (variant "ParseError") [VCon ["Some"] [VVal (RTok t)]]
  | OverlappingTokenMatchers _ t =>
      VCon (variant "OverlappingTokenMatchers") [VCon ["String"] [VCon ["Some"] [VVal (RTok t)]]]
  | UserError _ e => VCon (variant "UserError") [VUErr e]
  end.

Definition result_value (r : val R + parser_error R) : value :=
  match r with
  | inl v => VCon ["Ok"] [VVal v]
  | inr e => VCon ["Err"] [error_value e]
  end.

(** Two runs do the same: they return the same value having called [next]
    equally often, or both panic (perhaps with another message), or both go on
    for ever. *)
Definition same_run {E} (m : outcome E (pstate (SErr := SErr) R * (val R + parser_error R)))
    (m' : result (E := E) (SErr := SErr) R) : Prop :=
  match m with
  | Ok (st, r) => exists stack, m' = Ok (Some (mk_machine R (st_stream R st) stack), FVal R (result_value r))
  | Err e => m' = Err e
  | Panic _ => exists why, m' = Panic why
  | Diverge => m' = Diverge
  end.
End Results.
