(** Ownership in emitted code: the rules of Rust's borrow checker for the
    fragment of Model/Rust.v, with the types of Spec/Typing.v.  No variable is used
    after its value was moved, and the parser state is not changed while a
    reference into it may still be used.

    The rules are stricter than those of Rust: every reference is taken for one
    into the parser state, every type that is not known to be [Copy] is moved, a
    match moves what is matched, what can be used after an expression can be
    used after a [return] in it, and a variable that can still be used is not
    shadowed. *)
From Coq Require Import Arith Bool String Ascii List.
From Verif Require Import Base.Prelude.
From Verif Require Import Model.TokenTree Model.Rust Model.Emit.
From Verif Require Import Spec.EmittedNames Spec.Typing.
Import ListNotations.
Open Scope string_scope.
Open Scope list_scope.

(** What a value may hold: nothing of the parser state, shared references into
    it, or an exclusive one. *)
Inductive loan := NoLoan | SharedLoan | ExclusiveLoan.
Definition join (a b : loan) : loan :=
  match a, b with
  | ExclusiveLoan, _ | _, ExclusiveLoan => ExclusiveLoan
  | SharedLoan, _ | _, SharedLoan => SharedLoan
  | NoLoan, NoLoan => NoLoan
  end.
Fixpoint loan_of (t : rty) : loan :=
  match t with
  | TyRef true _ => ExclusiveLoan
  | TyRef false _ => SharedLoan
  | TyOption t | TyControl t => loan_of t
  | TyResult t e => join (loan_of t) (loan_of e)
  | _ => NoLoan
  end.

(** Types that are known to be [Copy]. *)
Fixpoint copied (t : rty) : bool :=
  match t with
  | TyRef false _ | TyUsize => true
  | TyOption t => copied t
  | _ => false
  end.

(** The parser state, or the reference to it that functions are given. *)
Definition is_parser (t : rty) : bool :=
  match t with TyParserState | TyRef true TyParserState => true | _ => false end.

(** How methods take [self]: src/parser_state.rs:24-47, src/parser_stream.rs:15-22,
    src/error.rs:9-17, and those of std. *)
Inductive receiver := SelfRef | SelfMut | SelfValue.
Definition self_of (name : string) : receiver :=
  if existsb (String.eqb name) ["stream"; "state"; "verify_empty_stack"; "peek_next"; "borrow"; "clone"] then SelfRef
  else if existsb (String.eqb name) ["stream_mut"; "push"; "pop_state"; "advance"] then SelfMut
  else SelfValue.

Section Access.
Variable G : context.
(** What temporaries hold, and the variables that can be used afterwards. *)
Variable held : loan.
Variable live : list string.

(** Variables that are used later do not hold a loan that excludes access to [x]. *)
Definition readable (x : string) : Prop :=
  held <> ExclusiveLoan /\ forall y t, In y live -> y <> x -> type_of G y = Some t -> loan_of t <> ExclusiveLoan.
Definition writable (x : string) : Prop :=
  held = NoLoan /\ forall y t, In y live -> y <> x -> type_of G y = Some t -> loan_of t = NoLoan.

(** A variable is used as a value: it is copied, or it is not used again. *)
Definition usable (x : string) (t : rty) : Prop :=
  copied t = true \/ (~ In x live /\ (is_parser t = true -> writable x)).
End Access.

Section Item.
Variable u : user_code.
Variable em : emitted.

(** A reference that is found in a value (or that a method gives) points to what
    is found in it by a reference, and not to the value, which is dropped. *)
Definition not_dangling (from t : rty) : Prop := loan_of from = NoLoan -> loan_of t = NoLoan.

(** [owns ret G held live e]: in a function that returns [ret], with variables [G]
    and while temporaries hold [held], [e] can be evaluated if [live] are the
    variables that can be used afterwards. *)
Inductive owns : rty -> context -> loan -> list string -> expr -> Prop :=
| ow_var ret G held live x t : type_of G x = Some t -> usable G held live x t -> owns ret G held live (EVar x)
| ow_unit ret G held live : owns ret G held live EUnit
| ow_literal ret G held live text : owns ret G held live (ELit text)
| ow_con ret G held live c es : owns_all ret G held live es -> owns ret G held live (ECon c es)
| ow_variant ret G held live ty name es : owns_all ret G held live es -> owns ret G held live (EVariant ty name es)
| ow_call ret G held live f es : owns_all ret G held live es -> owns ret G held live (ECall f es)
| ow_method_ref ret G held live x t name es : type_of G x = Some t -> self_of name = SelfRef ->
    (is_parser t = true -> readable G held live x) -> owns_all ret G (join held SharedLoan) (x :: live) es ->
    owns ret G held live (EMethod (EVar x) name es)
| ow_method_mut ret G held live x t name es ts : type_of G x = Some t -> self_of name = SelfMut ->
    (* the reference to [x] is made first, but is exclusive only from the call on *)
    writable G held live x -> owns_all ret G (join held SharedLoan) (x :: live) es ->
    typed_all u em ret G es ts -> (forall t, In t ts -> loan_of t = NoLoan) ->
    owns ret G held live (EMethod (EVar x) name es)
| ow_method ret G held live e t name es t' : owns ret G held (live ++ flat_map free_vars es) e -> typed u em ret G e t ->
    owns_all ret G (join held (loan_of t)) live es ->
    typed u em ret G (EMethod e name es) t' -> not_dangling t t' ->
    owns ret G held live (EMethod e name es)
| ow_ref_mut ret G held live x t : type_of G x = Some t -> writable G held live x -> owns ret G held live (ERefMut (EVar x))
| ow_map ret G held live e t x body t' : owns ret G held (live ++ without [x] (free_vars body)) e -> typed u em ret G e (TyOption t) ->
    (In x live -> type_of G x = None) ->
    typed u em t' ((x, t) :: G) body t' -> owns t' ((x, t) :: G) held (without [x] live) body -> not_dangling t t' ->
    owns ret G held live (EMapOption e x body)
| ow_map_err ret G held live e f : owns ret G held live e -> owns ret G held live (EMapErr e f)
| ow_try_into ret G held live e rule : owns ret G held live e -> owns ret G held live (ETryInto e rule)
| ow_match ret G held live e t arms :
    owns ret G held (live ++ flat_map (fun a => without (binders (fst a)) (free_vars (snd a))) arms) e -> typed u em ret G e t ->
    owns_arms ret G held live t arms -> owns ret G held live (EMatch e arms)
| ow_sum_matches ret G held live x ps t : type_of G x = Some t -> copied t = true -> owns ret G held live (ESumMatches (EVar x) ps)
| ow_if_more ret G held live e n body : owns ret G held (live ++ free_vars body) e -> owns ret G held live body ->
    owns ret G held live (EIfMore e n body)
| ow_format ret G held live x t : type_of G x = Some t -> (is_parser t = true -> readable G held live x) -> owns ret G held live (EFormat (EVar x))
| ow_let ret G held live x e t rest t' : owns ret G held (live ++ without [x] (free_vars rest)) e -> typed u em ret G e t ->
    (In x live -> type_of G x = None) -> owns ret ((x, t) :: G) held (without [x] live) rest ->
    typed u em ret ((x, t) :: G) rest t' -> loan_of t' = NoLoan ->
    owns ret G held live (ELet x e rest)
| ow_seq ret G held live e rest : owns ret G held (live ++ free_vars rest) e -> owns ret G held live rest -> owns ret G held live (ESeq e rest)
| ow_debug ret G held live e rest : owns ret G held (live ++ free_vars rest) e -> owns ret G held live rest -> owns ret G held live (EDebug e rest)
| ow_return ret G held live e : owns ret G held live e -> owns ret G held live (EReturn e)
| ow_try ret G held live e : owns ret G held live e -> owns ret G held live (ETry e)
| ow_closure ret G held live ty body t : owns (TyResult t (TyWritten (em_error em))) G held live body ->
    owns ret G held live (ECallClosure ty body)
| ow_user ret G held live rule body : (forall x t, In x (flat_map idents body) -> type_of G x = Some t -> usable G held live x t) ->
    owns ret G held live (EUser rule body)
| ow_unreachable ret G held live : owns ret G held live EUnreachable
| ow_loop ret G held live body : owns ret G held (live ++ free_vars body) body -> owns ret G held live (ELoop body)
with owns_all : rty -> context -> loan -> list string -> list expr -> Prop :=
| oa_nil ret G held live : owns_all ret G held live []
| oa_cons ret G held live e t es : owns ret G held (live ++ flat_map free_vars es) e -> typed u em ret G e t ->
    owns_all ret G (join held (loan_of t)) live es -> owns_all ret G held live (e :: es)
with owns_arms : rty -> context -> loan -> list string -> rty -> list (rpat * expr) -> Prop :=
| or_nil ret G held live t : owns_arms ret G held live t []
| or_cons ret G held live t p bs e t' arms : matches_type u em Owned ByMove p t bs ->
    (forall x, In x (binders p) -> In x live -> type_of G x = None) ->
    owns ret (bs ++ G) held (without (binders p) live) e -> typed u em ret (bs ++ G) e t' -> not_dangling t t' ->
    owns_arms ret G held live t arms -> owns_arms ret G held live t ((p, e) :: arms).

(** The bodies of the functions and of [parse_fallible]. *)
Record well_owned : Prop := mk_well_owned {
  wo_functions : forall f, In f (em_fns em) ->
    owns (control_result em) [(f_param f, TyRef true TyParserState)] NoLoan [] (f_body f);
  wo_body : owns (TyResult (TyWritten (em_value em)) TyParserError) [(em_param em, TyInput)] NoLoan [] (em_body em);
}.
End Item.
