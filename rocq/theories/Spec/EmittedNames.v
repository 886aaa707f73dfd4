(** Names in emitted code: what is declared, bound, used and captured.  These are
    functions of the syntax of Model/Rust.v only. *)
From Coq Require Import Arith Bool String List.
From Verif Require Import Base.Prelude.
From Verif Require Import Model.TokenTree Model.Rust.
Import ListNotations.
Open Scope string_scope.
Open Scope list_scope.

(** The identifiers in tokens. *)
Fixpoint idents (t : ttree) : list string :=
  match t with
  | TIdent x => [x]
  | TGroup _ ts => flat_map idents ts
  | _ => []
  end.

(** The variables a pattern binds; the user's patterns (which may not bind
    anything) are not looked into. *)
Fixpoint binders (p : rpat) : list string :=
  match p with
  | PtVar x => [x]
  | PtRef p => binders p
  | PtRefBind x p => x :: binders p
  | PtCon _ ps => flat_map binders ps
  | PtVariant _ _ (Some p) => binders p
  | PtOr ps => flat_map binders ps
  | _ => []
  end.

(** No alternative binds a variable, and there is one. *)
Fixpoint simple_alternatives (p : rpat) : Prop :=
  match p with
  | PtRef p | PtRefBind _ p | PtVariant _ _ (Some p) => simple_alternatives p
  | PtCon _ ps => fold_right (fun p acc => simple_alternatives p /\ acc) True ps
  | PtOr ps => ps <> [] /\ flat_map binders ps = [] /\ fold_right (fun p acc => simple_alternatives p /\ acc) True ps
  | _ => True
  end.

Definition without (xs : list string) (l : list string) : list string :=
  filter (fun y => negb (existsb (String.eqb y) xs)) l.

(** The variables that are used but not bound; all identifiers of a body may be. *)
Fixpoint free_vars (e : expr) : list string :=
  match e with
  | EVar x => [x]
  | EUnit | ELit _ | EUnreachable | EInvalid => []
  | ECon _ es | EVariant _ _ es | ECall _ es => flat_map free_vars es
  | EMethod e _ es => free_vars e ++ flat_map free_vars es
  | EMapOption e x body => free_vars e ++ without [x] (free_vars body)
  | EMapErr e _ | ETryInto e _ | ESumMatches e _ | EFormat e | EReturn e | ETry e | ECallClosure _ e | ELoop e | ERefMut e => free_vars e
  | EMatch e arms => free_vars e ++ flat_map (fun a => without (binders (fst a)) (free_vars (snd a))) arms
  | EIfMore e _ body => free_vars e ++ free_vars body
  | ELet x e rest => free_vars e ++ without [x] (free_vars rest)
  | ESeq e rest | EDebug e rest => free_vars e ++ free_vars rest
  | EUser _ ts => flat_map idents ts
  end.

(** The bodies of constructors with their rules and the variables they see. *)
Fixpoint bodies (vs : list string) (e : expr) : list (nat * list string * list ttree) :=
  match e with
  | EVar _ | EUnit | ELit _ | EUnreachable | EInvalid => []
  | ECon _ es | EVariant _ _ es | ECall _ es => flat_map (bodies vs) es
  | EMethod e _ es => bodies vs e ++ flat_map (bodies vs) es
  | EMapOption e x body => bodies vs e ++ bodies (x :: vs) body
  | EMapErr e _ | ETryInto e _ | ESumMatches e _ | EFormat e | EReturn e | ETry e | ECallClosure _ e | ELoop e | ERefMut e => bodies vs e
  | EMatch e arms => bodies vs e ++ flat_map (fun a => bodies (binders (fst a) ++ vs) (snd a)) arms
  | EIfMore e _ body => bodies vs e ++ bodies vs body
  | ELet x e rest => bodies vs e ++ bodies (x :: vs) rest
  | ESeq e rest | EDebug e rest => bodies vs e ++ bodies vs rest
  | EUser rule ts => [(rule, vs, ts)]
  end.

(** The patterns in an expression. *)
Fixpoint patterns (e : expr) : list rpat :=
  match e with
  | EVar _ | EUnit | ELit _ | EUnreachable | EInvalid | EUser _ _ => []
  | ECon _ es | EVariant _ _ es | ECall _ es => flat_map patterns es
  | EMethod e _ es => patterns e ++ flat_map patterns es
  | EMapErr e _ | ETryInto e _ | EFormat e | EReturn e | ETry e | ECallClosure _ e | ELoop e | ERefMut e => patterns e
  | ESumMatches e ps => patterns e ++ ps
  | EMatch e arms => patterns e ++ flat_map (fun a => fst a :: patterns (snd a)) arms
  | EMapOption e _ rest | EIfMore e _ rest | ELet _ e rest | ESeq e rest | EDebug e rest => patterns e ++ patterns rest
  end.

(** The constructors that patterns and expressions name, and the functions that
    expressions call. *)
Fixpoint pattern_constructors (p : rpat) : list path :=
  match p with
  | PtRef p | PtRefBind _ p | PtVariant _ _ (Some p) => pattern_constructors p
  | PtCon c ps => c :: flat_map pattern_constructors ps
  | PtConRest c => [c]
  | PtOr ps => flat_map pattern_constructors ps
  | _ => []
  end.
Fixpoint built (e : expr) : list path :=
  match e with
  | EVar _ | EUnit | ELit _ | EUnreachable | EInvalid | EUser _ _ => []
  | ECon c es => c :: flat_map built es
  | EVariant _ _ es | ECall _ es => flat_map built es
  | EMethod e _ es => built e ++ flat_map built es
  | EMapErr e _ | ETryInto e _ | ESumMatches e _ | EFormat e | EReturn e | ETry e | ECallClosure _ e | ELoop e | ERefMut e => built e
  | EMatch e arms => built e ++ flat_map (fun a => built (snd a)) arms
  | EMapOption e _ rest | EIfMore e _ rest | ELet _ e rest | ESeq e rest | EDebug e rest => built e ++ built rest
  end.
Fixpoint called (e : expr) : list path :=
  match e with
  | EVar _ | EUnit | ELit _ | EUnreachable | EInvalid | EUser _ _ => []
  | ECall f es => f :: flat_map called es
  | ECon _ es | EVariant _ _ es => flat_map called es
  | EMethod e _ es => called e ++ flat_map called es
  | EMapErr e f => f :: called e
  | ETryInto e _ | ESumMatches e _ | EFormat e | EReturn e | ETry e | ECallClosure _ e | ELoop e | ERefMut e => called e
  | EMatch e arms => called e ++ flat_map (fun a => called (snd a)) arms
  | EMapOption e _ rest | EIfMore e _ rest | ELet _ e rest | ESeq e rest | EDebug e rest => called e ++ called rest
  end.

(** Constructors and functions of std and of src/. *)
Definition known_constructors : list path :=
  [["None"]; ["Some"]; ["Ok"]; ["Err"];
   ["parser_generator"; "parser_state"; "ParserControl"; "Continue"];
   ["parser_generator"; "parser_state"; "ParserControl"; "Accept"]].
Definition known_functions : list path :=
  [["parser_generator"; "parser_state"; "ParserState"; "new"];
   ["parser_generator"; "error"; "ParserError"; "new"];
   ["parser_generator"; "error"; "ParserError"; "overlapping_token_matchers"];
   ["parser_generator"; "error"; "ParserUserErrorOrInfallible"; "into_user_error"]].

(** What an expression names is known or declared. *)
Definition declared_constructor (en : enum_item) (c : path) : Prop :=
  In c known_constructors \/ exists v ty, In (v, ty) (e_variants en) /\ c = [e_name en; v].
Definition declared_function (fns : list fn_item) (f : path) : Prop :=
  In f known_functions \/ exists fn, In fn fns /\ f = [f_name fn].
Definition resolves (en : enum_item) (fns : list fn_item) (e : expr) : Prop :=
  (forall p c, In p (patterns e) -> In c (pattern_constructors p) -> declared_constructor en c) /\
  (forall c, In c (built e) -> declared_constructor en c) /\
  (forall f, In f (called e) -> declared_function fns f).

(** A type parameter of a function that a type the user wrote, and that occurs
    in the function's signature, refers to. *)
Definition captures_type (f : fn_item) (x : string) : Prop :=
  In x (f_generics f) /\ exists ty, In ty (f_signature f) /\ In x (flat_map idents ty).

(** Patterns that match every value, and arms of a match that together do: one of
    them does, or they are about a value of an enum and one of them is for each
    variant. *)
Definition irrefutable (p : rpat) : Prop := match p with PtWild | PtVar _ => True | _ => False end.
Definition covered (ps : list rpat) (c : path) (fields : nat) : Prop :=
  In (PtConRest c) ps \/ exists qs, In (PtCon c qs) ps /\ List.length qs = fields /\ Forall irrefutable qs.
Definition known_enums : list (list (path * nat)) :=
  [[(["None"], 0); (["Some"], 1)];
   [(["Ok"], 1); (["Err"], 1)];
   [(["parser_generator"; "parser_state"; "ParserControl"; "Continue"], 0);
    (["parser_generator"; "parser_state"; "ParserControl"; "Accept"], 1)]].
Definition exhaustive (en : enum_item) (ps : list rpat) : Prop :=
  (exists p, In p ps /\ irrefutable p) \/
  (exists k, In k known_enums /\ forall c n, In (c, n) k -> covered ps c n) \/
  (forall v ty, In (v, ty) (e_variants en) -> covered ps [e_name en; v] 1).

(** Every match is exhaustive, and every expression is one. *)
Fixpoint complete (en : enum_item) (e : expr) : Prop :=
  let all es := fold_right (fun e acc => complete en e /\ acc) True es in
  match e with
  | EVar _ | EUnit | ELit _ | EUnreachable | EUser _ _ => True
  | EInvalid => False
  | ECon _ es | EVariant _ _ es | ECall _ es => all es
  | EMethod e _ es => complete en e /\ all es
  | EMapErr e _ | ETryInto e _ | ESumMatches e _ | EFormat e | EReturn e | ETry e | ECallClosure _ e | ELoop e | ERefMut e => complete en e
  | EMatch e arms => complete en e /\ exhaustive en (map fst arms) /\ fold_right (fun a acc => complete en (snd a) /\ acc) True arms
  | EMapOption e _ rest | EIfMore e _ rest | ELet _ e rest | ESeq e rest | EDebug e rest => complete en e /\ complete en rest
  end.
