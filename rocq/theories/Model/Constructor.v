(** Model of parser_generator_impl/src/code_gen/constructor.rs and of the
    production rules of annotated_grammar it reads. *)
From Coq Require Import Arith Bool String Ascii NArith List.
From Verif Require Import Base.Prelude Spec.Grammar Model.Error Model.TokenTree Model.Terminal.
Import ListNotations.

(** production_node.rs:11-14 with terminal.rs:140-144 [TerminalSymbol];
    metadata is omitted. *)
Inductive pnode :=
| PNProduction (name : string)
| PNSymbol (s : user_symbol)
| PNEpsilon.

(** production_node.rs:37-42 *)
Definition pnode_is_epsilon (n : pnode) : bool :=
  match n with PNEpsilon => true | _ => false end.

(** production_node.rs:24-35 with terminal.rs:239-246 *)
Definition to_lr_node (n : pnode) : node user_symbol string :=
  match n with
  | PNProduction name => Production name
  | PNSymbol s => Terminal (Token s)
  | PNEpsilon => Terminal Epsilon
  end.

(** production_rule.rs:25-39 [Constructor]: a group; 41-47 [ProductionRule].  A
    type is its tokens. *)
Record prule := mk_prule {
  pr_name : string;
  pr_type : option (list ttree);
  pr_nodes : list pnode;
  pr_block : option (delimiter * list ttree);
}.

(** production_rule.rs:50-57 *)
Definition to_lr_production_rule (r : prule) : rule user_symbol string :=
  mk_rule (pr_name r) (map to_lr_node (pr_nodes r)).

(** reduce_rule.rs:26-29: [__v{node_index}] is modelled by this marker, an
    identifier token that no token of the constructor's body is confused with. *)
Inductive cbody :=
| CToken (t : ttree)                        (* any token but a group *)
| CGroup (d : delimiter) (ts : list cbody)
| CVar (node_index : nat).

(** The constructor expressions that are generated. *)
Inductive ctor_code :=
| CUnit                                     (* ()                      *)
| CDefault (node_index : nat)               (* {__v0.try_into()...?}   *)
| CUser (body : list cbody).                (* (|| { Ok({ body }) })()? *)

(** constructor.rs:19-34 *)
Definition generate_default_constructor (r : prule) : outcome gen_error ctor_code :=
  if negb (List.length (pr_nodes r) =? 1) then Err MissingConstructor
  else Ok (CDefault 0).

(** constructor.rs:36-39; [None] stands for [DUPLICATE_SYMBOL]. *)
Record subst_map := mk_subst {
  production_label_map : hash_map string (option nat);
  num_nodes : nat;
}.

Fixpoint hm_set {K V} `{EqDec K} (k : K) (v : V) (m : hash_map K V) : hash_map K V :=
  match m with
  | [] => []
  | (k', v') :: m' => if eq_dec k k' then (k, v) :: m' else (k', v') :: hm_set k v m'
  end.

(** constructor.rs:44-67 *)
Definition subst_build (rule : list pnode) : subst_map :=
  let step (m : hash_map string (option nat)) (p : nat * pnode) :=
    let '(idx, node) := p in
    match node with
    | PNProduction name =>
        match hm_get name m with
        | Some _ => hm_set name None m
        | None => hm_insert_vacant name (Some idx) m
        end
    | _ => m
    end in
  mk_subst (fold_left step (combine (seq 0 (List.length rule)) rule) []) (List.length rule).

(** constructor.rs:69-90 *)
Definition lookup_label (m : subst_map) (ident : string) : outcome gen_error nat :=
  match hm_get ident (production_label_map m) with
  | None => Err (UnknownReference ident)
  | Some None => Err (AmbiguousReference ident)
  | Some (Some index) => Ok index
  end.

(** [str::parse::<usize>]: an optional [+], then one or more decimal digits;
    fails when the number does not fit into 64 bits. *)
Fixpoint parse_digits (acc : N) (s : string) : option N :=
  match s with
  | EmptyString => Some acc
  | String c s' =>
      let n := nat_of_ascii c in
      if (48 <=? n) && (n <=? 57) then
        let acc' := (acc * 10 + N.of_nat (n - 48))%N in
        if (acc' <? 2 ^ 64)%N then parse_digits acc' s' else None
      else None
  end.

Definition parse_usize (s : string) : option N :=
  match s with
  | EmptyString => None
  | String "+" EmptyString => None
  | String "+" s' => parse_digits 0 s'
  | _ => parse_digits 0 s
  end.

(** constructor.rs:92-118 *)
Definition literal_to_index (m : subst_map) (literal : string) (rule : list pnode)
  : outcome gen_error nat :=
  match parse_usize literal with
  | None => Err (NotAnIndex literal)
  | Some i =>
      if (N.of_nat (num_nodes m) <=? i)%N then Err (IndexOutOfRange i)
      else
        let index := N.to_nat i in
        node <- Base.Prelude.index rule index ;;
        if pnode_is_epsilon node then Err (IndexOfEpsilon index) else Ok index
  end.

(** constructor.rs:120-138, applied to the token after the [#]. *)
Definition substitute_at (m : subst_map) (rule : list pnode) (next : option ttree)
  : outcome gen_error nat :=
  match next with
  | Some (TIdent ident) => lookup_label m ident
  | Some (TLiteral literal) => literal_to_index m literal rule
  | _ => Err DanglingNumberSign
  end.

(** constructor.rs:140-168.  The [while let] over the tokens is a recursion;
    [TIdent]/[TLiteral]/other [TPunct] tokens are appended unchanged. *)
Fixpoint substitute_tree (m : subst_map) (rule : list pnode) (t : ttree) : outcome gen_error cbody :=
  match t with
  | TGroup d ts =>
      let fix vars (ts : list ttree) : outcome gen_error (list cbody) :=
        match ts with
        | [] => Ok []
        | t :: ts' =>
            if is_punct t "#" Alone then
              index <- substitute_at m rule (hd_error ts') ;;
              match ts' with
              | [] => Ok [CVar index]
              | _ :: rest => r <- vars rest ;; Ok (CVar index :: r)
              end
            else
              c <- substitute_tree m rule t ;;
              r <- vars ts' ;;
              Ok (c :: r)
        end in
      body <- vars ts ;;
      Ok (CGroup d body)
  | _ => Ok (CToken t)
  end.

Fixpoint substitute_vars (m : subst_map) (rule : list pnode) (ts : list ttree)
  : outcome gen_error (list cbody) :=
  match ts with
  | [] => Ok []
  | t :: ts' =>
      if is_punct t "#" Alone then
        index <- substitute_at m rule (hd_error ts') ;;
        match ts' with
        | [] => Ok [CVar index]
        | _ :: rest => r <- substitute_vars m rule rest ;; Ok (CVar index :: r)
        end
      else
        c <- substitute_tree m rule t ;;
        r <- substitute_vars m rule ts' ;;
        Ok (c :: r)
  end.

(** constructor.rs:171-191 *)
Definition rewrite_provided_constructor (rule : list pnode) (block : delimiter * list ttree)
  : outcome gen_error ctor_code :=
  let '(delim, stream) := block in
  if negb (eqb delim Brace) then Err ConstructorNotBraced
  else
    body <- substitute_vars (subst_build rule) rule stream ;;
    Ok (CUser body).

(** constructor.rs:193-208 *)
Definition build_constructor (rules : list prule) (production_rule : nat)
  : outcome gen_error ctor_code :=
  rule <- index rules production_rule ;;
  match pr_block rule with
  | Some constructor => rewrite_provided_constructor (pr_nodes rule) constructor
  | None =>
      match pr_type rule with
      | Some _ => generate_default_constructor rule
      | None => Ok CUnit
      end
  end.
