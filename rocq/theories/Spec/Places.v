(** Where in the input the rules, their nodes and their blocks are. *)
From Coq Require Import Arith Bool String Ascii List.
From Verif Require Import Base.Prelude Spec.Grammar Model.TokenTree Model.Terminal Model.Symbol Model.Constructor.
From Verif Require Import Model.Diagnostics Model.CodeGenDiagnostics Spec.Macro Spec.Diagnostics.
Import ListNotations.
Open Scope string_scope.
Open Scope list_scope.

Section Places.
Context {span : Type} (join_spans : span -> span -> option span) (print : list ttree -> string).
Notation symbol_at := (symbol_at span).
Notation srule := (srule span).
Notation cover := (cover join_spans).

(** A node and its place: that of the name, without the pattern of a terminal. *)
Inductive node_written : pnode -> span -> list symbol_at -> Prop :=
| nw_production n x y z : types_at [x; y; z] = [SOp BeginProd; SIdent n; SOp EndProd] ->
    node_written (PNProduction n) (cover (span_of x) (span_of z)) [x; y; z]
| nw_literal t x : at_type span x = SLiteral t -> node_written (Macro.plain t) (span_of x) [x]
| nw_ident n x : at_type span x = SIdent n -> node_written (Macro.plain n) (span_of x) [x]
| nw_wildcard n ts x y : types_at [x; y] = [SIdent n; SParen ts] -> wildcard ts ->
    node_written (PNSymbol (mk_symbol n PGWildcard)) (span_of x) [x; y]
| nw_pattern n ts x y : types_at [x; y] = [SIdent n; SParen ts] -> ~ wildcard ts ->
    node_written (PNSymbol (mk_symbol n (PGPattern (print ts)))) (span_of x) [x; y]
| nw_epsilon x : at_type span x = SOp Bang -> node_written PNEpsilon (span_of x) [x].

Inductive nodes_written : list pnode -> list span -> list symbol_at -> Prop :=
| nsw_nil : nodes_written [] [] []
| nsw_cons n s xs ns ss ys : node_written n s xs -> nodes_written ns ss ys -> nodes_written (n :: ns) (s :: ss) (xs ++ ys).

(** A block is where it is, and so are the tokens in it. *)
Inductive block_written : option (delimiter * list (stree span) * span) -> list symbol_at -> Prop :=
| bw_none : block_written None []
| bw_some d ts x : at_type span x = SGroup d ts -> block_written (Some (d, at_inside span x, span_of x)) [x].

(** The place of a rule is that of its nodes. *)
Inductive alternative_written (label : string) (ty : option (list ttree)) : srule -> list symbol_at -> Prop :=
| aw_alternative nodes s ss block xs ys : nodes_written nodes (s :: ss) xs -> block_written block ys ->
    alternative_written label ty (mk_srule span label ty nodes block (fold_left cover ss s)) (xs ++ ys).

Inductive alternatives_written (label : string) (ty : option (list ttree)) : list srule -> list symbol_at -> Prop :=
| asw_one r xs : alternative_written label ty r xs -> alternatives_written label ty [r] xs
| asw_more r xs x rs ys : alternative_written label ty r xs -> at_type span x = SOp Pipe -> alternatives_written label ty rs ys ->
    alternatives_written label ty (r :: rs) (xs ++ x :: ys).

Inductive declaration_written : list srule -> list symbol_at -> Prop :=
| dw_declaration label ty rs xl xt x xa y : ref_syms label xl -> type_at join_spans ty xt -> at_type span x = SOp Arrow ->
    alternatives_written label (option_map snd ty) rs xa -> at_type span y = SOp Semicolon ->
    declaration_written rs (xl ++ xt ++ x :: xa ++ [y]).

Inductive declarations_written : list srule -> list symbol_at -> Prop :=
| dsw_nil : declarations_written [] []
| dsw_cons rs xs rs' ys : declaration_written rs xs -> declarations_written rs' ys -> declarations_written (rs ++ rs') (xs ++ ys).

(** The options, which come before all rules. *)
Definition options_rx : rx :=
  seq_of [an_option "name" an_ident;
          RAlt (an_option "terminal" a_type) (an_option "enum_terminal" a_type);
          maybe (an_option "error_type" a_type)].

(** The input [xs] has the rules [rs], in this order. *)
Definition rules_written (rs : list srule) (xs : list symbol_at) : Prop :=
  exists xo xd, xs = xo ++ xd /\ matches options_rx (types_at xo) /\ declarations_written rs xd.

(** The tokens of the input, and those in groups, too. *)
Inductive within : stree span -> stree span -> Prop :=
| wi_self t : within t t
| wi_group d ts s t t' : In t ts -> within t' t -> within t' (STGroup span d ts s).
Definition token_of (ts : list (token span)) (t : stree span) : Prop := exists t0, In t0 ts /\ within t (tk_with span t0).

(** The places there are: those of tokens of the input, and what these can be
    joined to. *)
Inductive place_in (ts : list (token span)) : span -> Prop :=
| pi_token t : token_of ts t -> place_in ts (st_span span t)
| pi_open t : In t ts -> place_in ts (tk_open span t)
| pi_join s t u : place_in ts s -> place_in ts t -> join_spans s t = Some u -> place_in ts u.

End Places.
