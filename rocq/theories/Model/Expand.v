(** The macros [grammar!] and [pub_grammar!] as a whole:
    parser_generator_impl/src/lib.rs.  Tokens come in with their spans, and
    what is returned is the item that is emitted. *)
From Coq Require Import Arith Bool String Ascii NArith List.
From Verif Require Import Base.Prelude Spec.Grammar Model.Error Model.IndexedGrammar Model.LRTable.
From Verif Require Import Model.TokenTree Model.Terminal Model.Constructor Model.CodeGen Model.Runtime Model.Symbol Model.FrontEnd.
From Verif Require Import Model.Diagnostics Model.CodeGenDiagnostics Model.Rust Model.Emit.
Import ListNotations.
Open Scope string_scope.
Open Scope list_scope.

Section Expand.
Variable span : Type.
Variable call_site : span.
Variable join_spans : span -> span -> option span.
Variable print : list ttree -> string.
(** The error of [Literal::from_str], and whether there is none. *)
Variable lex_error : string -> string.
Variable literal_ok : string -> bool.

(** production_rule.rs:41-47: of the metadata, only the span of the rule and that
    of its block are looked at when code is generated. *)
Definition srule_of (r : rule_at span) : srule span :=
  mk_srule span (ra_name span r) (ra_type span r) (map fst (ra_at span r)) (ra_block span r) (mt_span span (ra_meta span r)).

(** parse_grammar.rs:110-113, 206-223 *)
Definition error_type_of (ty : option (list ttree)) : error_type :=
  match ty with Some ty => Custom ty | None => NoErrorType end.

(** lib.rs:28-36 with code_gen.rs:15-70: the templates are filled in from the
    program of [cg_generate_parser], which has called [root_production_type]
    already. *)
Definition sp_build_grammar {bm : BuildMode} (ho : hash_orders) (fuel : nat) (tokens : list (token span)) (vis : visibility)
  : outcome (diag span) emitted :=
  d <- sp_parse_declarations span call_site join_spans print
         (stream_new span (sp_tokenize_from_stream span join_spans tokens)) ;;
  gi <- sp_grammar_info span call_site fuel d ;;
  p <- cg_generate_parser span call_site lex_error literal_ok ho gi (map srule_of (da_rules span d)) ;;
  root_type <- map_err (fun _ => mk_diag span "" call_site) (root_production_type gi) ;;
  Ok (emit vis (da_name span d) (error_type_of (da_error_type span d)) (gi_terminal_type gi) root_type p).

(** What the compiler goes on with: an item, or an error message at a place
    ([abort!], error.rs:27-29). *)
Inductive expansion := Item (em : emitted) | CompileError (d : diag span).

Definition or_abort (m : outcome (diag span) emitted) : outcome Empty_set expansion :=
  match m with
  | Ok em => Ok (Item em)
  | Err d => Ok (CompileError d)
  | Panic why => Panic why
  | Diverge => Diverge
  end.

(** lib.rs:38-46 *)
Definition grammar {bm : BuildMode} (ho : hash_orders) (fuel : nat) (tokens : list (token span)) : outcome Empty_set expansion :=
  or_abort (sp_build_grammar ho fuel tokens Private).

(** lib.rs:48-56 *)
Definition pub_grammar {bm : BuildMode} (ho : hash_orders) (fuel : nat) (tokens : list (token span)) : outcome Empty_set expansion :=
  or_abort (sp_build_grammar ho fuel tokens Public).

End Expand.
