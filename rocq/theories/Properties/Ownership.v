(** Emitted code obeys the rules of ownership (C67): nothing is used after it was
    moved, and the parser state is not changed while it is borrowed. *)
From Coq Require Import Arith Bool String Ascii NArith List.
From Verif Require Import Base.Prelude Spec.Grammar Model.LRTable.
From Verif Require Import Model.TokenTree Model.Terminal Model.Constructor Model.CodeGen Model.Runtime Model.Symbol Model.FrontEnd.
From Verif Require Import Model.Diagnostics Model.Rust Model.Emit Model.Expand.
From Verif Require Import Spec.Values Spec.Macro Spec.Diagnostics Spec.EmittedCode Spec.Expansion Spec.Typing Spec.Ownership.
From Verif Require Import Proofs.GenExamples Proofs.MacroExamples Proofs.DiagnosticsExamples Proofs.ExpandExamples Proofs.TypingExamples Proofs.Ownership Proofs.OwnershipExamples.
Import ListNotations.
Open Scope string_scope.
Open Scope list_scope.

(** ** C67: the emitted item passes the borrow checker

    In full: for every grammar that a macro accepts, if the user's part is right,
    then in each function of the emitted item no variable is used after it was
    moved, and the parser state is not changed while a reference into it can still
    be used ([Spec.Ownership]).  Proved under the conditions of C62 (without that on
    type parameters) for constructors that do not name the variables
    [__peeked_val] and [__parser_generator_state] of the emitted code, which is
    needed (below). *)
Theorem C67_item_owns_partial :
  forall (span : Type) (call_site : span) (join_spans : span -> span -> option span) (print : list ttree -> string)
    (lex_error : string -> string) (literal_ok : string -> bool) (bm : BuildMode) ho, orders_ok ho ->
  forall fuel ts em d u, reads_as print (trees ts) d -> defaults_bound (d_rules d) ->
  grammar span call_site join_spans print lex_error literal_ok ho fuel ts = Ok (Item span em) \/
  pub_grammar span call_site join_spans print lex_error literal_ok ho fuel ts = Ok (Item span em) ->
  user_part_fits u d -> single_patterns u d -> plain_token_type d -> hygienic_rules (d_rules d) -> well_owned u em.
Proof.
  exact (fun span call_site join_spans print lex_error literal_ok bm ho Ho fuel ts em d u Rd Db H =>
    macros_owned call_site join_spans print lex_error literal_ok ho fuel ts em d u Ho Rd Db H).
Qed.
Print Assumptions C67_item_owns_partial.

(** The grammar of sums. *)
Example C67_example : reads_as show (trees (placed 1 calc_input)) calc_decls /\ defaults_bound (d_rules calc_decls) /\
  (forall bm : BuildMode, pub_expand bm calc_input = Ok (Item place calc_item)) /\
  user_part_fits calc_user calc_decls /\ single_patterns calc_user calc_decls /\ plain_token_type calc_decls /\ hygienic_rules (d_rules calc_decls).
Proof. exact (conj (proj2 calc_placed_reads) (conj calc_bound (conj calc_expands (conj calc_fits (conj (proj1 calc_plain) (conj (proj1 (proj2 calc_plain)) calc_decls_hygienic)))))). Qed.

(** The rules reject code: [let a = pop(); push(a); push(a)], [let a = pop(); loop
    { push(a) }], [let p = peek(); let a = pop(); match p { .. }], [let s =
    stream_mut(); let a = pop(); s.advance()], and [push(pop())]; [let a = pop();
    push(a)] is right. *)
Example C67_rules : takes_state (ELet "a" pop (push (EVar "a"))) /\
  ~ takes_state (ELet "a" pop (ESeq (push (EVar "a")) (push (EVar "a")))) /\
  ~ takes_state (ELet "a" pop (ELoop (push (EVar "a")))) /\
  ~ takes_state (ELet "p" peek (ELet "a" pop (EMatch (EVar "p") [(PtWild, EUnit)]))) /\
  ~ takes_state (ELet "s" (EMethod st "stream_mut" []) (ELet "a" pop (EMethod (EVar "s") "advance" []))) /\
  ~ takes_state (push pop).
Proof. exact (conj move_once (conj move_twice (conj move_in_loop (conj pop_while_peeked (conj pop_while_advancing pop_in_argument))))). Qed.

(** [<S>: u32 => Num(..) { __peeked_val };], where [__peeked_val] is meant to be a
    constant of the user: the constructor uses the peeked token after a pop. *)
Theorem C67_captured_variable_refuted :
  forall bm : BuildMode, exists ts em d u,
  well_spaced (trees ts) /\ reads_as show (trees ts) d /\ defaults_bound (d_rules d) /\
  grammar (bm := bm) place whole join_places show no_lex all_literals forward 50 ts = Ok (Item place em) /\
  user_part_fits u d /\ single_patterns u d /\ plain_token_type d /\ well_typed u em /\ ~ well_owned u em.
Proof. exact peeking_fails_at. Qed.
Print Assumptions C67_captured_variable_refuted.
