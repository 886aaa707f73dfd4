(** Emitted code compiles (C62): it is well typed by the rules of [Spec.Typing],
    provided that what the user wrote is. *)
From Coq Require Import Arith Bool String Ascii NArith List.
From Verif Require Import Base.Prelude Spec.Grammar Model.LRTable.
From Verif Require Import Model.TokenTree Model.Terminal Model.Constructor Model.CodeGen Model.Runtime Model.Symbol Model.FrontEnd.
From Verif Require Import Model.Diagnostics Model.Rust Model.Emit Model.Expand.
From Verif Require Import Spec.Values Spec.Macro Spec.Diagnostics Spec.Expansion Spec.Typing.
From Verif Require Import Proofs.GenExamples Proofs.MacroExamples Proofs.DiagnosticsExamples Proofs.ExpandExamples Proofs.Typing Proofs.TypingExamples.
Import ListNotations.
Open Scope string_scope.
Open Scope list_scope.

(** ** C62: the emitted item is well typed

    In full: for every grammar that a macro accepts, if the user's part is right
    ([user_part_fits]: literals, patterns, variants, conversions and constructors
    have the types that the grammar says), then so is the emitted item.  Proved for
    grammars in which no rule with a type and without constructor has the body [!],
    patterns have no [|] at their top, the type of tokens has no arguments and no
    type is named like a type parameter of the emitted functions.  Each of the four
    conditions is needed (below). *)
Theorem C62_item_is_well_typed_partial :
  forall (span : Type) (call_site : span) (join_spans : span -> span -> option span) (print : list ttree -> string)
    (lex_error : string -> string) (literal_ok : string -> bool) (bm : BuildMode) ho, orders_ok ho ->
  forall fuel ts em d u, reads_as print (trees ts) d -> defaults_bound (d_rules d) ->
  grammar span call_site join_spans print lex_error literal_ok ho fuel ts = Ok (Item span em) \/
  pub_grammar span call_site join_spans print lex_error literal_ok ho fuel ts = Ok (Item span em) ->
  user_part_fits u d -> single_patterns u d -> plain_token_type d -> parameters_unused d -> well_typed u em.
Proof.
  exact (fun span call_site join_spans print lex_error literal_ok bm ho Ho fuel ts em d u Rd Db H =>
    macros_typed call_site join_spans print lex_error literal_ok ho fuel ts em d u Ho Rd Db H).
Qed.
Print Assumptions C62_item_is_well_typed_partial.

(** The user's part of the grammar of sums, in which bodies are sums of numbers
    and of variables with numbers. *)
Example C62_example : reads_as show (trees (placed 1 calc_input)) calc_decls /\ defaults_bound (d_rules calc_decls) /\
  (forall bm : BuildMode, pub_expand bm calc_input = Ok (Item place calc_item)) /\
  user_part_fits calc_user calc_decls /\ single_patterns calc_user calc_decls /\ plain_token_type calc_decls /\ parameters_unused calc_decls.
Proof. exact (conj (proj2 calc_placed_reads) (conj calc_bound (conj calc_expands (conj calc_fits calc_plain)))). Qed.

(** [<S> => Num(1 | 2);] becomes [Num(ref x @ 1 | 2)], in which only the first
    alternative binds [x]. *)
Theorem C62_or_patterns_refuted :
  forall bm : BuildMode, exists ts em d u,
  well_spaced (trees ts) /\ reads_as show (trees ts) d /\ defaults_bound (d_rules d) /\
  grammar (bm := bm) place whole join_places show no_lex all_literals forward 50 ts = Ok (Item place em) /\
  user_part_fits u d /\ plain_token_type d /\ parameters_unused d /\ ~ well_typed u em.
Proof. exact or_fails_at. Qed.
Print Assumptions C62_or_patterns_refuted.

(** [enum_terminal: Tok<u32>;] becomes [Tok<u32>::A] in patterns. *)
Theorem C62_generic_tokens_refuted :
  forall bm : BuildMode, exists ts em d u,
  well_spaced (trees ts) /\ reads_as show (trees ts) d /\ defaults_bound (d_rules d) /\
  grammar (bm := bm) place whole join_places show no_lex all_literals forward 50 ts = Ok (Item place em) /\
  user_part_fits u d /\ single_patterns u d /\ parameters_unused d /\ ~ well_typed u em.
Proof. exact generic_fails_at. Qed.
Print Assumptions C62_generic_tokens_refuted.

(** [<A>: u32 => !;] becomes a conversion of a variable that does not exist. *)
Theorem C62_default_of_nothing_refuted :
  forall bm : BuildMode, exists ts em d u,
  well_spaced (trees ts) /\ reads_as show (trees ts) d /\
  grammar (bm := bm) place whole join_places show no_lex all_literals forward 50 ts = Ok (Item place em) /\
  user_part_fits u d /\ single_patterns u d /\ plain_token_type d /\ parameters_unused d /\ ~ well_typed u em.
Proof. exact nothing_fails_at. Qed.
Print Assumptions C62_default_of_nothing_refuted.

(** [error_type: E;] is taken for the type parameter [E] of a function. *)
Theorem C62_type_parameters_refuted :
  forall bm : BuildMode, exists ts em d u,
  well_spaced (trees ts) /\ reads_as show (trees ts) d /\ defaults_bound (d_rules d) /\
  grammar (bm := bm) place whole join_places show no_lex all_literals forward 50 ts = Ok (Item place em) /\
  user_part_fits u d /\ single_patterns u d /\ plain_token_type d /\ ~ well_typed u em.
Proof. exact captured_fails_at. Qed.
Print Assumptions C62_type_parameters_refuted.
