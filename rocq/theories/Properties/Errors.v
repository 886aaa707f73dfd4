(** The errors of generated parsers (C58, C59) and the derive macro for the
    users' errors (C60).  The specifications are [Spec.Causes] and [Spec.Derive]. *)
From Coq Require Import Arith String List.
From Verif Require Import Base.Prelude Spec.Grammar Spec.Values Spec.Causes Spec.Derive Model.Error.
From Verif Require Import Model.TokenTree Model.Terminal Model.Constructor Model.CodeGen Model.Runtime Model.ParserErrorText Model.DeriveUserError.
From Verif Require Import Proofs.GenExamples Proofs.Causes Proofs.ParserErrors Proofs.Derive Proofs.ErrorExamples.
Import ListNotations.
Open Scope string_scope.

(** ** C58: every error has its cause

    When a parser fails, the tokens before the last one it asked for are those of
    trees of the grammar; exactly the constructors of these trees were run, each
    once, on the values of its nodes; and the error is a token that cannot follow,
    a token that two terminals match, the error of the stream, or the error of the
    last of these constructors. *)
Theorem C58_errors_have_causes :
  forall (bmg : BuildMode) literal_ok gi p, generated (bm := bmg) literal_ok gi p ->
  forall (bm : BuildMode) (E : Type) (R : rust) (SErr : Type) (into : SErr -> UErr R) input fuel st err,
  parse_fallible (E := E) R into input fuel p = Ok (st, inr err) ->
  exists ds, Forall (well_formed R gi) ds /\ starts input (tokens_of R ds) /\
  s_calls R (st_stream R st) = S (List.length (tokens_of R ds)) /\ st_log R st = flat_map (calls R gi) ds /\
  error_cause R gi into ds (input (List.length (tokens_of R ds))) err.
Proof. exact generated_causes. Qed.
Print Assumptions C58_errors_have_causes.

Example C58_example : generated (bm := true) all_literals calc calc_p /\
  (exists st, run true calc_p (of_list [Num 9; Plus; Num 3; Plus; Plus]) = Ok (st, inr (UserError demo "overflow")) /\
   map fst (st_log demo st) = [3; 2; 3; 1] /\ s_calls demo (st_stream demo st) = 4) /\
  exists ds, map fst (flat_map (calls demo calc) ds) = [3; 2; 3; 1] /\ tokens_of demo ds = [Num 9; Plus; Num 3] /\
  error_cause (bm := true) demo calc no_error ds (Some (inl Plus)) (UserError demo "overflow").
Proof. exact (conj (calc_generated true) (conj calc_fails cause_ex)). Qed.

(** ** C59: the texts of errors

    The text of an error is that of the token the parser stopped at, or of the
    user's error; a failure of the stream is always reported by its own text. *)
Theorem C59_text_names_the_token :
  forall (bmg : BuildMode) literal_ok gi p, generated (bm := bmg) literal_ok gi p ->
  forall (bm : BuildMode) (E : Type) (R : rust) (SErr : Type) (into : SErr -> UErr R) input fuel st err debug_token show,
  parse_fallible (E := E) R into input fuel p = Ok (st, inr err) ->
  let text := error_text R debug_token show err in
  match input (Nat.pred (s_calls R (st_stream R st))) with
  | None =>
      text = "Failed to parse: unexpected None" \/ exists e, err = UserError R e /\ text = show e
  | Some (inl k) =>
      text = "Failed to parse: unexpected Some(" ++ debug_token k ++ ")" \/
      text = "Token Some(" ++ debug_token k ++ ") matches multiple rules. Disambiguate matchers for tokens of this type." \/
      exists e, err = UserError R e /\ text = show e
  | Some (inr e) => text = show (into e)
  end.
Proof. exact text_of_run. Qed.
Print Assumptions C59_text_names_the_token.

(** Different errors have different texts, if [Debug] tells tokens apart and
    the user's texts are not those of the parser. *)
Theorem C59_texts_differ :
  forall (R : rust) (debug_token : tok R -> string) (show : UErr R -> string),
  (forall t t', debug_token t = debug_token t' -> t = t') -> (forall e e', show e = show e' -> e = e') ->
  (forall e s, show e <> "Failed to parse: unexpected " ++ s) ->
  (forall e s, show e <> "Token " ++ s ++ " matches multiple rules. Disambiguate matchers for tokens of this type.") ->
  forall e e', error_text R debug_token show e = error_text R debug_token show e' -> e = e'.
Proof. exact texts_differ. Qed.
Print Assumptions C59_texts_differ.

Example C59_example :
  run_text (run true calc_p (of_list [Num 9; Plus; Plus; Num 1])) = Some "Failed to parse: unexpected Some(Plus)" /\
  run_text (run true calc_p (of_list [Num 9; Plus])) = Some "Failed to parse: unexpected None" /\
  run_text (run true calc_p (of_list [Num 9; Plus; Num 3; Plus; Plus])) = Some "error: overflow" /\
  run_text (run true calc_p (of_list_then [Num 9; Plus] "io" (of_list [Num 1]))) = Some "error: io" /\
  run_text (run true overlap_p (of_list overlap_tokens)) =
    Some "Token Some(Num(1)) matches multiple rules. Disambiguate matchers for tokens of this type.".
Proof. exact texts_ex. Qed.

(** Both displays of the type used where the user has no errors meet the
    hypotheses about user's texts. *)
Example C59_no_user_error :
  (forall e e' : unit, no_user_error_display e = no_user_error_display e' -> e = e') /\
  (forall e s, no_user_error_display e <> "Failed to parse: unexpected " ++ s) /\
  (forall e s, no_user_error_debug e <> "Token " ++ s ++ " matches multiple rules. Disambiguate matchers for tokens of this type.").
Proof. repeat split; intros; try destruct e, e'; auto; discriminate. Qed.

(** ** C60: the derive macro

    The macro should implement [From<Infallible>] and [ParserUserError] for the
    type it is given.  In full, false: parameters of the type are dropped, so what
    is written does not compile. *)
Theorem C60_derive_for_type_refuted :
  exists d, derive_parser_user_error d <> flat_map impl_tokens (user_error_impls d).
Proof. exact derive_generic_ex. Qed.
Print Assumptions C60_derive_for_type_refuted.

(** Missing from the full statement: types with parameters, for all of which it
    is false. *)
Theorem C60_derive_for_type_partial :
  forall d, derive_parser_user_error d = flat_map impl_tokens (user_error_impls d) <-> di_params d = [].
Proof. exact derive_iff. Qed.
Print Assumptions C60_derive_for_type_partial.

Example C60_example : di_params (mk_derive_input "MyError" []) = [] /\
  List.length (derive_parser_user_error (mk_derive_input "MyError" [])) = 29 /\ di_params generic_error <> [].
Proof. repeat split. discriminate. Qed.
