(** Why a parser gives an error: the causes of the errors of a generated
    parser, in terms of the trees it has read so far. *)
From Coq Require Import Arith Bool String List.
From Verif Require Import Base.Prelude Spec.Grammar Model.Error.
From Verif Require Import Model.TokenTree Model.Terminal Model.Constructor Model.CodeGen Model.Runtime Spec.Values.
Import ListNotations.

Section Causes.
Context {bm : BuildMode}.
Variable R : rust.
Variable gi : grammar_info.
Context {SErr : Type}.
Variable into : SErr -> UErr R.

(** The constructors of all rules of a tree gave values. *)
Definition evaluates (d : dtree R) : Prop := exists v, snd (eval R gi d) = inl v.

(** [error_cause ds next err]: [err] is an error of a parser that has read the
    trees [ds], and whose stream gave [next] after their tokens. *)
Inductive error_cause (ds : list (dtree R)) : option (tok R + SErr) -> parser_error R -> Prop :=
(** No rule goes on with the next token, or the tokens are at an end. *)
| cause_unexpected o : Forall evaluates ds ->
    error_cause ds (option_map inl o) (ParseError R o)
(** The next token is matched by two terminals of the grammar; only builds with
    debug assertions, and only grammars with an enum of tokens. *)
| cause_overlap k s s' ty : Forall evaluates ds -> debug_assertions = true -> gi_terminal_type gi = TTEnum ty ->
    s <> s' -> terminal_in (gi_rules gi) s -> terminal_in (gi_rules gi) s' ->
    sym_matches R gi s k = true -> sym_matches R gi s' k = true ->
    error_cause ds (Some (inl k)) (OverlappingTokenMatchers R k)
(** The stream failed. *)
| cause_stream e : Forall evaluates ds ->
    error_cause ds (Some (inr e)) (UserError R (into e))
(** The constructor of a rule failed, on the values of the nodes of that rule. *)
| cause_constructor o ds' i cs vs e : ds = ds' ++ [Node i cs] -> Forall evaluates ds' ->
    Forall2 (fun c v => snd (eval R gi c) = inl v) cs vs ->
    rule_value R gi i (combine (indices_of gi i) vs) = inr e ->
    error_cause ds (option_map inl o) (UserError R e).

End Causes.
