(** Constructors (C33, C34).  The specification is [Spec.Substitution]. *)
From Coq Require Import Arith String Ascii NArith List.
From Verif Require Import Base.Prelude Spec.Grammar.
From Verif Require Import Model.TokenTree Model.Terminal Model.Constructor Model.CodeGen Spec.Values Spec.Substitution.
From Verif Require Import Proofs.Substitution Proofs.GenExamples.
Import ListNotations.
Open Scope string_scope.
Open Scope list_scope.

(** ** C33: references in constructors *)
Theorem C33_substitution_exact :
  forall nodes ts body, rewrite_provided_constructor nodes (Brace, ts) = Ok (CUser body) <-> substituted nodes ts body.
Proof. exact rewrite_ok. Qed.
Print Assumptions C33_substitution_exact.

Theorem C33_rejections_exact :
  forall nodes ts e, rewrite_provided_constructor nodes (Brace, ts) = Err e <-> bad_reference nodes ts e.
Proof. exact rewrite_err. Qed.
Print Assumptions C33_rejections_exact.

(** Nothing else happens; other delimiters than braces are rejected. *)
Theorem C33_every_constructor :
  forall nodes d ts,
  (d = Brace /\ ((exists body, rewrite_provided_constructor nodes (d, ts) = Ok (CUser body)) \/ exists e, bad_reference nodes ts e)) \/
  (d <> Brace /\ rewrite_provided_constructor nodes (d, ts) = Err ConstructorNotBraced).
Proof. exact rewrite_total. Qed.
Print Assumptions C33_every_constructor.

Example C33_example_accepted : substituted body_nodes body_tokens
  [CToken (TIdent "f"); CGroup Parenthesis [CVar 0; CToken (TPunct "," Alone); CGroup Bracket [CVar 2; CToken (TPunct "," Alone); CVar 3]];
   CToken (TPunct "#" Joint); CToken (TPunct "?" Alone)].
Proof. exact body_substituted. Qed.

Example C33_example_rejected :
  bad_reference body_nodes [TGroup Brace [hash; TIdent "N"; hash; TIdent "E"]] (AmbiguousReference "E") /\
  bad_reference body_nodes [hash; TIdent "X"] (UnknownReference "X") /\
  bad_reference body_nodes [hash; TLiteral "5"] (IndexOutOfRange 5) /\
  bad_reference body_nodes [hash; TLiteral "04"] (IndexOfEpsilon 4) /\
  bad_reference body_nodes [hash; TLiteral "1u8"] (NotAnIndex "1u8") /\
  bad_reference body_nodes [TIdent "x"; hash; TPunct "." Alone; TIdent "y"] DanglingNumberSign.
Proof. exact body_bad. Qed.

(** ** C34: variables of constructors

    In full, false: a rule [<A>: T => !;] gets the default constructor, which
    uses [__v0]; nothing binds it. *)
Theorem C34_variables_are_bound_refuted :
  forall bm : BuildMode, exists gi ho p i bs c v, accepted gi /\ orders_ok ho /\ generate_parser all_literals ho gi = Ok p /\
  constructs p i bs c /\ In v (ctor_vars c) /\ ~ In v (map b_var bs).
Proof. exact unbound_variable. Qed.
Print Assumptions C34_variables_are_bound_refuted.

(** This is the only case. *)
Theorem C34_variables_are_bound_partial :
  forall (bm : BuildMode) literal_ok gi ho p, accepted gi -> orders_ok ho -> generate_parser literal_ok ho gi = Ok p ->
  forall i bs c, constructs p i bs c -> exists r, nth_error (gi_rules gi) i = Some r /\ build_constructor (gi_rules gi) i = Ok c /\
  map b_var bs = rev (node_indices (pr_nodes r)) /\
  (incl (ctor_vars c) (map b_var bs) \/ (pr_block r = None /\ (exists ty, pr_type r = Some ty) /\ pr_nodes r = [PNEpsilon])).
Proof. exact (fun bm literal_ok gi ho p => @vars_bound bm literal_ok gi ho p). Qed.
Print Assumptions C34_variables_are_bound_partial.

Example C34_example : generated (bm := true) all_literals calc calc_p /\
  constructs calc_p 1 [mk_bind 2 [8] None; mk_bind 1 [5] None; mk_bind 0 [1] None] (CUser [CVar 0; CToken (TPunct "+" Alone); CVar 2]).
Proof. exact (conj (calc_generated true) calc_constructs). Qed.
