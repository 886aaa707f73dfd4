(** The Rust code that is emitted (C52, C53).  It is an item of the syntax of
    Model/Rust.v, which also gives its meaning; [emit] (Model/Emit.v) fills in the
    templates.  The specification is in [Spec.EmittedCode] (what a run is compared
    with) and [Spec.EmittedNames] (bound and free names of the syntax). *)
From Coq Require Import Arith String List.
From Verif Require Import Base.Prelude Spec.Grammar Spec.Validity Spec.Observers Spec.Values Spec.EmittedCode Spec.EmittedNames.
From Verif Require Import Model.TokenTree Model.Terminal Model.Constructor Model.CodeGen Model.Runtime Model.Rust Model.Emit.
From Verif Require Import Proofs.GenMain Proofs.GenExamples Proofs.EmitMain Proofs.EmitNames Proofs.EmitExamples.
Import ListNotations.
Open Scope string_scope.
Open Scope list_scope.

(** ** C52: the code does what the generated program (Model/CodeGen.v and
    Model/Runtime.v, to which C20 - C29, C38, C39 and C41 apply) does

    [bv] is what the bodies of constructors evaluate to, given the variables that
    are in scope.  [describes]: the constructors of [R] evaluate their bodies where
    only their arguments are in scope.  That is also what happens in the emitted
    code if bodies do not name its other local variables ([hygienic_rules], cf.
    C53). *)
Theorem C52_emitted_code_runs :
  forall (bmg : BuildMode) literal_ok gi p, generated (bm := bmg) literal_ok gi p ->
  forall (bm : BuildMode) (E : Type) (R : rust) (SErr : Type) (into : SErr -> UErr R) (input : nat -> option (tok R + SErr)) bv,
  describes R SErr bv -> depends_on_named R SErr bv -> hygienic_rules (gi_rules gi) ->
  forall vis name ety rt fuel,
  same_run (parse_fallible (E := E) R into input fuel p)
    (run_emitted R into input bv fuel (emit vis name ety (gi_terminal_type gi) rt p)).
Proof.
  exact (fun bmg literal_ok gi p Hg bm E R SErr into input bv H1 H2 H3 vis name ety rt fuel =>
    @emitted_runs bmg literal_ok gi p bm E R SErr into input bv Hg H1 H2 H3 vis name ety rt fuel).
Qed.
Print Assumptions C52_emitted_code_runs.

(** So it never does anything undefined, ... *)
Theorem C52_emitted_code_is_defined :
  forall (bmg : BuildMode) literal_ok gi p, generated (bm := bmg) literal_ok gi p ->
  forall (bm : BuildMode) (E : Type) (R : rust) (SErr : Type) (into : SErr -> UErr R) (input : nat -> option (tok R + SErr)) bv,
  describes R SErr bv -> depends_on_named R SErr bv -> hygienic_rules (gi_rules gi) ->
  forall vis name ety rt fuel,
  let m := run_emitted R into input bv fuel (emit vis name ety (gi_terminal_type gi) rt p) : result (E := E) R in
  m = Diverge \/ exists st r, m = Ok (st, FVal R (result_value r)).
Proof.
  exact (fun bmg literal_ok gi p Hg bm E R SErr into input bv H1 H2 H3 vis name ety rt fuel =>
    @emitted_defined bmg literal_ok gi p bm E R SErr into input bv Hg H1 H2 H3 vis name ety rt fuel).
Qed.
Print Assumptions C52_emitted_code_is_defined.

(** ... and it returns [Ok(v)] only for sentences with value [v]. *)
Theorem C52_values_only_for_sentences :
  forall (bmg : BuildMode) literal_ok gi p, generated (bm := bmg) literal_ok gi p ->
  forall (bm : BuildMode) (E : Type) (R : rust) (SErr : Type) (into : SErr -> UErr R) (input : nat -> option (tok R + SErr)) bv,
  describes R SErr bv -> depends_on_named R SErr bv -> hygienic_rules (gi_rules gi) ->
  forall vis name ety rt fuel st v,
  run_emitted R into input bv fuel (emit vis name ety (gi_terminal_type gi) rt p) = (Ok (st, FVal R (VCon ["Ok"] [VVal v])) : result (E := E) R) ->
  exists ts d, (forall n, n <= List.length ts -> input n = of_list ts n) /\ parses_tokens R gi ts d /\ snd (Values.eval R gi d) = inl v.
Proof.
  exact (fun bmg literal_ok gi p Hg bm E R SErr into input bv H1 H2 H3 vis name ety rt fuel st v =>
    @emitted_value bmg literal_ok gi p bm E R SErr into input bv Hg H1 H2 H3 vis name ety rt fuel st v).
Qed.
Print Assumptions C52_values_only_for_sentences.

(** C22 for the emitted code. *)
Theorem C22_emitted_code_partial :
  forall (bmg : BuildMode) literal_ok gi p, generated (bm := bmg) literal_ok gi p ->
  forall (bm : BuildMode) (E : Type) (R : rust) (SErr : Type) (into : SErr -> UErr R) bv,
  describes R SErr bv -> depends_on_named R SErr bv -> hygienic_rules (gi_rules gi) ->
  forall vis name ety rt ts d,
  first_complete (bm := bmg) (source (gi_rules gi)) -> unambiguous_tokens R gi ts -> parses_tokens R gi ts d ->
  exists N, forall fuel, N < fuel -> exists st,
    run_emitted R into (of_list ts) bv fuel (emit vis name ety (gi_terminal_type gi) rt p) =
    (Ok (st, FVal R (result_value (match snd (Values.eval R gi d) with inl v => inl v | inr e => inr (UserError R e) end))) : result (E := E) R).
Proof.
  exact (fun bmg literal_ok gi p Hg bm E R SErr into bv H1 H2 H3 vis name ety rt ts d =>
    @emitted_sentence bmg literal_ok gi p bm E R SErr into bv Hg H1 H2 H3 vis name ety rt ts d).
Qed.
Print Assumptions C22_emitted_code_partial.

(** Sums of numbers: bodies are sums of the variables they name. *)
Example C52_example : generated (bm := false) all_literals calc calc_p /\
  describes code_demo string sum_body /\ depends_on_named code_demo string sum_body /\ hygienic_rules (gi_rules calc) /\
  first_complete (bm := false) (source (gi_rules calc)) /\
  parses_tokens code_demo calc calc_tokens (calc_tree 2 3) /\ unambiguous_tokens code_demo calc calc_tokens.
Proof.
  exact (conj (calc_generated false) (conj demo_describes (conj demo_depends (conj calc_hygienic (conj (calc_first false)
    (conj (proj1 calc_tree_code) (proj1 (proj2 calc_tree_code)))))))).
Qed.

Example C52_example_runs : forall bm,
  outcome_of (run_code bm calc calc_p (of_list calc_tokens)) = Some (VCon ["Ok"] [VVal (RUser 5)]) /\
  outcome_of (run_code bm calc calc_p (of_list [Num 7; Plus; Num 8])) = Some (VCon ["Err"] [VCon (p_error "UserError") [VUErr "overflow"]]) /\
  outcome_of (run_code bm calc calc_p (of_list [Num 7; Plus])) = Some (VCon ["Err"] [VCon (p_error "ParseError") [VCon ["None"] []]]) /\
  outcome_of (run_code bm calc calc_p (fun n => nth_error [inl (Num 7); inr "disk"] n)) = Some (VCon ["Err"] [VCon (p_error "UserError") [VUErr "disk"]]).
Proof. exact calc_code_runs. Qed.

(** ** C53: names

    In full (names of the emitted code and of the user do not interfere), false.
    A constructor that names [__peeked_val] gets the next token: *)
Theorem C53_variables_not_captured_refuted :
  forall bm : BuildMode, exists gi p (R : rust) bv (into : string -> UErr R) input fuel vis name ety rt,
  generated (bm := bm) all_literals gi p /\ describes R string bv /\ depends_on_named R string bv /\
  ~ same_run (E := unit) (parse_fallible (bm := bm) R into input fuel p)
      (run_emitted (bm := bm) R into input bv fuel (emit vis name ety (gi_terminal_type gi) rt p)).
Proof. exact not_same_run. Qed.
Print Assumptions C53_variables_not_captured_refuted.

(** an error type named [E] is taken for a type parameter: *)
Theorem C53_types_not_captured_refuted :
  forall bm : BuildMode, exists gi p vis name ety rt f x,
  generated (bm := bm) all_literals gi p /\ In f (em_fns (emit vis name ety (gi_terminal_type gi) rt p)) /\
  error_type_tokens ety = [TIdent x] /\ captures_type f x.
Proof. exact type_captured. Qed.
Print Assumptions C53_types_not_captured_refuted.

(** and a constructor that calls its own [parse_s0] calls that of the parser: *)
Theorem C53_functions_not_captured_refuted :
  forall bm : BuildMode, exists gi p vis name ety rt f i vs ts f',
  let em := emit vis name ety (gi_terminal_type gi) rt p in
  generated (bm := bm) all_literals gi p /\ In f (em_fns em) /\ In (i, vs, ts) (bodies [f_param f] (f_body f)) /\
  In f' (em_fns em) /\ In (f_name f') (flat_map idents ts).
Proof. exact function_captured. Qed.
Print Assumptions C53_functions_not_captured_refuted.

(** What constructors see, exactly: the variables of the nodes of their rule, and
    the two internal ones. *)
Theorem C53_scope_of_constructors_partial :
  forall (bm : BuildMode) literal_ok gi p, generated (bm := bm) literal_ok gi p ->
  forall vis name ety rt f i vs ts,
  In f (em_fns (emit vis name ety (gi_terminal_type gi) rt p)) -> In (i, vs, ts) (bodies [f_param f] (f_body f)) ->
  exists r, nth_error (gi_rules gi) i = Some r /\ (exists d ts', pr_block r = Some (d, ts')) /\
  forall x, In x vs <-> In x internal_names \/ exists k, In k (node_indices (pr_nodes r)) /\ x = argument_name k.
Proof. exact (fun bm literal_ok gi p Hg vis name ety rt f i vs ts => @scopes bm literal_ok gi p Hg vis name ety rt f i vs ts). Qed.
Print Assumptions C53_scope_of_constructors_partial.

(** The names of the emitted code do not interfere with each other: the enum, variants and
    functions have different names, *)
Theorem C53_names_are_distinct :
  forall (bm : BuildMode) literal_ok gi p, generated (bm := bm) literal_ok gi p ->
  forall vis name ety rt, let em := emit vis name ety (gi_terminal_type gi) rt p in
  e_name (em_enum em) <> em_struct em /\ NoDup (map fst (e_variants (em_enum em))) /\ NoDup (map f_name (em_fns em)) /\
  List.length (e_variants (em_enum em)) = em_table_size em /\ List.length (em_fns em) = em_table_size em.
Proof. exact (fun bm literal_ok gi p Hg vis name ety rt => @names_distinct bm literal_ok gi p Hg vis name ety rt). Qed.
Print Assumptions C53_names_are_distinct.

(** variables are bound, unless the user wrote them, *)
Theorem C53_variables_are_bound :
  forall (bm : BuildMode) literal_ok gi p, generated (bm := bm) literal_ok gi p ->
  forall vis name ety rt, let em := emit vis name ety (gi_terminal_type gi) rt p in
  (forall f x, In f (em_fns em) -> In x (free_vars (f_body f)) ->
     x = f_param f \/ exists r d ts, In r (gi_rules gi) /\ pr_block r = Some (d, ts) /\ In x (flat_map idents ts)) /\
  (forall x, In x (free_vars (em_body em)) -> x = em_param em).
Proof. exact (fun bm literal_ok gi p Hg vis name ety rt => @variables_bound bm literal_ok gi p Hg vis name ety rt). Qed.
Print Assumptions C53_variables_are_bound.

(** and variants and functions that are named are declared.  State functions do
    not call each other; the loop handles every variant and calls every function.
    Alternatives of patterns bind nothing (but there is at least one). *)
Theorem C53_names_resolve :
  forall (bm : BuildMode) literal_ok gi p, generated (bm := bm) literal_ok gi p ->
  forall vis name ety rt, let em := emit vis name ety (gi_terminal_type gi) rt p in
  (forall f, In f (em_fns em) -> resolves (em_enum em) [] (f_body f) /\ forall q, In q (patterns (f_body f)) -> simple_alternatives q) /\
  resolves (em_enum em) (em_fns em) (em_body em) /\
  (forall v t, In (v, t) (e_variants (em_enum em)) -> In (PtConRest [e_name (em_enum em); v]) (patterns (em_body em))) /\
  (forall f, In f (em_fns em) -> In [f_name f] (called (em_body em))).
Proof. exact (fun bm literal_ok gi p Hg vis name ety rt => @names_resolve bm literal_ok gi p Hg vis name ety rt). Qed.
Print Assumptions C53_names_resolve.

(** Every match is exhaustive, and there is an expression wherever one belongs. *)
Theorem C53_matches_are_exhaustive :
  forall (bm : BuildMode) literal_ok gi p, generated (bm := bm) literal_ok gi p ->
  forall vis name ety rt, let em := emit vis name ety (gi_terminal_type gi) rt p in
  (forall f, In f (em_fns em) -> complete (em_enum em) (f_body f)) /\ complete (em_enum em) (em_body em).
Proof. exact (fun bm literal_ok gi p Hg vis name ety rt => @code_complete bm literal_ok gi p Hg vis name ety rt). Qed.
Print Assumptions C53_matches_are_exhaustive.

Example C53_example : generated (bm := true) all_literals calc calc_p /\
  map (fun b => (fst (fst b), snd (fst b))) (flat_map (fun f => bodies [f_param f] (f_body f)) (em_fns calc_em)) =
  [(2, ["__v0"; "__peeked_val"; "__parser_generator_state"]);
   (3, ["__v0"; "__peeked_val"; "__parser_generator_state"]);
   (4, ["__v0"; "__v1"; "__peeked_val"; "__parser_generator_state"]);
   (1, ["__v0"; "__v1"; "__v2"; "__peeked_val"; "__parser_generator_state"])] /\
  map fst (e_variants (em_enum calc_em)) = ["S0"; "S1"; "S2"; "S3"; "S4"; "S5"; "S6"; "S7"; "S8"] /\
  map f_name (em_fns calc_em) = ["parse_s0"; "parse_s1"; "parse_s2"; "parse_s3"; "parse_s4"; "parse_s5"; "parse_s6"; "parse_s7"; "parse_s8"].
Proof. exact (conj (calc_generated true) calc_scopes). Qed.

Example C53_example_free :
  map (fun f => nodup string_dec (free_vars (f_body f))) (em_fns calc_em) = repeat ["__parser_generator_state"] 9 /\
  nodup string_dec (free_vars (em_body calc_em)) = ["__parser_generator_input_stream"].
Proof. exact calc_free. Qed.
