(** The front end of [grammar!] and the macro as a whole (C30 - C32, C40, C42 -
    C44).  The specification is [Spec.Macro]: which tokens are a symbol, and which
    symbols are a file of declarations.

    [print] stands for [TokenStream::to_string] and is arbitrary. *)
From Coq Require Import Arith String Ascii List.
From Verif Require Import Base.Prelude Spec.Grammar Spec.Validity Spec.Nullable Spec.LR1 Spec.Observers Model.Error.
From Verif Require Import Model.IndexedGrammar Model.LRTable Model.TokenTree Model.Terminal Model.Constructor Model.CodeGen Model.Runtime.
From Verif Require Import Model.Symbol Model.FrontEnd Spec.Values Spec.Macro Spec.MacroPanic.
From Verif Require Import Proofs.GenExamples Proofs.Macro Proofs.MacroTotal Proofs.MacroMain Proofs.MacroExamples Proofs.MacroRefute.
Import ListNotations.
Open Scope string_scope.
Open Scope list_scope.

(** ** C30: the grammars that are built

    For whatever tokens the macro is given: the rules handed to lr_table mention
    no end of stream, are not empty, and have epsilon only by itself. *)
Theorem C30_grammars_built :
  forall (print : list ttree -> string) ts d, parse_declarations print (tokenize_from_stream ts) = Ok d ->
  no_eos (source (d_rules d)) /\
  forall r, In r (source (d_rules d)) -> rhs r <> [] /\ (In (Terminal Epsilon) (rhs r) -> rhs r = [Terminal Epsilon]).
Proof. exact (fun print ts d => read_grammar print ts d). Qed.
Print Assumptions C30_grammars_built.

(** So the hypotheses of the theorems about generated parsers (C20 - C29) hold. *)
Theorem C30_accepted :
  forall (bm : BuildMode) (print : list ttree -> string) fuel ts n et gi,
  parse_grammar print fuel (tokenize_from_stream ts) = Ok (n, et, gi) -> accepted gi /\ eps_trailing (source (gi_rules gi)).
Proof. exact (fun bm print fuel ts n et gi H => conj (@grammar_accepted bm print fuel _ n et gi H) (GenCode.source_eps gi (@grammar_accepted bm print fuel _ n et gi H))). Qed.
Print Assumptions C30_accepted.

Example C30_example : parse_declarations show (tokenize_from_stream calc_input) = Ok calc_decls /\
  exists n et, parse_grammar (bm := true) show 50 (tokenize_from_stream calc_input) = Ok (n, et, calc).
Proof. exact (conj calc_read (ex_intro _ _ (ex_intro _ _ (calc_grammar true)))). Qed.

(** ** C31: what is read is what was written *)
Theorem C31_reads_what_was_written :
  forall (print : list ttree -> string) ts d, well_spaced ts ->
  (exists d', parse_declarations print (tokenize_from_stream ts) = Ok d' /\ same_declarations d d') <-> reads_as print ts d.
Proof. exact (fun print ts d => read_exact print ts d). Qed.
Print Assumptions C31_reads_what_was_written.

(** From right to left without the condition. *)
Theorem C31_declarations_are_read :
  forall (print : list ttree -> string) ts d, reads_as print ts d ->
  exists d', parse_declarations print (tokenize_from_stream ts) = Ok d' /\ same_declarations d d'.
Proof. exact (fun print ts d => read_complete print ts d). Qed.
Print Assumptions C31_declarations_are_read.

(** The tokens can be read in one way only, so this is what was meant. *)
Theorem C31_unambiguous :
  forall (print : list ttree -> string) ts d1 d2, reads_as print ts d1 -> reads_as print ts d2 -> same_declarations d1 d2.
Proof. exact (fun print ts d1 d2 => read_unique print ts d1 d2). Qed.
Print Assumptions C31_unambiguous.

(** All other tokens are an error. *)
Theorem C31_errors_otherwise :
  forall (print : list ttree -> string) ts, (exists d, parse_declarations print (tokenize_from_stream ts) = Ok d) \/
  exists e, parse_declarations print (tokenize_from_stream ts) = Err e.
Proof. exact (fun print ts => read_total print ts). Qed.
Print Assumptions C31_errors_otherwise.

Example C31_example : well_spaced calc_input /\ reads_as show calc_input calc_decls.
Proof. exact calc_reads. Qed.

(** ** C32: one type per label *)
Theorem C32_one_type_per_label :
  forall (bm : BuildMode) (print : list ttree -> string) fuel ts n et gi,
  parse_grammar print fuel (tokenize_from_stream ts) = Ok (n, et, gi) ->
  (forall r1 r2, In r1 (gi_rules gi) -> In r2 (gi_rules gi) -> pr_name r1 = pr_name r2 -> same_type print (pr_type r1) (pr_type r2)) /\
  (forall r, In r (gi_rules gi) -> exists ty, label_type gi (pr_name r) = Ok ty /\ same_type print ty (pr_type r)) /\
  (forall r l, In r (gi_rules gi) -> In (PNProduction l) (pr_nodes r) -> exists ty, label_type gi l = Ok ty).
Proof. exact (fun bm print fuel ts n et gi => @grammar_labels bm print fuel ts n et gi). Qed.
Print Assumptions C32_one_type_per_label.

(** A second type is reported, and nothing else is reported this way. *)
Theorem C32_mismatch_is_reported :
  forall (print : list ttree -> string) ts, well_spaced ts ->
  parse_declarations print (tokenize_from_stream ts) = Err DifferentReturnTypes <->
  exists ts1 ts2 xs, ts = ts1 ++ ts2 /\ symbols_of ts1 xs /\ conflict_syms print xs.
Proof. exact (fun print ts => conflict_exact print ts). Qed.
Print Assumptions C32_mismatch_is_reported.

Example C32_example : (exists n et, parse_grammar (bm := false) show 50 (tokenize_from_stream calc_input) = Ok (n, et, calc)) /\
  well_spaced two_types /\ parse_declarations show (tokenize_from_stream two_types) = Err DifferentReturnTypes.
Proof. exact (conj (ex_intro _ _ (ex_intro _ _ (calc_grammar false))) two_types_reported). Qed.

(** ** C40: symbols *)
Theorem C40_tokenization_is_faithful :
  forall ts xs, well_spaced ts -> tokenize_from_stream ts = map inl xs <-> symbols_of ts xs.
Proof. exact tokenize_ok. Qed.
Print Assumptions C40_tokenization_is_faithful.

(** The first error is at the first tokens that are not a symbol; the symbols
    before it are all there. *)
Theorem C40_first_error :
  forall ts xs e, well_spaced ts ->
  (exists r, tokenize_from_stream ts = map inl xs ++ inr e :: r) <->
  exists good bad, ts = good ++ bad /\ symbols_of good xs /\ not_a_symbol bad e.
Proof. exact tokenize_err. Qed.
Print Assumptions C40_first_error.

Example C40_example : well_spaced scoped /\ exists xs, types xs = [SOp BeginProd; SIdent "A"; SOp EndProd; SOp Scope; SOp Arrow] /\
  exists r, tokenize_from_stream scoped = map inl xs ++ inr (UnexpectedPunct "&") :: r.
Proof. exact scoped_symbols. Qed.

(** The condition is needed: otherwise tokens may be moved, without an error. *)
Example C40_spacing_is_needed : exists xs, tokenize_from_stream [TPunct ":" Joint; TIdent "a"; TPunct ":" Alone] = map inl xs /\
  types xs = [SIdent "a"; SOp Scope] /\ forall ys, ~ symbols_of [TPunct ":" Joint; TIdent "a"; TPunct ":" Alone] ys.
Proof. exact ill_spaced_symbols. Qed.

(** ** C42: expanding the macro ends, and how

    For whatever tokens, and with any order of hash maps, there is a budget
    beyond which expansion returns.  It returns a program, an error of the front
    end, an error in a constructor or literal, or panics in one of two cases. *)
Theorem C42_expansion_returns :
  forall (bm : BuildMode) (print : list ttree -> string) literal_ok ho ts, orders_ok ho ->
  exists N, forall fuel, N < fuel ->
  match build_grammar print literal_ok ho fuel ts with
  | Ok _ => True
  | Err (FrontError e) => parse_grammar print fuel (tokenize_from_stream ts) = Err e
  | Err (CodeGenError e) => exists d, parse_declarations print (tokenize_from_stream ts) = Ok d /\
      ((exists i, build_constructor (d_rules d) i = Err e) \/
       (exists s ty, terminal_in (d_rules d) s /\ d_terminal_type d = TTRaw ty /\ as_literal literal_ok s = Err e))
  | Panic _ => exists d, parse_declarations print (tokenize_from_stream ts) = Ok d /\ panic_cause d
  | Diverge => False
  end.
Proof. exact (fun bm print literal_ok ho ts => @macro_total bm print literal_ok ho ts). Qed.
Print Assumptions C42_expansion_returns.

(** Both cases occur. *)
Example C42_example : orders_ok forward /\ build_grammar (bm := true) show all_literals forward 50 calc_input = Ok calc_p /\
  (exists w, build_grammar (bm := false) show all_literals forward 50 char_input = Panic w) /\
  (exists w, build_grammar (bm := false) show all_literals forward 50 self_input = Panic w) /\
  build_grammar (bm := false) show all_literals forward 50 bad_body = Err (CodeGenError (UnknownReference "B")) /\
  (exists e, build_grammar (bm := false) show all_literals forward 50 bad_label = Err (FrontError (GrammarError e))) /\
  build_grammar (bm := false) show all_literals forward 50 calc_head = Err (FrontError UnexpectedEnd).
Proof. exact (conj forward_ok (conj (calc_builds true) (conj (char_input_panics false) (conj (self_input_panics false) (errors_reported false))))). Qed.

(** ** C43: from the written grammar to the value

    If the tokens [ts] declare [d] and expand to [p], then [p] returns a value
    only for sentences of the grammar [d], namely that of a parse tree; and it
    does so for all sentences. *)
Theorem C43_written_grammar_is_parsed_partial :
  forall (bm : BuildMode) (print : list ttree -> string) literal_ok ho fuel ts p d,
  orders_ok ho -> reads_as print ts d -> defaults_bound (d_rules d) -> build_grammar print literal_ok ho fuel ts = Ok p ->
  exists gi, gi_terminal_type gi = d_terminal_type d /\ gi_rules gi = d_rules d /\
  forall (bmr : BuildMode) (E : Type) (R : rust) (SErr : Type) (into : SErr -> UErr R),
  (forall input fuel' st v, parse_fallible (bm := bmr) (E := E) R into input fuel' p = Ok (st, inl v) ->
    exists toks t, (forall i, i <= List.length toks -> input i = of_list toks i) /\ parses_tokens R gi toks t /\
      snd (eval R gi t) = inl v /\ map fst (st_log R st) = postorder t) /\
  (forall toks t, first_complete (bm := bm) (source (d_rules d)) -> unambiguous_tokens R gi toks -> parses_tokens R gi toks t ->
    exists N st, forall fuel', N < fuel' -> parse_fallible (bm := bmr) (E := E) R into (of_list toks) fuel' p =
      Ok (st, match snd (eval R gi t) with inl v => inl v | inr e => inr (UserError R e) end)).
Proof. exact (fun bm print literal_ok ho fuel ts p d => @macro_language bm print literal_ok ho fuel ts p d). Qed.
Print Assumptions C43_written_grammar_is_parsed_partial.

(** Missing from the full statement: grammars with incomplete FIRST sets, for
    which it is false, and tokens that match several terminals (see C22). *)
Theorem C43_sentences_are_parsed_refuted :
  forall bm bmr : BuildMode, exists ts d p gi (R : rust) toks t st k,
  well_spaced ts /\ reads_as show ts d /\ defaults_bound (d_rules d) /\ productive (source (d_rules d)) /\
  (forall fuel, 50 <= fuel -> build_grammar (bm := bm) show all_literals forward fuel ts = Ok p) /\
  gi_terminal_type gi = d_terminal_type d /\ gi_rules gi = d_rules d /\ unambiguous_tokens R gi toks /\ parses_tokens R gi toks t /\
  nth_error toks 1 = Some k /\
  forall fuel, 60 <= fuel -> parse_fallible (bm := bmr) (E := unit) (SErr := UErr R) R (fun e => e) (of_list toks) fuel p = Ok (st, inr (ParseError R (Some k))).
Proof. exact first_refutes. Qed.
Print Assumptions C43_sentences_are_parsed_refuted.

Example C43_example : orders_ok forward /\ reads_as show calc_input calc_decls /\ defaults_bound (d_rules calc_decls) /\
  build_grammar (bm := true) show all_literals forward 50 calc_input = Ok calc_p /\
  exists st, run true calc_p (of_list calc_tokens) = Ok (st, inl (RUser 5)) /\
  map fst (st_log demo st) = [3; 2; 3; 1; 5; 4; 1; 0] /\ s_calls demo (st_stream demo st) = 6.
Proof. exact (conj forward_ok (conj (proj2 calc_reads) (conj calc_bound (conj (calc_builds true) calc_value)))). Qed.

(** ** C44: which inputs are accepted

    An input should be accepted iff the grammar it declares is valid and LR(1).
    As in C07, both directions are false. *)
Theorem C44_accepted_is_lr1_refuted :
  forall bm : BuildMode, exists ts d n et gi, well_spaced ts /\ reads_as show ts d /\ root_unused (d_rules d) /\ productive (source (d_rules d)) /\
  (forall fuel, 50 <= fuel -> parse_grammar show fuel (tokenize_from_stream ts) = Ok (n, et, gi)) /\ ~ lr1_grammar (source (d_rules d)).
Proof. exact ambiguous_accepted. Qed.
Print Assumptions C44_accepted_is_lr1_refuted.

Theorem C44_lr1_is_accepted_refuted :
  forall bm : BuildMode, exists ts d e, well_spaced ts /\ reads_as show ts d /\ root_unused (d_rules d) /\
  first_complete (source (d_rules d)) /\ valid_grammar (source (d_rules d)) /\ lr1_grammar (source (d_rules d)) /\
  forall fuel, 50 <= fuel -> parse_grammar show fuel (tokenize_from_stream ts) = Err e.
Proof. exact unproductive_rejected. Qed.
Print Assumptions C44_lr1_is_accepted_refuted.

(** Missing from the full statement: grammars with incomplete FIRST sets or
    unproductive labels, and those whose first rule mentions its own label. *)
Theorem C44_accepted_iff_lr1_partial :
  forall (bm : BuildMode) (print : list ttree -> string) ts d,
  parse_declarations print (tokenize_from_stream ts) = Ok d -> root_unused (d_rules d) ->
  first_complete (source (d_rules d)) -> productive (source (d_rules d)) ->
  exists N, forall fuel, N < fuel ->
  ((exists n et gi, parse_grammar print fuel (tokenize_from_stream ts) = Ok (n, et, gi)) <->
   valid_grammar (source (d_rules d)) /\ lr1_grammar (source (d_rules d))).
Proof. exact (fun bm print ts d => @grammar_lr1 bm print (tokenize_from_stream ts) d). Qed.
Print Assumptions C44_accepted_iff_lr1_partial.

Example C44_example : parse_declarations show (tokenize_from_stream calc_input) = Ok calc_decls /\ gi_rules calc = d_rules calc_decls /\
  root_unused (gi_rules calc) /\ first_complete (bm := true) (source (gi_rules calc)) /\ productive (source (gi_rules calc)).
Proof. exact (conj calc_read (conj calc_rules_eq (conj (proj2 calc_usable) (conj (calc_first true) calc_productive)))). Qed.
