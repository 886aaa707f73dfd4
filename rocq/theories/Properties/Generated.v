(** Code generation and generated parsers (C20 - C29, C38, C39, C41).  The
    specification is [Spec.Values]: which tokens a terminal stands for, parse
    trees over tokens, their values.

    [bmg] is the mode the generator was built in, [bm] the mode of the generated
    parser.  Streams are functions [nat -> option (token + error)], so they may be
    infinite, fail, or go on after an error or after [None].  [fuel] bounds the
    steps of a run; it is arbitrary. *)
From Coq Require Import Arith String List.
From Verif Require Import Base.Prelude Spec.Grammar Spec.Validity Spec.Nullable Spec.Observers Model.Error.
From Verif Require Import Model.Vocabulary Model.IndexedGrammar Model.FirstMap Model.LRTable Model.StateMap Model.ParseSimulator.
From Verif Require Import Model.TokenTree Model.Terminal Model.Constructor Model.CodeGen Model.Runtime Spec.Values.
From Verif Require Import Proofs.LR1Final Proofs.GenFinal Proofs.GenMain Proofs.GenExamples.
Import ListNotations.
Open Scope string_scope.
Open Scope list_scope.

(** ** C20: where errors are reported

    In full, false: through the FIRST bug (C14) a token is rejected although a
    sentence continues with it. *)
Theorem C20_error_is_earliest_refuted :
  forall bmg bm : BuildMode, exists gi p (R : rust) ts d st t, generated (bm := bmg) all_literals gi p /\
  unambiguous_tokens R gi ts /\ parses_tokens R gi ts d /\ productive (source (gi_rules gi)) /\
  (forall fuel, 60 <= fuel -> parse_fallible (bm := bm) (E := unit) (SErr := UErr R) R (fun e => e) (of_list ts) fuel p = Ok (st, inr (ParseError R (Some t)))) /\
  s_calls R (st_stream R st) = 2 /\ nth_error ts 1 = Some t.
Proof. exact first_rejects. Qed.
Print Assumptions C20_error_is_earliest_refuted.

(** And tokens are consumed that begin no sentence, if a label derives nothing
    (here the grammar has no sentence at all). *)
Theorem C20_consumed_is_viable_refuted :
  forall bmg bm : BuildMode, exists gi p (R : rust) ts st, generated (bm := bmg) all_literals gi p /\
  unambiguous_tokens R gi ts /\ first_complete (bm := bmg) (source (gi_rules gi)) /\
  (forall fuel, 60 <= fuel -> parse_fallible (bm := bm) (E := unit) (SErr := UErr R) R (fun e => e) (of_list ts) fuel p = Ok (st, inr (ParseError R None))) /\
  forall w, ~ language (source (gi_rules gi)) w.
Proof. exact empty_consumes. Qed.
Print Assumptions C20_consumed_is_viable_refuted.

(** Missing from the full statement: that the two hypotheses are not needed, and
    tokens that match several terminals. *)
Theorem C20_error_position_partial :
  forall (bmg : BuildMode) literal_ok gi (bm : BuildMode) (E : Type) (R : rust) p, generated (bm := bmg) literal_ok gi p ->
  forall (SErr : Type) (into : SErr -> UErr R) (input : nat -> option (tok R + SErr)) fuel st next_token,
  parse_fallible (E := E) R into input fuel p = Ok (st, inr (ParseError R next_token)) ->
  let next := match next_token with Some t => [t] | None => [] end in
  exists u, starts input u /\ input (List.length u) = option_map inl next_token /\ s_calls R (st_stream R st) = S (List.length u) /\
  (productive (source (gi_rules gi)) -> exists us vs, Forall2 (fun s k => sym_matches R gi s k = true) us u /\ language (source (gi_rules gi)) (us ++ vs)) /\
  (first_complete (bm := bmg) (source (gi_rules gi)) -> unambiguous_tokens R gi (u ++ next) ->
   forall us vs, Forall2 (fun s k => sym_matches R gi s k = true) us (u ++ next) -> (next_token = None -> vs = []) ->
   ~ language (source (gi_rules gi)) (us ++ vs)).
Proof. exact (fun bmg literal_ok gi bm E R p Hg SErr into input fuel st o => @main_error bmg literal_ok gi bm E R p Hg SErr into input fuel st o). Qed.
Print Assumptions C20_error_position_partial.

Example C20_example : generated (bm := true) all_literals calc calc_p /\ productive (source (gi_rules calc)) /\
  first_complete (bm := true) (source (gi_rules calc)) /\
  exists st, run true calc_p (of_list [Num 9; Plus; Plus; Num 1]) = Ok (st, inr (ParseError demo (Some Plus))) /\
  map fst (st_log demo st) = [3; 2] /\ s_calls demo (st_stream demo st) = 3.
Proof. exact (conj (calc_generated true) (conj calc_productive (conj (calc_first true) calc_rejects))). Qed.

(** ** C21: undefined behaviour

    [Panic] is what the model of the generated code gives for
    [unreachable_unchecked], for [unwrap_unchecked] on an empty stack, for a
    failed [verify_empty_stack], for an unwrapped [None], and for code that does
    not compile.  A run is never one of these. *)
Theorem C21_no_undefined_behaviour :
  forall (bmg : BuildMode) literal_ok gi (bm : BuildMode) (E : Type) (R : rust) p, generated (bm := bmg) literal_ok gi p ->
  forall (SErr : Type) (into : SErr -> UErr R) (input : nat -> option (tok R + SErr)) fuel,
  parse_fallible (E := E) R into input fuel p = Diverge \/ exists st r, parse_fallible (E := E) R into input fuel p = Ok (st, r).
Proof. exact (fun bmg literal_ok gi bm E R p Hg SErr into input fuel => @main_defined bmg literal_ok gi bm E R p Hg SErr into input fuel). Qed.
Print Assumptions C21_no_undefined_behaviour.

Example C21_example : generated (bm := false) all_literals calc calc_p /\
  exists st, run true calc_p (of_list [Num 9; Plus; Num 3; Plus; Plus]) = Ok (st, inr (UserError demo "overflow")) /\
  map fst (st_log demo st) = [3; 2; 3; 1] /\ s_calls demo (st_stream demo st) = 4.
Proof. exact (conj (calc_generated false) calc_fails). Qed.

(** ** C22: the result for a sentence

    In full, false: see C20 for the FIRST bug.  Where a token matches two
    terminals the release build picks one. *)
Theorem C22_sentences_are_evaluated_refuted :
  forall bmg bm : BuildMode, exists gi p (R : rust) ts d st t, generated (bm := bmg) all_literals gi p /\
  unambiguous_tokens R gi ts /\ parses_tokens R gi ts d /\ productive (source (gi_rules gi)) /\
  (forall fuel, 60 <= fuel -> parse_fallible (bm := bm) (E := unit) (SErr := UErr R) R (fun e => e) (of_list ts) fuel p = Ok (st, inr (ParseError R (Some t)))) /\
  s_calls R (st_stream R st) = 2 /\ nth_error ts 1 = Some t.
Proof. exact first_rejects. Qed.
Print Assumptions C22_sentences_are_evaluated_refuted.

Theorem C22_overlapping_tokens_refuted :
  forall bmg : BuildMode, exists gi p (R : rust) ts d st, generated (bm := bmg) all_literals gi p /\
  parses_tokens R gi ts d /\ first_complete (bm := bmg) (source (gi_rules gi)) /\
  forall fuel, 60 <= fuel -> exists o, parse_fallible (bm := false) (E := unit) (SErr := UErr R) R (fun e => e) (of_list ts) fuel p = Ok (st, inr (ParseError R o)).
Proof. exact overlap_rejects. Qed.
Print Assumptions C22_overlapping_tokens_refuted.

(** Missing from the full statement: grammars with incomplete FIRST sets, and
    tokens that match several terminals. *)
Theorem C22_sentences_are_evaluated_partial :
  forall (bmg : BuildMode) literal_ok gi (bm : BuildMode) (E : Type) (R : rust) p, generated (bm := bmg) literal_ok gi p ->
  forall (SErr : Type) (into : SErr -> UErr R) ts d,
  first_complete (bm := bmg) (source (gi_rules gi)) -> unambiguous_tokens R gi ts -> parses_tokens R gi ts d ->
  exists N st, (forall fuel, N < fuel -> parse_fallible (E := E) R into (of_list ts) fuel p =
      Ok (st, match snd (eval R gi d) with inl v => inl v | inr e => inr (UserError R e) end)) /\
    st_log R st = fst (eval R gi d).
Proof. exact (fun bmg literal_ok gi bm E R p Hg SErr into ts d => @main_sentence bmg literal_ok gi bm E R p Hg SErr into ts d). Qed.
Print Assumptions C22_sentences_are_evaluated_partial.

Example C22_example : generated (bm := true) all_literals calc calc_p /\ first_complete (bm := true) (source (gi_rules calc)) /\
  (parses_tokens demo calc calc_tokens (calc_tree 2 3) /\ unambiguous_tokens demo calc calc_tokens /\
   snd (eval demo calc (calc_tree 2 3)) = inl (RUser 5)) /\
  (parses_tokens demo calc [Num 9; Plus; Num 3; Plus; Zero] (calc_tree 9 3) /\
   unambiguous_tokens demo calc [Num 9; Plus; Num 3; Plus; Zero] /\
   snd (eval demo calc (calc_tree 9 3)) = inr "overflow").
Proof. exact (conj (calc_generated true) (conj (calc_first true) (conj calc_tree_parses calc_tree_fails))). Qed.

(** ** C23: values are returned only for sentences *)
Theorem C23_value_only_for_sentences :
  forall (bmg : BuildMode) literal_ok gi (bm : BuildMode) (E : Type) (R : rust) p, generated (bm := bmg) literal_ok gi p ->
  forall (SErr : Type) (into : SErr -> UErr R) (input : nat -> option (tok R + SErr)) fuel st v,
  parse_fallible (E := E) R into input fuel p = Ok (st, inl v) ->
  exists ts d, (forall n, n <= List.length ts -> input n = of_list ts n) /\ parses_tokens R gi ts d /\ snd (eval R gi d) = inl v /\
    st_log R st = calls R gi d /\ map fst (st_log R st) = postorder d.
Proof. exact (fun bmg literal_ok gi bm E R p Hg SErr into input fuel st v => @main_value bmg literal_ok gi bm E R p Hg SErr into input fuel st v). Qed.
Print Assumptions C23_value_only_for_sentences.

Example C23_example : generated (bm := true) all_literals calc calc_p /\
  exists st, run true calc_p (of_list calc_tokens) = Ok (st, inl (RUser 5)) /\
  map fst (st_log demo st) = [3; 2; 3; 1; 5; 4; 1; 0] /\ s_calls demo (st_stream demo st) = 6.
Proof. exact (conj (calc_generated true) calc_value). Qed.

(** ** C24: order of constructor calls

    After a successful parse: the last two conjuncts of the same statement.  In
    the middle of any run: the calls made so far are the post-order of the trees
    on the stack, whose values the stack holds. *)
Theorem C24_constructor_calls :
  forall (bmg : BuildMode) literal_ok gi (bm : BuildMode) (E : Type) (R : rust) p, generated (bm := bmg) literal_ok gi p ->
  forall (SErr : Type) (into : SErr -> UErr R) (input : nat -> option (tok R + SErr)) fuel st v,
  parse_fallible (E := E) R into input fuel p = Ok (st, inl v) ->
  exists ts d, (forall n, n <= List.length ts -> input n = of_list ts n) /\ parses_tokens R gi ts d /\ snd (eval R gi d) = inl v /\
    st_log R st = calls R gi d /\ map fst (st_log R st) = postorder d.
Proof. exact (fun bmg literal_ok gi bm E R p Hg SErr into input fuel st v => @main_value bmg literal_ok gi bm E R p Hg SErr into input fuel st v). Qed.
Print Assumptions C24_constructor_calls.

Theorem C24_constructor_calls_so_far :
  forall (bmg : BuildMode) literal_ok gi (bm : BuildMode) (R : rust) p, generated (bm := bmg) literal_ok gi p ->
  forall (SErr : Type) (into : SErr -> UErr R) (input : nat -> option (tok R + SErr)) st, visits R into input p st ->
  exists ds, Forall (well_formed R gi) ds /\ starts input (tokens_of R ds) /\
  st_stream R st = mk_stream R (S (List.length (tokens_of R ds))) (input (List.length (tokens_of R ds))) /\
  Forall2 (shows R gi) ds (rev (map snd (removelast (st_stack R st)))) /\
  map fst (st_log R st) = flat_map postorder ds.
Proof. exact (fun bmg literal_ok gi bm R p Hg SErr into input st => @main_visible bmg literal_ok gi bm R p Hg SErr into input st). Qed.
Print Assumptions C24_constructor_calls_so_far.

Example C24_example : generated (bm := true) all_literals calc calc_p /\
  exists st, visits (bm := true) demo no_error (of_list calc_tokens) calc_p st /\
  map snd (st_stack demo st) = [RTok (Num 3); RTok Plus; RUser 2; RUnit] /\ s_calls demo (st_stream demo st) = 4.
Proof. exact (conj (calc_generated true) calc_visits). Qed.

(** ** C25: stream errors *)
Theorem C25_stream_errors_propagate :
  forall (bmg : BuildMode) literal_ok gi (bm : BuildMode) (E : Type) (R : rust) p, generated (bm := bmg) literal_ok gi p ->
  forall (SErr : Type) (into : SErr -> UErr R) toks e (rest : nat -> option (tok R + SErr)) fuel st r,
  parse_fallible (E := E) R into (of_list_then toks e rest) fuel p = Ok (st, r) ->
  s_calls R (st_stream R st) <= S (List.length toks) /\ (exists err, r = inr err) /\
  (s_calls R (st_stream R st) = S (List.length toks) -> r = inr (UserError R (into e))) /\
  (s_calls R (st_stream R st) <= List.length toks ->
   forall input', starts input' toks -> parse_fallible (E := E) R into input' fuel p = Ok (st, r)) /\
  forall rest', parse_fallible (E := E) R into (of_list_then toks e rest') fuel p = Ok (st, r).
Proof. exact (fun bmg literal_ok gi bm E R p Hg SErr into toks e rest fuel st r => @main_stream_error bmg literal_ok gi bm E R p Hg SErr into toks e rest fuel st r). Qed.
Print Assumptions C25_stream_errors_propagate.

Example C25_example : generated (bm := true) all_literals calc calc_p /\
  (exists st, run true calc_p (of_list_then [Num 9; Plus] "io" (of_list [Num 1])) = Ok (st, inr (UserError demo "io")) /\
   map fst (st_log demo st) = [3; 2] /\ s_calls demo (st_stream demo st) = 3) /\
  (exists st, run true calc_p (of_list_then [Plus; Num 1] "io" (of_list [Num 1])) = Ok (st, inr (ParseError demo (Some Plus))) /\
   map fst (st_log demo st) = [] /\ s_calls demo (st_stream demo st) = 1).
Proof. exact (conj (calc_generated true) (conj calc_io calc_io_late)). Qed.

(** ** C26: lazy reading

    At any time the tokens on the stack are the first tokens of the stream, one
    more item has been read, and this is the one looked at; also at the end.  Once
    [next] has returned [None] it is not called again. *)
Theorem C26_lookahead_of_one :
  forall (bmg : BuildMode) literal_ok gi (bm : BuildMode) (R : rust) p, generated (bm := bmg) literal_ok gi p ->
  forall (SErr : Type) (into : SErr -> UErr R) (input : nat -> option (tok R + SErr)) st, visits R into input p st ->
  exists ds, Forall (well_formed R gi) ds /\ starts input (tokens_of R ds) /\
  st_stream R st = mk_stream R (S (List.length (tokens_of R ds))) (input (List.length (tokens_of R ds))) /\
  Forall2 (shows R gi) ds (rev (map snd (removelast (st_stack R st)))) /\
  map fst (st_log R st) = flat_map postorder ds.
Proof. exact (fun bmg literal_ok gi bm R p Hg SErr into input st => @main_visible bmg literal_ok gi bm R p Hg SErr into input st). Qed.
Print Assumptions C26_lookahead_of_one.

Theorem C26_lookahead_at_end :
  forall (bmg : BuildMode) literal_ok gi (bm : BuildMode) (E : Type) (R : rust) p, generated (bm := bmg) literal_ok gi p ->
  forall (SErr : Type) (into : SErr -> UErr R) (input : nat -> option (tok R + SErr)) fuel st r,
  parse_fallible (E := E) R into input fuel p = Ok (st, r) ->
  exists ts, starts input ts /\ st_stream R st = mk_stream R (S (List.length ts)) (input (List.length ts)).
Proof. exact (fun bmg literal_ok gi bm E R p Hg SErr into input fuel st r => @main_final_stream bmg literal_ok gi bm E R p Hg SErr into input fuel st r). Qed.
Print Assumptions C26_lookahead_at_end.

Theorem C26_not_read_after_end :
  forall (bmg : BuildMode) literal_ok gi (bm : BuildMode) (R : rust) p, generated (bm := bmg) literal_ok gi p ->
  forall (SErr : Type) (into : SErr -> UErr R) (input : nat -> option (tok R + SErr)) st i, visits R into input p st ->
  input i = None -> s_calls R (st_stream R st) <= S i.
Proof. exact (fun bmg literal_ok gi bm R p Hg SErr into input st i => @main_after_none bmg literal_ok gi bm R p Hg SErr into input st i). Qed.
Print Assumptions C26_not_read_after_end.

Theorem C26_not_read_after_end_final :
  forall (bmg : BuildMode) literal_ok gi (bm : BuildMode) (E : Type) (R : rust) p, generated (bm := bmg) literal_ok gi p ->
  forall (SErr : Type) (into : SErr -> UErr R) (input : nat -> option (tok R + SErr)) fuel st r i,
  parse_fallible (E := E) R into input fuel p = Ok (st, r) -> input i = None -> s_calls R (st_stream R st) <= S i.
Proof. exact (fun bmg literal_ok gi bm E R p Hg SErr into input fuel st r i => @main_after_none_final bmg literal_ok gi bm E R p Hg SErr into input fuel st r i). Qed.
Print Assumptions C26_not_read_after_end_final.

Example C26_example : generated (bm := true) all_literals calc calc_p /\
  (exists st, visits (bm := true) demo no_error (of_list calc_tokens) calc_p st /\
   map snd (st_stack demo st) = [RTok (Num 3); RTok Plus; RUser 2; RUnit] /\ s_calls demo (st_stream demo st) = 4) /\
  exists st, run true calc_p (of_list calc_tokens) = Ok (st, inl (RUser 5)) /\
  map fst (st_log demo st) = [3; 2; 3; 1; 5; 4; 1; 0] /\ s_calls demo (st_stream demo st) = 6.
Proof. exact (conj (calc_generated true) (conj calc_visits calc_value)). Qed.

(** ** C27: overlapping patterns

    In full, false: nothing is checked for a [terminal] (not [enum_terminal])
    type, where a token can match two literals; two builds of the parser, which
    differ only in the order of hash maps, then apply different rules. *)
Theorem C27_overlaps_are_reported_refuted :
  forall bmg bm : BuildMode, exists gi p1 p2 (R : rust) ts st1 st2 v1 v2,
  generated (bm := bmg) all_literals gi p1 /\ generated (bm := bmg) all_literals gi p2 /\
  parse_fallible (bm := bm) (E := unit) (SErr := UErr R) R (fun e => e) (of_list ts) 60 p1 = Ok (st1, inl v1) /\
  parse_fallible (bm := bm) (E := unit) (SErr := UErr R) R (fun e => e) (of_list ts) 60 p2 = Ok (st2, inl v2) /\
  map fst (st_log R st1) = [3; 1; 0] /\ map fst (st_log R st2) = [4; 2; 0].
Proof. exact raw_differs. Qed.
Print Assumptions C27_overlaps_are_reported_refuted.

(** For [enum_terminal] types a debug build reports exactly the overlaps. *)
Theorem C27_overlaps_are_reported_partial :
  forall (bmg : BuildMode) literal_ok gi (bm : BuildMode) (E : Type) (R : rust) p, generated (bm := bmg) literal_ok gi p ->
  forall (SErr : Type) (into : SErr -> UErr R) (input : nat -> option (tok R + SErr)) st q v rest k,
  debug_assertions (BuildMode := bm) = true -> (exists ty, gi_terminal_type gi = TTEnum ty) ->
  visits R into input p st -> st_stack R st = (q, v) :: rest -> s_next R (st_stream R st) = Some (inl k) ->
  (exists st', loop_step (E := E) R into input p st = Ok (inr (st', inr (OverlappingTokenMatchers R k)))) <->
  exists s s', s <> s' /\ expects gi q s /\ expects gi q s' /\ sym_matches R gi s k = true /\ sym_matches R gi s' k = true.
Proof. exact (fun bmg literal_ok gi bm E R p Hg SErr into input st q v rest k => @main_overlap bmg literal_ok gi bm E R p Hg SErr into input st q v rest k). Qed.
Print Assumptions C27_overlaps_are_reported_partial.

(** Tokens that match one terminal: the result depends neither on the build mode
    of generator and parser nor on the order of hash maps.  ([p1] and [p2] are any
    two parsers generated for the grammar.) *)
Theorem C27_result_independent :
  forall (bmg : BuildMode) literal_ok gi (E : Type) (R : rust) (bm1 bm2 bmg2 : BuildMode) p1 p2,
  generated (bm := bmg) literal_ok gi p1 -> generated (bm := bmg2) literal_ok gi p2 ->
  forall (SErr : Type) (into : SErr -> UErr R) (input : nat -> option (tok R + SErr)) fuel,
  (forall k, (exists n, input n = Some (inl k)) -> unambiguous_tokens R gi [k]) ->
  observed (parse_fallible (bm := bm1) (E := E) R into input fuel p1) = observed (parse_fallible (bm := bm2) (E := E) R into input fuel p2).
Proof. exact (fun bmg literal_ok gi E R bm1 bm2 bmg2 p1 p2 H1 H2 SErr into input fuel => @main_same_unambiguous bmg literal_ok gi E R bm1 bm2 bmg2 p1 p2 H1 H2 SErr into input fuel). Qed.
Print Assumptions C27_result_independent.

(** Also if only the tokens the debug build met did not overlap. *)
Theorem C27_result_independent_if_checked :
  forall (bmg : BuildMode) literal_ok gi (E : Type) (R : rust) (bm1 bm2 bmg2 : BuildMode) p1 p2,
  generated (bm := bmg) literal_ok gi p1 -> generated (bm := bmg2) literal_ok gi p2 ->
  forall (SErr : Type) (into : SErr -> UErr R) (input : nat -> option (tok R + SErr)) fuel,
  debug_assertions (BuildMode := bm1) = true -> (exists ty, gi_terminal_type gi = TTEnum ty) ->
  (forall st k, parse_fallible (bm := bm1) (E := E) R into input fuel p1 <> Ok (st, inr (OverlappingTokenMatchers R k))) ->
  observed (parse_fallible (bm := bm1) (E := E) R into input fuel p1) = observed (parse_fallible (bm := bm2) (E := E) R into input fuel p2).
Proof. exact (fun bmg literal_ok gi E R bm1 bm2 bmg2 p1 p2 H1 H2 SErr into input fuel => @main_same_checked bmg literal_ok gi E R bm1 bm2 bmg2 p1 p2 H1 H2 SErr into input fuel). Qed.
Print Assumptions C27_result_independent_if_checked.

Example C27_example_reported : generated (bm := true) all_literals overlap_gi overlap_p /\ gi_terminal_type overlap_gi = TTEnum [TIdent "Tok"] /\
  exists st, parse_fallible (bm := true) (E := unit) (SErr := UErr demo) demo (fun e => e) (of_list overlap_tokens) 60 overlap_p =
    Ok (st, inr (OverlappingTokenMatchers demo (Num 1))) /\ map fst (st_log demo st) = [] /\ s_calls demo (st_stream demo st) = 1.
Proof. exact (conj (overlap_generated true) (conj eq_refl overlap_reported)). Qed.

Example C27_example_independent : generated (bm := true) all_literals calc calc_p /\ generated (bm := false) all_literals calc (prog backward calc) /\
  unambiguous_tokens demo calc calc_tokens.
Proof. exact (conj (calc_generated true) (conj (calc_generated_backward false) (proj1 (proj2 calc_tree_parses)))). Qed.

(** ** C28: code generation does not panic

    In full, false: a character literal in a grammar with [enum_terminal] is used
    as an identifier. *)
Theorem C28_character_in_enum_refuted :
  forall bm : BuildMode, exists gi ho w, accepted gi /\ orders_ok ho /\ root_unused (gi_rules gi) /\
  generate_parser all_literals ho gi = Panic w.
Proof. exact char_panics. Qed.
Print Assumptions C28_character_in_enum_refuted.

(** With debug assertions the generator panics if a first rule mentions its own
    label (and has not made building the table panic, C04). *)
Theorem C28_recursive_root_refuted :
  exists gi ho w, accepted (bm := true) gi /\ orders_ok ho /\ names_usable gi /\
  generate_parser (bm := true) all_literals ho gi = Panic w.
Proof. exact self_panics. Qed.
Print Assumptions C28_recursive_root_refuted.

(** Otherwise the only errors are those of the user's constructors and literals,
    which are reported. *)
Theorem C28_generation_succeeds_partial :
  forall literal_ok gi (bm : BuildMode) ho, accepted gi -> orders_ok ho -> names_usable gi -> root_unused (gi_rules gi) ->
  match generate_parser literal_ok ho gi with
  | Ok p => True
  | Err e => (exists i, build_constructor (gi_rules gi) i = Err e) \/
             (exists s ty, terminal_in (gi_rules gi) s /\ gi_terminal_type gi = TTRaw ty /\ as_literal literal_ok s = Err e)
  | Panic _ | Diverge => False
  end.
Proof. exact (fun literal_ok gi bm ho => @main_generates literal_ok gi bm ho). Qed.
Print Assumptions C28_generation_succeeds_partial.

Example C28_example : accepted (bm := true) calc /\ orders_ok backward /\ names_usable calc /\ root_unused (gi_rules calc).
Proof. exact (conj (calc_accepted true) (conj backward_ok calc_usable)). Qed.

(** ** C29: types

    Popping the nodes of a rule binds the variables of its nodes from the last to
    the first; all states matched carry the type of the node.  What is pushed has
    the type of the state's field. *)
Theorem C29_arms_are_well_typed :
  forall (bmg : BuildMode) literal_ok gi p, generated (bm := bmg) literal_ok gi p ->
  (forall i bs, pops p i bs -> exists r, nth_error (gi_rules gi) i = Some r /\ map b_var bs = rev (node_indices (pr_nodes r)) /\
    forall b, In b bs -> exists nd, nth_error (pr_nodes r) (b_var b) = Some nd /\ b_arms b <> [] /\ b_destruct b = node_field nd /\
      forall s, In s (b_arms b) -> exists ty, nth_error (p_types p) s = Some ty /\ node_type gi nd = Some ty) /\
  (forall s, pushes_token p s -> nth_error (p_types p) s = Some (Some (inner_type (gi_terminal_type gi)))) /\
  (forall i from s, pushes_value p i from s -> exists r ty, nth_error (gi_rules gi) i = Some r /\ hm_get (pr_name r) (gi_label_types gi) = Some ty /\
    nth_error (p_types p) s = Some ty /\ forall s0, In s0 from -> s0 < List.length (p_types p)).
Proof. exact (fun bmg literal_ok gi p => @main_types bmg literal_ok gi p). Qed.
Print Assumptions C29_arms_are_well_typed.

Example C29_example : generated (bm := true) all_literals calc calc_p /\
  pops calc_p 1 [mk_bind 2 [8] None; mk_bind 1 [5] None; mk_bind 0 [1] None] /\
  pushes_token calc_p 5 /\ pushes_value calc_p 3 [0] 2 /\ pushes_value calc_p 3 [5] 8.
Proof. exact (conj (calc_generated true) calc_code). Qed.

(** ** C38: simulator and generated parser *)
Theorem C38_simulator_agrees :
  forall (bmg : BuildMode) literal_ok gi (bm : BuildMode) (E : Type) (R : rust) p, generated (bm := bmg) literal_ok gi p ->
  forall (SErr : Type) (into : SErr -> UErr R) ts w,
  unambiguous_tokens R gi ts -> constructors_succeed R gi -> Forall (terminal_in (gi_rules gi)) w ->
  Forall2 (fun s k => sym_matches R gi s k = true) w ts ->
  exists N b st res, forall fuel, N < fuel ->
    parse_stream (E := E) fuel (mk_parser (gi_grammar gi) (gi_table gi)) w = Ok b /\
    parse_fallible (E := E) R into (of_list ts) fuel p = Ok (st, res) /\
    match res with inl _ => b = true | inr (ParseError _ _) => b = false | _ => False end.
Proof. exact (fun bmg literal_ok gi bm E R p Hg SErr into ts w => @main_simulated bmg literal_ok gi bm E R p Hg SErr into ts w). Qed.
Print Assumptions C38_simulator_agrees.

Example C38_example : generated (bm := true) all_literals calc calc_p /\ constructors_succeed tame calc /\
  unambiguous_tokens tame calc (calc_tokens : list (tok tame)) /\ Forall (terminal_in (gi_rules calc)) [num; plus; num; plus; mk_symbol "Zero" PGNone] /\
  Forall2 (fun s k => sym_matches tame calc s k = true) [num; plus; num; plus; mk_symbol "Zero" PGNone] calc_tokens.
Proof. exact (conj (calc_generated true) (conj (tame_succeeds calc) tame_words)). Qed.

(** ** C39: [parse] and [parse_fallible]

    For any program, not only generated ones, and any conversion of the errors
    that do not occur. *)
Theorem C39_parse_is_parse_fallible :
  forall (bm : BuildMode) (E : Type) (R : rust) (SErr : Type) (into : SErr -> UErr R) (input : nat -> option (tok R)) p fuel,
  observed (parse (E := E) R fuel p input) = observed (parse_fallible (E := E) R into (fun n => option_map inl (input n)) fuel p).
Proof. exact (fun bm E R SErr into input p fuel => @parse_observed bm E R Empty_set SErr _ into input p fuel). Qed.
Print Assumptions C39_parse_is_parse_fallible.

Example C39_example : generated (bm := true) all_literals calc calc_p /\
  exists st, run true calc_p (of_list calc_tokens) = Ok (st, inl (RUser 5)) /\
  map fst (st_log demo st) = [3; 2; 3; 1; 5; 4; 1; 0] /\ s_calls demo (st_stream demo st) = 6.
Proof. exact (conj (calc_generated true) calc_value). Qed.

(** ** C41: termination

    In full, false: where FIRST sets are incomplete (C14) and a token matches
    several terminals, the parser may reduce empty rules forever, also on a
    sentence, and in every build. *)
Theorem C41_runs_end_refuted :
  forall bmg bm : BuildMode, exists gi p (R : rust) ts d, generated (bm := bmg) all_literals gi p /\ parses_tokens R gi ts d /\
  forall fuel, parse_fallible (bm := bm) (E := unit) (SErr := UErr R) R (fun e => e) (of_list ts) fuel p = Diverge.
Proof. exact runs_forever. Qed.
Print Assumptions C41_runs_end_refuted.

(** Missing from the full statement: tokens that match several terminals, in
    parsers that do not report them, for grammars with incomplete FIRST sets.
    The stream ends, or fails, somewhere. *)
Theorem C41_runs_end_partial :
  forall (bmg : BuildMode) literal_ok gi (bm : BuildMode) (E : Type) (R : rust) p, generated (bm := bmg) literal_ok gi p ->
  forall (SErr : Type) (into : SErr -> UErr R) input, (exists n, forall k, input n <> Some (inl k)) ->
  first_complete (bm := bmg) (source (gi_rules gi)) \/
  (debug_assertions (BuildMode := bm) = true /\ exists ty, gi_terminal_type gi = TTEnum ty) \/
  (forall i k, input i = Some (inl k) -> unambiguous_tokens R gi [k]) ->
  exists N st r, forall fuel, N < fuel -> parse_fallible (E := E) R into input fuel p = Ok (st, r).
Proof. exact (fun bmg literal_ok gi bm E R p Hg SErr into input => @main_ends bmg literal_ok gi bm E R p Hg SErr into input). Qed.
Print Assumptions C41_runs_end_partial.

(** Each of the three cases: [calc] has complete FIRST sets; the parser of
    [overlap_gi] checks its tokens in debug builds, and one of them matches two
    terminals; the tokens of [calc_tokens] match one each. *)
Example C41_example :
  (generated (bm := true) all_literals calc calc_p /\ first_complete (bm := true) (source (gi_rules calc)) /\ unambiguous_tokens demo calc calc_tokens) /\
  (generated (bm := true) all_literals overlap_gi overlap_p /\ gi_terminal_type overlap_gi = TTEnum [TIdent "Tok"] /\
   sym_matches demo overlap_gi num (Num 1) = true /\ sym_matches demo overlap_gi (mk_symbol "Num" (PGPattern "1")) (Num 1) = true).
Proof.
  exact (conj (conj (calc_generated true) (conj (calc_first true) (proj1 (proj2 calc_tree_parses))))
    (conj (overlap_generated true) (conj eq_refl (conj eq_refl eq_refl)))).
Qed.
