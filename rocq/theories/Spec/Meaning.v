(** What a list of tokens means in a grammar with constructors, without parse
    trees: each rule is read as an inference rule. *)
From Coq Require Import Arith Bool String List.
From Verif Require Import Base.Prelude Spec.Grammar Spec.Values Model.Error.
From Verif Require Import Model.TokenTree Model.Terminal Model.Constructor Model.CodeGen Model.Runtime Model.Rust Spec.EmittedCode.
Import ListNotations.

Section Meaning.
Variable R : rust.
Variable gi : grammar_info.

(** [means l ts v]: the tokens [ts] are an [l] with the value [v].
    [all_mean ns ts vs]: they are the nodes [ns] in a row, with values [vs]. *)
Inductive means : string -> list (tok R) -> val R -> Prop :=
| means_rule i r ts vs v : nth_error (gi_rules gi) i = Some r -> all_mean (pr_nodes r) ts vs ->
    rule_value R gi i (combine (node_indices (pr_nodes r)) vs) = inl v -> means (pr_name r) ts v
with all_mean : list pnode -> list (tok R) -> list (val R) -> Prop :=
| am_nil : all_mean [] [] []
| am_symbol s k ns ts vs : sym_matches R gi s k = true -> all_mean ns ts vs ->
    all_mean (PNSymbol s :: ns) (k :: ts) (leaf_value R s k :: vs)
| am_label l ts v ns ts' vs : means l ts v -> all_mean ns ts' vs ->
    all_mean (PNProduction l :: ns) (ts ++ ts') (v :: vs)
| am_nothing ns ts vs : all_mean ns ts vs -> all_mean (PNEpsilon :: ns) ts vs.

(** The meaning of a whole input: by the first rule. *)
Definition input_means (ts : list (tok R)) (v : val R) : Prop :=
  exists r vs, nth_error (gi_rules gi) 0 = Some r /\ all_mean (pr_nodes r) ts vs /\
    rule_value R gi 0 (combine (node_indices (pr_nodes r)) vs) = inl v.

(** [label_fails l ts rest u]: a constructor fails with [u] as soon as the tokens [ts]
    have been read, while an [l] is read; [rest] are terminals that complete this [l].
    [nodes_fail ns ts rest u]: the same for the nodes [ns] in a row. *)
Inductive label_fails : string -> list (tok R) -> list user_symbol -> UErr R -> Prop :=
| lf_rule i r ts vs u : nth_error (gi_rules gi) i = Some r -> all_mean (pr_nodes r) ts vs ->
    rule_value R gi i (combine (node_indices (pr_nodes r)) vs) = inr u -> label_fails (pr_name r) ts [] u
| lf_nodes i r ts rest u : nth_error (gi_rules gi) i = Some r -> nodes_fail (pr_nodes r) ts rest u -> label_fails (pr_name r) ts rest u
with nodes_fail : list pnode -> list (tok R) -> list user_symbol -> UErr R -> Prop :=
| nf_here l ts rest ns rest' trees u : label_fails l ts rest u -> derives (source (gi_rules gi)) (map to_lr_node ns) rest' trees ->
    nodes_fail (PNProduction l :: ns) ts (rest ++ rest') u
| nf_symbol s k ns ts rest u : sym_matches R gi s k = true -> nodes_fail ns ts rest u ->
    nodes_fail (PNSymbol s :: ns) (k :: ts) rest u
| nf_label l ts v ns ts' rest u : means l ts v -> nodes_fail ns ts' rest u -> nodes_fail (PNProduction l :: ns) (ts ++ ts') rest u
| nf_nothing ns ts rest u : nodes_fail ns ts rest u -> nodes_fail (PNEpsilon :: ns) ts rest u.

(** The same for a whole input: by the first rule. *)
Definition input_fails (ts : list (tok R)) (rest : list user_symbol) (u : UErr R) : Prop :=
  exists r, nth_error (gi_rules gi) 0 = Some r /\
    (nodes_fail (pr_nodes r) ts rest u \/
     rest = [] /\ exists vs, all_mean (pr_nodes r) ts vs /\ rule_value R gi 0 (combine (node_indices (pr_nodes r)) vs) = inr u).

(** [o] is the first of the tokens, if any, that could be [rest]. *)
Definition could_begin (rest : list user_symbol) (o : option (tok R)) : Prop :=
  match rest, o with
  | [], None => True
  | s :: _, Some k => sym_matches R gi s k = true
  | _, _ => False
  end.

(** A constructor fails with [u] after some of the tokens [ts], which can be completed
    to an input in which the next token is that of [ts]. *)
Definition constructor_fails (ts : list (tok R)) (u : UErr R) : Prop :=
  exists n rest, n <= List.length ts /\ input_fails (firstn n ts) rest u /\ could_begin rest (nth_error ts n).

(** The tokens [ts] begin a sentence. *)
Definition begins_sentence (ts : list (tok R)) : Prop :=
  exists us vs, Forall2 (fun s k => sym_matches R gi s k = true) us ts /\ language (source (gi_rules gi)) (us ++ vs).

(** What is right about an error for the tokens [ts]: it is that of the constructor
    that fails, or no constructor fails and it shows the token, or the end, after the
    first [n] tokens; these begin a sentence, but with the next token they do not. *)
Definition right_error (ts : list (tok R)) (e : parser_error R) : Prop :=
  (exists u, e = UserError R u /\ constructor_fails ts u) \/
  exists n, n <= List.length ts /\ e = ParseError R (nth_error ts n) /\
    (forall u, ~ constructor_fails ts u) /\
    begins_sentence (firstn n ts) /\
    (n < List.length ts -> ~ begins_sentence (firstn (S n) ts)).
End Meaning.

(** A run of emitted code ends with [Ok(v)] or with [Err(e)]. *)
Definition gives_value {E SErr : Type} (R : rust) (m : Rust.result (E := E) (SErr := SErr) R) (v : val R) : Prop :=
  exists st, m = Ok (st, FVal R (result_value (inl v))).
Definition gives_error {E SErr : Type} (R : rust) (m : Rust.result (E := E) (SErr := SErr) R) (e : parser_error R) : Prop :=
  exists st, m = Ok (st, FVal R (result_value (inr e))).
