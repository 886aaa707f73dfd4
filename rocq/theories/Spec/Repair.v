(** The code with one statement changed.  NOT a model of code that exists: this is what
    lr_table would be if line 49 of first_map.rs, which puts epsilon into a FIRST set
    without touching [changed], also set [changed] when epsilon was not there before.  All
    else is taken from the model as it is. *)
From Coq Require Import Arith Bool String NArith List.
From Verif Require Import Base.Prelude Spec.Grammar Model.Error Model.BitSet Model.Vocabulary.
From Verif Require Import Model.IndexedGrammar Model.FirstMap Model.Position Model.Closure Model.LRTable Model.ParseSimulator.
Import ListNotations.

Section First.
Context {bm : BuildMode} {E T L : Type}.

(** [propagate_rule] (first_map.rs:23-50), with line 49 changed to set [changed] if epsilon
    is not in the set yet, as lines 38-41 do for tokens. *)
Definition propagate_rule_repaired (label : nat) (st : first_table * bool) (r : indexed_rule)
  : outcome E (first_table * bool) :=
  '(map, changed, passed) <- propagate_nodes label (irhs r) (fst st) (snd st) ;;
  if passed : bool then
    first_set <- index map label ;;
    had <- vs_has first_set Epsilon ;;
    first_set' <- vs_set first_set Epsilon ;;
    map' <- store map label first_set' ;;
    Ok (map', changed || negb had)
  else Ok (map, changed).

(** [propagate_map] and [first_build] (first_map.rs:16-61), calling it. *)
Definition propagate_map_repaired (g : indexed_grammar T L) (map : first_table)
  : outcome E (first_table * bool) :=
  foldM (fun st label =>
      rs <- production_rules_for_label g label ;;
      foldM (propagate_rule_repaired label) st rs)
    (map, false) (all_production_labels g).

Definition first_build_repaired (fuel : nat) (g : indexed_grammar T L) : outcome E first_table :=
  while_loop fuel (fun map =>
      '(map', changed) <- propagate_map_repaired g map ;;
      Ok (if changed : bool then inl map' else inr map'))
    (repeat (vs_new (ivocab g)) (labels_count g)).

End First.

Section Table.
Context {bm : BuildMode} {T L : Type} `{EqDec T} `{EqDec L}.

(** [table_build] (lr_table.rs:302-324 with 263-281), calling it. *)
Definition table_build_repaired (g : indexed_grammar T L) (fuel : nat) : outcome (lr_error T L) lr_table :=
  f <- first_build_repaired fuel g ;;
  k0 <- initial_kernel g ;;
  let '(kt, id) := get_or_insert kernel_table_new k0 in
  _ <- debug_assert (id =? 0) "id.0 == 0" ;;
  while_loop fuel (build_row g fuel f) (0, kt, mk_table [] [] 0).

(** [parser_new] (parse_simulator.rs:19-23), calling it. *)
Definition parser_new_repaired (fuel : nat) (g : grammar T L) : outcome (lr_error T L) (parser T L) :=
  ig <- indexed_build fuel g ;;
  table <- table_build_repaired ig fuel ;;
  Ok (mk_parser ig table).

End Table.
