(** Model of lr_table/src/closure.rs. *)
From Coq Require Import Arith Bool String NArith List.
From Verif Require Import Base.Prelude Spec.Grammar Model.BitSet Model.FixedMap Model.Vocabulary.
From Verif Require Import Model.IndexedGrammar Model.FirstMap Model.Position.
Import ListNotations.

Definition follow_map := sparse_map nat bitset.

Section Closure.
Context {bm : BuildMode} {E T L : Type}.
Variable g : indexed_grammar T L.
Variable f : first_table.

(** closure.rs:33-42: one position of the kernel. *)
Definition seed_position (st : follow_map * list nat) (p : position)
  : outcome E (follow_map * list nat) :=
  let '(sets, to_explore) := st in
  o <- next_production_label g f p ;;
  match o with
  | None => Ok st
  | Some (label, fs) =>
      '(sets1, i, fresh) <- sm_get_mut_or_insert_with sets label (vs_new (ivocab g)) ;;
      cur <- sm_deref sets1 i ;;
      sets2 <- sm_assign sets1 i (fst (vs_merge cur fs)) ;;
      Ok (sets2, if fresh : bool then label :: to_explore else to_explore)
  end.

(** closure.rs:46-53: one rule of an explored label. *)
Definition explore_rule (st : follow_map * list nat) (r : indexed_rule)
  : outcome E (follow_map * list nat) :=
  let '(sets, to_explore) := st in
  match maybe_first_production_label (irhs r) with
  | None => Ok st
  | Some sub_label =>
      '(sets1, _, fresh) <- sm_get_mut_or_insert_with sets sub_label (vs_new (ivocab g)) ;;
      Ok (sets1, if fresh : bool then sub_label :: to_explore else to_explore)
  end.

(** closure.rs:45-54: one round of [while let Some(label) = ..pop()]; the work
    list is kept top first. *)
Definition explore_step (st : follow_map * list nat)
  : outcome E ((follow_map * list nat) + follow_map) :=
  let '(sets, to_explore) := st in
  match to_explore with
  | [] => Ok (inr sets)
  | label :: rest =>
      rs <- production_rules_for_label g label ;;
      st' <- foldM explore_rule (sets, rest) rs ;;
      Ok (inl st')
  end.

(** closure.rs:70-88: one rule of one label in a propagation round. *)
Definition propagate_follow_rule (label : nat) (st : follow_map * bool) (r : indexed_rule)
  : outcome E (follow_map * bool) :=
  let '(sets, changed) := st in
  match maybe_first_production_label (irhs r) with
  | None => Ok st
  | Some sub_label =>
      o <- sm_get sets label ;;
      follow <- expect o "production_follow_sets.get(&label).unwrap()" ;;
      rest <- slice_from (irhs r) 1 ;;
      sub_follow <- follow_set_for_rule rest follow f (ivocab g) ;;
      oi <- sm_get_mut sets sub_label ;;
      i <- expect oi "production_follow_sets.get_mut(&sub_label).unwrap()" ;;
      cur <- sm_deref sets i ;;
      let '(cur', modified) := vs_merge cur sub_follow in
      sets' <- sm_assign sets i cur' ;;
      Ok (sets', modified || changed)
  end.

(** closure.rs:62-94: one round of the propagation loop. *)
Definition propagate_follow (labels : list nat) (sets : follow_map)
  : outcome E (follow_map + follow_map) :=
  '(sets', changed) <- foldM (fun st label =>
      rs <- production_rules_for_label g label ;;
      foldM (propagate_follow_rule label) st rs) (sets, false) labels ;;
  Ok (if changed : bool then inl sets' else inr sets').

(** closure.rs:16-97 *)
Definition closure_follow_sets (fuel : nat) (k : kernel) : outcome E follow_map :=
  st0 <- foldM seed_position (sm_new (labels_count g), []) k ;;
  sets <- while_loop fuel explore_step st0 ;;
  let production_labels := map fst (sm_iter sets) in
  while_loop fuel (propagate_follow production_labels) sets.

(** closure.rs:121-129: adding one position to the partition map. *)
Definition add_to_partition (m : sparse_map nat (list position)) (p : position)
  : outcome E (sparse_map nat (list position)) :=
  category <- next_node g p ;;
  '(m1, i, _) <- sm_get_mut_or_insert_with m (static_id category (vocab_size (ivocab g))) [] ;;
  cur <- sm_deref m1 i ;;
  sm_assign m1 i (cur ++ [p]).

(** closure.rs:113-119 *)
Definition positions_of_label (p : nat * bitset) : outcome E (list position) :=
  ids <- production_rule_ids_for_label g (fst p) ;;
  Ok (map (fun id => new_from_start_with_follow_set id (snd p)) ids).

(** closure.rs:102-130, with the capacity of indexed_grammar.rs:102-107,399-401. *)
Definition partition_closure_by_next_node (fuel : nat) (k : kernel)
  : outcome E (sparse_map nat (list position)) :=
  sets <- closure_follow_sets fuel k ;;
  pss <- mapM positions_of_label (sm_iter sets) ;;
  foldM add_to_partition (sm_new (labels_count g + vocab_size (ivocab g) + 1))
    (k ++ concat pss).

End Closure.
