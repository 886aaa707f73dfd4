(** Model of lr_table/src/first_map.rs. *)
From Coq Require Import Arith Bool String NArith List.
From Verif Require Import Base.Prelude Spec.Grammar Model.BitSet Model.Vocabulary.
From Verif Require Import Model.IndexedGrammar.
Import ListNotations.

(** first_map.rs:9-11, fixed_map.rs:76-107: a vector of vocabulary sets
    indexed by production label. *)
Definition first_table := list bitset.

Section First.
Context {bm : BuildMode} {E T L : Type}.

(** first_map.rs:24-45: the loop over the nodes of one rule.  The last
    component tells whether the loop ran to its end (as opposed to
    [continue 'productions_loop]). *)
Fixpoint propagate_nodes (label : nat) (nodes : list inode) (map : first_table) (changed : bool)
  : outcome E (first_table * bool * bool) :=
  match nodes with
  | [] => Ok (map, changed, true)
  | Production node_label :: nodes' =>
      node_first_set <- index map node_label ;;
      has_epsilon <- vs_has node_first_set Epsilon ;;
      node_first_set <- vs_clear node_first_set Epsilon ;;
      dst <- index map label ;;
      let '(dst', modified) := vs_merge dst node_first_set in
      map' <- store map label dst' ;;
      if negb has_epsilon then Ok (map', modified || changed, false)
      else propagate_nodes label nodes' map' (modified || changed)
  | Terminal Epsilon :: nodes' => propagate_nodes label nodes' map changed
  | Terminal terminal :: _ =>
      first_set <- index map label ;;
      has <- vs_has first_set terminal ;;
      if negb has then
        first_set' <- vs_set first_set terminal ;;
        map' <- store map label first_set' ;;
        Ok (map', true, false)
      else Ok (map, changed, false)
  end.

(** first_map.rs:23-50: one rule of [label].  Line 49 sets epsilon without
    touching [changed]. *)
Definition propagate_rule (label : nat) (st : first_table * bool) (r : indexed_rule)
  : outcome E (first_table * bool) :=
  '(map, changed, passed) <- propagate_nodes label (irhs r) (fst st) (snd st) ;;
  if passed : bool then
    first_set <- index map label ;;
    first_set' <- vs_set first_set Epsilon ;;
    map' <- store map label first_set' ;;
    Ok (map', changed)
  else Ok (map, changed).

(** first_map.rs:16-54 *)
Definition propagate_map (g : indexed_grammar T L) (map : first_table)
  : outcome E (first_table * bool) :=
  foldM (fun st label =>
      rs <- production_rules_for_label g label ;;
      foldM (propagate_rule label) st rs)
    (map, false) (all_production_labels g).

(** first_map.rs:56-61 *)
Definition first_build (fuel : nat) (g : indexed_grammar T L) : outcome E first_table :=
  while_loop fuel (fun map =>
      '(map', changed) <- propagate_map g map ;;
      Ok (if changed : bool then inl map' else inr map'))
    (repeat (vs_new (ivocab g)) (labels_count g)).

(** first_map.rs:63-65 *)
Definition first_set (f : first_table) (label : nat) : outcome E bitset := index f label.

End First.
