(** Abstract meaning of sequences of operations on the small data structures
    of lr_table, and the runs of the model on them. *)
From Coq Require Import Arith List.
From Verif Require Import Base.Prelude Spec.Grammar.
From Verif Require Import Model.BitSet Model.FixedMap Model.Vocabulary.
Import ListNotations.

(** Sets of naturals. *)
Inductive set_history :=
| SNew
| SSet (b : nat) (h : set_history)
| SClear (b : nat) (h : set_history)
| SMerge (h other : set_history).

(** The elements present after a history. *)
Fixpoint members (h : set_history) (x : nat) : Prop :=
  match h with
  | SNew => False
  | SSet b h => x = b \/ members h x
  | SClear b h => x <> b /\ members h x
  | SMerge h other => members h x \/ members other x
  end.

(** Every element mentioned is below the capacity. *)
Fixpoint within (n : nat) (h : set_history) : Prop :=
  match h with
  | SNew => True
  | SSet b h => b < n /\ within n h
  | SClear b h => b < n /\ within n h
  | SMerge h other => within n h /\ within n other
  end.

(** Running a history on the model of [BitSet]. *)
Fixpoint run_set {bm : BuildMode} {E} (n : nat) (h : set_history) : outcome E bitset :=
  match h with
  | SNew => Ok (bs_new n)
  | SSet b h => s <- run_set n h ;; bs_set s b
  | SClear b h => s <- run_set n h ;; bs_clear s b
  | SMerge h other => s <- run_set n h ;; o <- run_set n other ;; Ok (fst (bs_merge s o))
  end.

(** Maps: the operations performed, oldest first. *)
Inductive map_op (K V : Type) :=
| MTryInsert (k : K) (v : V)
| MGetOrInsert (k : K) (v : V)
| MUpdate (k : K) (v : V).
Arguments MTryInsert {K V}.
Arguments MGetOrInsert {K V}.
Arguments MUpdate {K V}.
Definition op_key {K V} (o : map_op K V) : K :=
  match o with MTryInsert k _ | MGetOrInsert k _ | MUpdate k _ => k end.

Section Maps.
Context {K V : Type} `{EqDec K}.

(** Association lists in insertion order. *)
Fixpoint assoc (k : K) (l : list (K * V)) : option V :=
  match l with
  | [] => None
  | (k', v) :: l' => if eq_dec k k' then Some v else assoc k l'
  end.

(** Both insertions keep an existing value; an update (a write through
    [get_mut]) replaces it and does nothing for an absent key. *)
Definition apply_op (l : list (K * V)) (o : map_op K V) : list (K * V) :=
  match o with
  | MTryInsert k v | MGetOrInsert k v =>
      match assoc k l with Some _ => l | None => l ++ [(k, v)] end
  | MUpdate k v => map (fun p => if eq_dec k (fst p) then (k, v) else p) l
  end.
Definition contents (ops : list (map_op K V)) : list (K * V) := fold_left apply_op ops [].

(** Running one operation on the model of [SparseFixedSizeMap]. *)
Definition run_op {bm : BuildMode} {E} `{Label K} (m : sparse_map K V) (o : map_op K V)
  : outcome E (sparse_map K V) :=
  match o with
  | MTryInsert k v =>
      r <- sm_try_insert m k v ;; Ok (match r with inl m' => m' | inr _ => m end)
  | MGetOrInsert k v => '(m', _, _) <- sm_get_mut_or_insert_with m k v ;; Ok m'
  | MUpdate k v =>
      oi <- sm_get_mut m k ;;
      match oi with Some i => sm_assign m i v | None => Ok m end
  end.
Definition run_ops {bm : BuildMode} {E} `{Label K} (cap : nat) (ops : list (map_op K V))
  : outcome E (sparse_map K V) :=
  foldM run_op (sm_new cap) ops.
End Maps.

(** Vocabularies: the tokens looked up or inserted while building, oldest
    first. *)
Definition run_vocab {T} `{EqDec T} (ts : list (aug T)) : vocab T :=
  fold_left (fun v t => fst (get_id_or_insert v t)) ts vocab_empty.
