(** Model of lr_table/src/fixed_map.rs. *)
From Coq Require Import Arith Bool String NArith List.
From Verif Require Import Base.Prelude Model.BitSet.
Import ListNotations.

(** fixed_map.rs:33-48: the [Label] instance of [Option<L>]. *)
#[global] Instance Label_option {K} `{Label K} : Label (option K) :=
  fun o => match o with Some l => S (label_id l) | None => 0 end.

(** fixed_map.rs:130-134 (and 123-127 for entries).  The sentinel
    [UNINITIALIZED_INDEX] (usize::MAX) of [index_map] is [None]. *)
Record sparse_map (K V : Type) := mk_sparse {
  index_map : list (option nat);
  entries : list (K * V);
}.
Arguments mk_sparse {K V}.
Arguments index_map {K V}.
Arguments entries {K V}.

Section SparseMap.
Context {bm : BuildMode} {E K V : Type} `{Label K}.

(** fixed_map.rs:139-145 *)
Definition sm_new (capacity : nat) : sparse_map K V :=
  mk_sparse (repeat None capacity) [].

(** fixed_map.rs:147-152 *)
Definition sm_maybe_index (m : sparse_map K V) (k : K) : outcome E (option nat) :=
  index (index_map m) (label_id k).

(** Reading through a [&V]/[&mut V] into the map; such a reference is
    represented by the index of its entry. *)
Definition sm_deref (m : sparse_map K V) (i : nat) : outcome E V :=
  e <- index (entries m) i ;; Ok (snd e).

(** Writing through a [&mut V] into the map. *)
Definition sm_assign (m : sparse_map K V) (i : nat) (v : V) : outcome E (sparse_map K V) :=
  e <- index (entries m) i ;;
  Ok (mk_sparse (index_map m) (list_set (entries m) i (fst e, v))).

(** fixed_map.rs:156-158 *)
Definition sm_get (m : sparse_map K V) (k : K) : outcome E (option V) :=
  oi <- sm_maybe_index m k ;;
  match oi with
  | Some i => v <- sm_deref m i ;; Ok (Some v)
  | None => Ok None
  end.

(** fixed_map.rs:162-166: returns the entry index standing for the [&mut V]. *)
Definition sm_get_mut (m : sparse_map K V) (k : K) : outcome E (option nat) :=
  oi <- sm_maybe_index m k ;;
  match oi with
  | Some i => _ <- sm_deref m i ;; Ok (Some i)
  | None => Ok None
  end.

(** fixed_map.rs:168-178 *)
Definition sm_insert (m : sparse_map K V) (k : K) (v : V) : outcome E (sparse_map K V * nat) :=
  _ <- debug_assertM (oi <- index (index_map m) (label_id k) ;;
                      Ok (match oi with None => true | Some _ => false end))
                     "index_map[label] == UNINITIALIZED_INDEX" ;;
  let i := List.length (entries m) in
  im <- store (index_map m) (label_id k) (Some i) ;;
  Ok (mk_sparse im (entries m ++ [(k, v)]), i).

(** fixed_map.rs:180-188: [inr v] is [Err(&v)]. *)
Definition sm_try_insert (m : sparse_map K V) (k : K) (v : V)
  : outcome E (sparse_map K V + V) :=
  oi <- sm_maybe_index m k ;;
  match oi with
  | Some i => v' <- sm_deref m i ;; Ok (inr v')
  | None => '(m', _) <- sm_insert m k v ;; Ok (inl m')
  end.

(** fixed_map.rs:190-198.  The boolean tells whether [construct] was called
    (its side effects are applied by the caller). *)
Definition sm_get_mut_or_insert_with (m : sparse_map K V) (k : K) (construct : V)
  : outcome E (sparse_map K V * nat * bool) :=
  oi <- sm_maybe_index m k ;;
  match oi with
  | Some i => _ <- sm_deref m i ;; Ok (m, i, false)
  | None => '(m', i) <- sm_insert m k construct ;; Ok (m', i, true)
  end.

(** fixed_map.rs:210-215 [iter] and 218-225 [into_iter]. *)
Definition sm_iter (m : sparse_map K V) : list (K * V) := entries m.

End SparseMap.
