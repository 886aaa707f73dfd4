(** Model of the rest of lr_table/src/fixed_map.rs: ids back to labels, and
    [FixedSizeSet] and [FixedSizeMap].  (The other models use bit sets and
    lists in the place of the latter two.) *)
From Coq Require Import Arith Bool String List.
From Verif Require Import Base.Prelude Model.BitSet Model.FixedMap Model.TableText.
Import ListNotations.

Section Labels.
Context {bm : BuildMode} {E : Type}.

(** fixed_map.rs:12-21; a [u8] is a number below 256, and [as u8] drops all but
    the low eight bits. *)
Definition u8_id (l : nat) : nat := l.
Definition u8_from_id (id : nat) : outcome E nat :=
  _ <- debug_assert (id <? 255) "id < u8::MAX as usize" ;;
  Ok (id mod 256).

(** fixed_map.rs:28-30, indexed_grammar.rs:39-41 and 48-50 *)
Definition usize_from_id (id : nat) : outcome E nat := Ok id.

(** fixed_map.rs:41-47 *)
Definition option_from_id {K} (from_id : nat -> outcome E K) (id : nat) : outcome E (option K) :=
  if id =? 0 then Ok None else l <- from_id (id - 1) ;; Ok (Some l).
End Labels.

Section FixedSize.
Context {bm : BuildMode} {E K V : Type} `{Label K}.

(** fixed_map.rs:56-61, 63-65, 67-69, 71-73 *)
Definition fs_new (capacity : nat) : bitset := bs_new capacity.
Definition fs_has (s : bitset) (k : K) : outcome E bool := bs_has s (label_id k).
Definition fs_set (s : bitset) (k : K) : outcome E bitset := bs_set s (label_id k).
Definition fs_full (s : bitset) : outcome E bool := bs_full s.

(** fixed_map.rs:81-96; [constructor n] is what the closure returns when it is
    called for the [n]th time. *)
Definition fm_new (capacity : nat) (constructor : nat -> V) : list V := map constructor (seq 0 capacity).

(** fixed_map.rs:99-101 *)
Definition fm_get (m : list V) (k : K) : outcome E V := index m (label_id k).

(** fixed_map.rs:103-105, together with a write through the reference *)
Definition fm_get_mut_assign (m : list V) (k : K) (v : V) : outcome E (list V) := store m (label_id k) v.

(** fixed_map.rs:108-119 *)
Definition fm_debug (from_id : nat -> outcome E K) (show_key : K -> string) (show_value : V -> string) (m : list V) : outcome E string :=
  parts <- mapM (fun id => k <- from_id id ;; v <- fm_get m k ;; Ok (show_key k ++ ": " ++ show_value v)%string) (seq 0 (List.length m)) ;;
  Ok ("[" ++ join ", " parts ++ "]")%string.

(** fixed_map.rs:200-207; [default] is [T::default()] *)
Definition sm_get_mut_or_default (default : V) (m : sparse_map K V) (k : K) : outcome E (sparse_map K V * nat * bool) :=
  sm_get_mut_or_insert_with m k default.

(** fixed_map.rs:226-236 *)
Definition sm_debug (show_key : K -> string) (show_value : V -> string) (m : sparse_map K V) : string :=
  ("[" ++ join ", " (map (fun e => show_key (fst e) ++ ": " ++ show_value (snd e))%string (sm_iter m)) ++ "]")%string.

End FixedSize.
