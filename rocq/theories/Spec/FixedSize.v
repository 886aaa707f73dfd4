(** Runs of the sets and maps of fixed size, and what they should hold. *)
From Coq Require Import Arith List.
From Verif Require Import Base.Prelude Model.BitSet Model.FixedMap Model.FixedSize.
Import ListNotations.

Section Runs.
Context {bm : BuildMode} {E K V : Type} {lab : Label K} {dec : EqDec K}.

(** Labels put into a set, the last one first. *)
Fixpoint run_labels (cap : nat) (ks : list K) : outcome E bitset :=
  match ks with
  | [] => Ok (fs_new cap)
  | k :: ks => s <- run_labels cap ks ;; fs_set s k
  end.

(** Writes, oldest first. *)
Definition run_writes (cap : nat) (constructor : nat -> V) (ws : list (K * V)) : outcome E (list V) :=
  foldM (fun m w => fm_get_mut_assign m (fst w) (snd w)) (fm_new cap constructor) ws.

(** The last value written to a key. *)
Definition last_write (k : K) (ws : list (K * V)) : option V :=
  fold_left (fun o w => if eq_dec k (fst w) then Some (snd w) else o) ws None.

End Runs.
