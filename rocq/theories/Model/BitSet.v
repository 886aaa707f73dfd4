(** Model of lr_table/src/bit_set.rs. *)
From Coq Require Import Arith Bool String NArith List.
From Verif Require Import Base.Prelude.
Import ListNotations.

(** bit_set.rs:3-7.  Words are [N] (values below 2^64). *)
Record bitset := mk_bitset { bits : list N; blen : nat }.

#[global] Instance EqDec_bitset : EqDec bitset.
Proof. intros [b1 l1] [b2 l2]; decide equality; apply eq_dec. Defined.

(** [u64::BITS] *)
Definition word_bits : nat := 64.
(** [u64::MAX] *)
Definition word_max : N := N.ones 64.

(** [usize::div_ceil] *)
Definition div_ceil (a b : nat) : nat := if a mod b =? 0 then a / b else S (a / b).

(** bit_set.rs:10-15 *)
Definition bs_new (len : nat) : bitset :=
  mk_bitset (repeat 0%N (div_ceil len word_bits)) len.

(** bit_set.rs:17-19: [(bit / 64, bit as u32 % 64)]; [as u32] truncates. *)
Definition bs_pos (bit : nat) : nat * N :=
  (bit / word_bits, ((N.of_nat bit mod (2 ^ 32)) mod 64)%N).

Section WithMode.
Context {bm : BuildMode} {E : Type}.

(** bit_set.rs:21-25 *)
Definition bs_has (s : bitset) (bit : nat) : outcome E bool :=
  _ <- debug_assert (bit <? blen s) "bit < self.len" ;;
  let '(idx, shift) := bs_pos bit in
  w <- index (bits s) idx ;;
  Ok (negb (N.eqb (N.land w (N.shiftl 1 shift)) 0)).

(** bit_set.rs:27-31 *)
Definition bs_set (s : bitset) (bit : nat) : outcome E bitset :=
  _ <- debug_assert (bit <? blen s) "bit < self.len" ;;
  let '(idx, shift) := bs_pos bit in
  w <- index (bits s) idx ;;
  ws <- store (bits s) idx (N.lor w (N.shiftl 1 shift)) ;;
  Ok (mk_bitset ws (blen s)).

(** bit_set.rs:33-37; [!x] on u64 is exclusive or with [u64::MAX]. *)
Definition bs_clear (s : bitset) (bit : nat) : outcome E bitset :=
  _ <- debug_assert (bit <? blen s) "bit < self.len" ;;
  let '(idx, shift) := bs_pos bit in
  w <- index (bits s) idx ;;
  ws <- store (bits s) idx (N.land w (N.lxor word_max (N.shiftl 1 shift))) ;;
  Ok (mk_bitset ws (blen s)).

End WithMode.

(** bit_set.rs:43-47: the loop over zipped words (extra words are left alone). *)
Fixpoint merge_words (dst src : list N) : list N * bool :=
  match dst, src with
  | d :: dst', s :: src' =>
      let '(rest, m) := merge_words dst' src' in
      let d' := N.lor d s in
      (d' :: rest, negb (N.eqb d' d) || m)
  | _, _ => (dst, false)
  end.

(** bit_set.rs:41-49 *)
Definition bs_merge (s other : bitset) : bitset * bool :=
  let '(ws, modified) := merge_words (bits s) (bits other) in
  (mk_bitset ws (blen s), modified).

(** [cknittel_util::iter_ones]: positions of the one bits of a word, ascending
    (external crate; its documented behaviour is assumed). *)
Definition iter_ones (w : N) : list nat :=
  filter (fun b => N.testbit w (N.of_nat b)) (seq 0 word_bits).

(** bit_set.rs:51-57 *)
Fixpoint for_each_from (idx : nat) (ws : list N) : list nat :=
  match ws with
  | [] => []
  | w :: ws' => map (fun b => idx * word_bits + b) (iter_ones w) ++ for_each_from (S idx) ws'
  end.
Definition bs_for_each (s : bitset) : list nat := for_each_from 0 (bits s).

(** bit_set.rs:59-68 *)
Definition bs_full {E} (s : bitset) : outcome E bool :=
  if blen s mod word_bits =? 0 then
    Ok (forallb (fun w => N.eqb w word_max) (bits s))
  else
    match rev (bits s) with
    | last :: rest =>
        Ok (forallb (fun w => N.eqb w word_max) (rev rest)
            && N.eqb last (N.shiftl 1 ((N.of_nat (blen s) mod (2 ^ 32)) mod 64) - 1))
    | [] => Panic "BitSet::full()"
    end.
