(** Model of lr_table/src/vocabulary.rs. *)
From Coq Require Import Arith Bool String NArith List.
From Verif Require Import Base.Prelude Model.BitSet Spec.Grammar.
Import ListNotations.

(** vocabulary.rs:42-49.  [TokenId] (vocabulary.rs:16) is its number. *)
#[global] Instance Label_aug : Label (aug nat) :=
  fun a => match a with Token t => t + 2 | Epsilon => 0 | EndOfStream => 1 end.

(** vocabulary.rs:51-59 *)
Definition aug_from_id (ordinal : nat) : aug nat :=
  if ordinal =? 0 then Epsilon
  else if ordinal =? 1 then EndOfStream
  else Token (ordinal - 2).

(** vocabulary.rs:88-91 [VocabularyBuilder] and 136-139 [AugmentedVocab]: the
    same two fields; [build] (122-127) just moves them. *)
Record vocab (T : Type) := mk_vocab {
  token_map : hash_map T nat;
  id_map : list T;
}.
Arguments mk_vocab {T}.
Arguments token_map {T}.
Arguments id_map {T}.

(** vocabulary.rs:115-120 *)
Definition vocab_empty {T} : vocab T := mk_vocab [] [].

(** vocabulary.rs:94-111 *)
Definition get_id_or_insert {T} `{EqDec T} (v : vocab T) (token : aug T)
  : vocab T * aug nat :=
  match token with
  | Token t =>
      let next_id := List.length (token_map v) in
      match hm_get t (token_map v) with
      | Some id => (v, Token id)
      | None =>
          (mk_vocab (hm_insert_vacant t next_id (token_map v)) (id_map v ++ [t]),
           Token next_id)
      end
  | Epsilon => (v, Epsilon)
  | EndOfStream => (v, EndOfStream)
  end.

(** vocabulary.rs:142-144 *)
Definition vocab_size {T} (v : vocab T) : nat := List.length (id_map v) + 2.

(** vocabulary.rs:146-148 *)
Definition for_each_id {T} (v : vocab T) : list (aug nat) :=
  map aug_from_id (seq 0 (vocab_size v)).

(** vocabulary.rs:150-159 *)
Definition id_to_token {E T} (v : vocab T) (id : aug nat) : outcome E (aug T) :=
  match id with
  | Token i => t <- index (id_map v) i ;; Ok (Token t)
  | Epsilon => Ok Epsilon
  | EndOfStream => Ok EndOfStream
  end.

(** vocabulary.rs:163-171; [None] is [Err(UnrecognizedToken)]. *)
Definition token_to_id {T} `{EqDec T} (v : vocab T) (t : T) : option nat :=
  hm_get t (token_map v).

(** vocabulary.rs:173-182 *)
Definition augmented_token_to_id {T} `{EqDec T} (v : vocab T) (token : aug T)
  : option (aug nat) :=
  match token with
  | Token t => match token_to_id v t with Some i => Some (Token i) | None => None end
  | Epsilon => Some Epsilon
  | EndOfStream => Some EndOfStream
  end.

(** vocabulary.rs:185-218 [VocabSet]: a bit set over augmented token ids. *)
Definition vs_new {T} (v : vocab T) : bitset := bs_new (vocab_size v).

Section WithMode.
Context {bm : BuildMode} {E : Type}.
(** vocabulary.rs:197-199 *)
Definition vs_has (s : bitset) (token : aug nat) : outcome E bool := bs_has s (label_id token).
(** vocabulary.rs:201-203 *)
Definition vs_set (s : bitset) (token : aug nat) : outcome E bitset := bs_set s (label_id token).
(** vocabulary.rs:205-207 *)
Definition vs_clear (s : bitset) (token : aug nat) : outcome E bitset := bs_clear s (label_id token).
End WithMode.

(** vocabulary.rs:211-213 *)
Definition vs_merge (s other : bitset) : bitset * bool := bs_merge s other.
(** vocabulary.rs:215-217 *)
Definition vs_iter (s : bitset) : list (aug nat) := map aug_from_id (bs_for_each s).
