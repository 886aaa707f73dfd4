(** Model of the [Display] and [Debug] implementations of sets of tokens,
    positions and kernels: lr_table/src/vocabulary.rs:234-244, position.rs:172-190
    and kernel.rs:29-37.  Writing to a string does not fail, so the results of
    [write!] are omitted.  (The texts of the maps are in [Model.FixedSize].) *)
From Coq Require Import Arith String List.
From Verif Require Import Base.Prelude Model.BitSet Model.Position Model.TableText Model.ErrorText.
Import ListNotations.
Open Scope string_scope.

(** vocabulary.rs:234-238 and 240-244, which do the same *)
Definition show_vocab_set (s : bitset) : string := join "/" (map decimal (bs_for_each s)).

(** position.rs:172-180 and 182-190, which do the same since the two texts of
    the follow set do *)
Definition show_position (p : position) : string :=
  show_rule_id (production_id p) ++ " at " ++ decimal (pos p) ++ " [" ++ show_vocab_set (follow_set p) ++ "]".

(** kernel.rs:29-37 *)
Definition show_kernel (k : kernel) : string := "{" ++ join ", " (map show_position k) ++ "}".
