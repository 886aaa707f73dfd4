(** C75: the texts of sets of tokens, kernels and maps.  [lists_set],
    [lists_items] and [lists_entries] are in [Spec.DebugText], [set_history]
    and [map_op] in [Spec.Histories]. *)
From Coq Require Import Arith String List Sorted Permutation.
From Verif Require Import Base.Prelude Spec.Histories Spec.TableText Spec.FixedSize Spec.DebugText.
From Verif Require Import Model.BitSet Model.FixedMap Model.FixedSize Model.Position Model.TableText Model.DebugText.
From Verif Require Import Proofs.DebugText.
Import ListNotations.
Open Scope string_scope.
Open Scope nat_scope.

(** A set lists its members in increasing order; two sets have the same text
    just if they have the same members. *)
Theorem C75_set_text :
  forall (bm : BuildMode) n h s, within n h -> run_set (E := unit) n h = Ok s -> lists_set (members h) (show_vocab_set s).
Proof. exact (fun bm n h s => @set_text bm n h s). Qed.
Print Assumptions C75_set_text.

Theorem C75_set_texts_tell :
  forall (bm : BuildMode) n n' h h' s s', within n h -> within n' h' ->
  run_set (E := unit) n h = Ok s -> run_set (E := unit) n' h' = Ok s' ->
  (show_vocab_set s = show_vocab_set s' <-> forall b, members h b <-> members h' b).
Proof. exact (fun bm n n' h h' s s' => @set_texts bm n n' h h' s s'). Qed.
Print Assumptions C75_set_texts_tell.

(** A kernel lists its items by rule and place, and two kernels have the same
    text only if they are equal. *)
Theorem C75_kernel_text :
  forall (bm : BuildMode) n its ps, Forall2 (item_position n) its ps -> lists_items its (show_kernel (kernel_new ps)).
Proof. exact (fun bm n its ps => @kernel_text bm n its ps). Qed.
Print Assumptions C75_kernel_text.

Theorem C75_kernel_texts_tell :
  forall (bm : BuildMode) n its its' ps ps', Forall2 (item_position n) its ps -> Forall2 (item_position n) its' ps' ->
  (show_kernel (kernel_new ps) = show_kernel (kernel_new ps') <-> kernel_new ps = kernel_new ps').
Proof. exact (fun bm n its its' ps ps' => @kernel_texts bm n its its' ps ps'). Qed.
Print Assumptions C75_kernel_texts_tell.

(** A map of fixed size lists all its keys in the order of their ids, with the
    last value written to each. *)
Theorem C75_fixed_map_text :
  forall (E K V : Type) (lab : Label K) (dec : EqDec K) (show_key : K -> string) (show_value : V -> string) (from_id : nat -> outcome E K),
  (forall k k' : K, label_id k = label_id k' -> k = k') ->
  forall cap (constructor : nat -> V) (ws : list (K * V)) keys,
  Forall (fun w : K * V => label_id (fst w) < cap) ws -> mapM from_id (seq 0 cap) = Ok keys -> map label_id keys = seq 0 cap ->
  exists m text, run_writes (E := E) cap constructor ws = Ok m /\ fm_debug from_id show_key show_value m = Ok text /\
    lists_entries show_key show_value (map (fun k => (k, match last_write k ws with Some v => v | None => constructor (label_id k) end)) keys) text.
Proof. exact (fun E K V lab dec show_key show_value from_id => @fixed_map_text E K V lab dec show_key show_value from_id). Qed.
Print Assumptions C75_fixed_map_text.

(** With bytes for keys, that is so of the maps of fewer than 256 keys; the text
    of a map of all 256 is not made in debug builds. *)
Theorem C75_byte_keys :
  forall (bm : BuildMode) (E : Type) cap, cap < 256 -> mapM (u8_from_id (E := E)) (seq 0 cap) = Ok (seq 0 cap).
Proof. exact (fun bm E cap => @byte_keys bm E cap). Qed.
Print Assumptions C75_byte_keys.

Theorem C75_byte_map_text_refuted :
  exists m : list nat, List.length m = 256 /\
    forall show_key show_value, exists why, fm_debug (E := unit) (u8_from_id (bm := true)) show_key show_value m = Panic why.
Proof.
  exact (ex_intro _ (repeat 0 256) (conj (repeat_length 0 256)
    (fun show_key show_value => byte_map_panics show_key show_value (repeat 0 256) (eq_ind_r (fun n => 256 <= n) (le_n 256) (repeat_length 0 256))))).
Qed.
Print Assumptions C75_byte_map_text_refuted.

(** A sparse map lists its entries as they were inserted, so that maps which
    hold the same may have different texts. *)
Theorem C75_sparse_map_text :
  forall (bm : BuildMode) (E K V : Type) (lab : Label K) (dec : EqDec K) (show_key : K -> string) (show_value : V -> string),
  (forall k k' : K, label_id k = label_id k' -> k = k') ->
  forall cap (ops : list (map_op K V)) m, Forall (fun o => label_id (op_key o) < cap) ops -> run_ops (E := E) cap ops = Ok m ->
  lists_entries show_key show_value (contents ops) (sm_debug show_key show_value m).
Proof. exact (fun bm E K V lab dec show_key show_value => @sparse_map_text E K V lab dec show_key show_value bm). Qed.
Print Assumptions C75_sparse_map_text.

Theorem C75_same_map_same_text_refuted :
  exists m m' : sparse_map nat nat,
    run_ops (bm := true) (E := unit) 2 [MTryInsert 0 5; MTryInsert 1 6] = Ok m /\
    run_ops (bm := true) (E := unit) 2 [MTryInsert 1 6; MTryInsert 0 5] = Ok m' /\
    (forall k, k < 2 -> sm_get (E := unit) m k = sm_get m' k) /\ sm_debug decimal decimal m <> sm_debug decimal decimal m'.
Proof. exact same_map. Qed.
Print Assumptions C75_same_map_same_text_refuted.

(** The items of rules 3 and 11, given in another order, with lookaheads [2], [10]
    and [64]. *)
Definition C75_items : list item :=
  [{| it_rule := 11; it_dot := 2; it_follow := SSet 10 SNew |};
   {| it_rule := 3; it_dot := 0; it_follow := SClear 5 (SSet 64 (SSet 5 (SSet 2 SNew))) |};
   {| it_rule := 3; it_dot := 0; it_follow := SNew |}].
Example C75_example : exists ps, Forall2 (item_position (bm := true) 70) C75_items ps /\
  show_kernel (kernel_new ps) = "{RuleId(3) at 0 [2/64], RuleId(3) at 0 [], RuleId(11) at 2 [10]}".
Proof. exact items_shown. Qed.

Example C75_maps_example :
  fm_debug (E := unit) usize_from_id decimal decimal [7; 6; 12] = Ok "[0: 7, 1: 6, 2: 12]" /\
  match run_ops (bm := true) (E := unit) 3 [MTryInsert 2 20; MGetOrInsert 0 5; MUpdate 0 6] with
  | Ok m => sm_debug decimal decimal m = "[2: 20, 0: 6]"
  | _ => False
  end.
Proof. vm_compute. auto. Qed.
