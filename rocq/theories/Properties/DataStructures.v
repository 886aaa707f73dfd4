(** C11, C12, C13, C61: the small data structures of lr_table. *)
From Coq Require Import Arith Bool String NArith List Sorted.
From Verif Require Import Base.Prelude Spec.Grammar Spec.Histories.
From Verif Require Import Model.BitSet Model.FixedMap Model.Vocabulary.
From Verif Require Import Model.IndexedGrammar Model.FixedSize Spec.FixedSize.
From Verif Require Import Proofs.DataFinal Proofs.FixedSize.
Import ListNotations.

(** C11.  After any sequence of insertions: exactly the inserted tokens have an
    id, ids and tokens are in bijection, ids are dense, the augmented ids never
    collide, and the id handed out at insertion is the final one. *)
Theorem C11_vocabulary_bijection :
  forall (T E : Type) (dec : EqDec T) (ts : list (aug T)),
  let v := run_vocab ts in
  (forall t, (exists i, token_to_id v t = Some i) <-> In (Token t) ts) /\
  (forall t i, token_to_id v t = Some i -> @id_to_token E T v (Token i) = Ok (Token t)) /\
  (forall i, i + 2 < vocab_size v ->
     exists t, @id_to_token E T v (Token i) = Ok (Token t) /\ token_to_id v t = Some i) /\
  (forall t i, token_to_id v t = Some i -> i + 2 < vocab_size v) /\
  (forall t t' i, token_to_id v t = Some i -> token_to_id v t' = Some i -> t = t') /\
  (forall a b : aug nat, label_id a = label_id b -> a = b) /\
  (forall a, In a (for_each_id v) <-> label_id a < vocab_size v) /\ NoDup (for_each_id v) /\
  (forall pre a post, ts = pre ++ a :: post ->
     augmented_token_to_id v a = Some (snd (get_id_or_insert (run_vocab pre) a))).
Proof. exact (fun T E dec ts => @vocab_bijection T dec E ts). Qed.
Print Assumptions C11_vocabulary_bijection.

Example C11_example :
  let v := run_vocab [Token 7; Epsilon; Token 9; Token 7; EndOfStream] in
  token_to_id v 7 = Some 0 /\ token_to_id v 9 = Some 1 /\ token_to_id v 8 = None /\ vocab_size v = 4.
Proof. vm_compute. auto. Qed.

(** C12.  After any sequence of set/clear/merge operations within capacity [n]
    a bit set behaves as the set of its members, in debug and release builds
    alike ([bm]): no operation panics, [has] is membership, [for_each] lists
    the members once each in increasing order, [full] means all present,
    equality of values is equality of sets, and [merge] reports growth. *)
Theorem C12_bitset_is_a_set :
  forall (bm : BuildMode) (E : Type) (n : nat) (h : set_history), within n h ->
  exists s, @run_set bm E n h = Ok s /\
  (forall b, b < n -> exists r, @bs_has bm E s b = Ok r /\ (r = true <-> members h b)) /\
  (StronglySorted lt (bs_for_each s) /\ forall b, In b (bs_for_each s) <-> members h b) /\
  (exists r, @bs_full E s = Ok r /\ (r = true <-> forall b, b < n -> members h b)) /\
  (forall h' s', within n h' -> @run_set bm E n h' = Ok s' ->
     (s = s' <-> forall b, members h b <-> members h' b) /\
     (snd (bs_merge s s') = true <-> exists b, members h' b /\ ~ members h b)).
Proof. exact (fun bm E n h => @bitset_is_set bm E n h). Qed.
Print Assumptions C12_bitset_is_a_set.

(** Accesses beyond the capacity are caught by the debug assertions. *)
Theorem C12_bitset_out_of_range :
  forall (bm : BuildMode) (E : Type) n h s b,
  debug_assertions = true -> within n h -> @run_set bm E n h = Ok s -> n <= b ->
  (exists why, @bs_has bm E s b = Panic why) /\ (exists why, @bs_set bm E s b = Panic why) /\
  (exists why, @bs_clear bm E s b = Panic why).
Proof. exact (fun bm E n h s b => @bitset_out_of_range bm E n h s b). Qed.
Print Assumptions C12_bitset_out_of_range.

Definition C12_history : set_history :=
  SClear 3 (SMerge (SSet 69 (SSet 3 SNew)) (SSet 64 (SClear 5 (SSet 63 SNew)))).
Example C12_example : within 70 C12_history /\
  match @run_set true unit 70 C12_history with
  | Ok s => bs_for_each s = [63; 64; 69] /\ @bs_full unit s = Ok false
  | _ => False
  end.
Proof. split; [repeat (split; [vm_compute; repeat constructor|]); simpl; auto; repeat constructor|vm_compute; auto]. Qed.

(** C13.  After any sequence of operations on keys within capacity, a sparse map
    holds the association list the operations spell, in insertion order;
    lookups and further insertions agree with it. *)
Theorem C13_sparse_map_is_a_map :
  forall (bm : BuildMode) (E K V : Type) (dec : EqDec K) (lab : Label K),
  (forall k k' : K, label_id k = label_id k' -> k = k') ->
  forall cap (ops : list (map_op K V)), Forall (fun o => label_id (op_key o) < cap) ops ->
  exists m : sparse_map K V, @run_ops K V bm E lab cap ops = Ok m /\
    sm_iter m = contents ops /\ NoDup (map fst (sm_iter m)) /\
    forall k, label_id k < cap ->
      @sm_get E K V lab m k = Ok (assoc k (contents ops)) /\
      (forall v, match assoc k (contents ops) with
                 | Some v' => @sm_try_insert bm E K V lab m k v = Ok (inr v')
                 | None => exists m', @sm_try_insert bm E K V lab m k v = Ok (inl m') /\
                             sm_iter m' = contents ops ++ [(k, v)]
                 end) /\
      (forall v, exists m' i, @sm_get_mut_or_insert_with bm E K V lab m k v =
           Ok (m', i, match assoc k (contents ops) with Some _ => false | None => true end) /\
         @sm_deref E K V m' i = Ok (match assoc k (contents ops) with Some v' => v' | None => v end)).
Proof. exact (fun bm E K V dec lab inj cap ops => @sparse_map_is_map bm E K V dec lab inj cap ops). Qed.
Print Assumptions C13_sparse_map_is_a_map.

Definition C13_ops : list (map_op nat nat) :=
  [MTryInsert 2 20; MGetOrInsert 0 5; MTryInsert 2 99; MUpdate 0 6; MUpdate 1 7; MGetOrInsert 1 8].
Example C13_example :
  Forall (fun o => label_id (op_key o) < 3) C13_ops /\ contents C13_ops = [(2, 20); (0, 6); (1, 8)] /\
  match @run_ops nat nat true unit Label_nat 3 C13_ops with
  | Ok m => sm_iter m = [(2, 20); (0, 6); (1, 8)]
  | _ => False
  end.
Proof. split; [repeat constructor|]. vm_compute. auto. Qed.

(** ** C61: labels, and sets and maps of fixed size

    A label is got back from its id.  In full, false: the debug assertion of
    [u8] excludes the last one. *)
Theorem C61_labels_round_trip_refuted :
  exists l, l < 256 /\ exists why, @u8_from_id true unit (u8_id l) = Panic why.
Proof. exact (ex_intro _ 255 (conj (le_n 256) (ex_intro _ _ u8_last))). Qed.
Print Assumptions C61_labels_round_trip_refuted.

(** Missing from the full statement: that one label. *)
Theorem C61_labels_round_trip_partial :
  forall (bm : BuildMode) (E : Type),
  (forall l, l < 256 -> (debug_assertions = true -> l <> 255) -> @u8_from_id bm E (u8_id l) = Ok l) /\
  (forall l : nat, @usize_from_id E (label_id l) = Ok l) /\
  (forall (K : Type) (lab : Label K) (from_id : nat -> outcome E K), (forall k, from_id (label_id k) = Ok k) ->
   forall o : option K, option_from_id from_id (label_id o) = Ok o) /\
  (forall a : aug nat, aug_from_id (label_id a) = a) /\
  (forall vsize (o : option inode), (forall a, o = Some (Terminal a) -> label_id a < vsize) ->
   static_from_id (static_id o vsize) vsize = o).
Proof.
  exact (fun bm E => conj (@u8_back bm E) (conj (fun l => eq_refl) (conj (@option_back E) (conj aug_back category_back)))).
Qed.
Print Assumptions C61_labels_round_trip_partial.

(** After any insertions of labels below the capacity, [has] is membership and
    [full] tells whether all ids below the capacity are taken. *)
Theorem C61_fixed_set_is_a_set :
  forall (bm : BuildMode) (E K : Type) (lab : Label K), (forall k k' : K, label_id k = label_id k' -> k = k') ->
  forall cap ks, Forall (fun k : K => label_id k < cap) ks ->
  exists s, run_labels (E := E) cap ks = Ok s /\
  (forall k, label_id k < cap -> exists r, fs_has (E := E) s k = Ok r /\ (r = true <-> In k ks)) /\
  exists r, fs_full (E := E) s = Ok r /\ (r = true <-> forall b, b < cap -> exists k, In k ks /\ label_id k = b).
Proof. exact (fun bm E K lab => @fixed_set_ok bm E K lab). Qed.
Print Assumptions C61_fixed_set_is_a_set.

(** After any writes, a map gives the last value written to a key, or what the
    constructor made for it; keys beyond the capacity panic. *)
Theorem C61_fixed_map_is_a_map :
  forall (E K V : Type) (lab : Label K) (dec : EqDec K), (forall k k' : K, label_id k = label_id k' -> k = k') ->
  forall cap (constructor : nat -> V) ws, Forall (fun w : K * V => label_id (fst w) < cap) ws ->
  exists m, run_writes (E := E) cap constructor ws = Ok m /\
  forall k : K, (label_id k < cap -> fm_get (E := E) m k = Ok (match last_write k ws with Some v => v | None => constructor (label_id k) end)) /\
    (cap <= label_id k -> exists why, fm_get (E := E) m k = Panic why).
Proof. exact (fun E K V lab dec => @fixed_map_ok E K V lab dec). Qed.
Print Assumptions C61_fixed_map_is_a_map.

Example C61_example :
  Forall (fun k : nat => label_id k < 3) [2; 0] /\
  match run_labels (bm := true) (E := unit) 3 [2; 0] with
  | Ok s => fs_has (bm := true) (E := unit) s 2 = Ok true /\ fs_has (bm := true) (E := unit) s 1 = Ok false /\ fs_full (E := unit) s = Ok false
  | _ => False
  end /\
  match run_writes (E := unit) (K := nat) 3 (fun n => n + 10) [(1, 5); (0, 7); (1, 6)] with
  | Ok m => m = [7; 6; 12]
  | _ => False
  end.
Proof. split; [repeat constructor|]. vm_compute. auto. Qed.
