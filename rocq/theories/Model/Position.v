(** Model of lr_table/src/position.rs, kernel.rs and kernel_table.rs. *)
From Coq Require Import Arith Bool String NArith List.
From Verif Require Import Base.Prelude Spec.Grammar Model.BitSet Model.Vocabulary.
From Verif Require Import Model.IndexedGrammar Model.FirstMap.
Import ListNotations.

(** position.rs:15-24 *)
Definition maybe_first_production_label (nodes : list inode) : option nat :=
  match nodes with
  | Production label :: _ => Some label
  | _ => None
  end.

(** position.rs:66-70 *)
Record position := mk_position {
  production_id : nat;
  pos : nat;
  follow_set : bitset;
}.

#[global] Instance EqDec_position : EqDec position.
Proof. intros [a b c] [a' b' c']; decide equality; apply eq_dec. Defined.

Section Pos.
Context {bm : BuildMode} {E T L : Type}.

(** position.rs:38-56: the loop; the boolean is true when it ran to its end. *)
Fixpoint follow_loop (nodes : list inode) (f : first_table) (token_set : bitset)
  : outcome E (bitset * bool) :=
  match nodes with
  | [] => Ok (token_set, true)
  | Production label :: nodes' =>
      fs <- first_set f label ;;
      let token_set := fst (vs_merge token_set fs) in
      has <- vs_has fs Epsilon ;;
      if negb has then Ok (token_set, false)
      else
        token_set' <- vs_clear token_set Epsilon ;;
        follow_loop nodes' f token_set'
  | Terminal Epsilon :: nodes' => follow_loop nodes' f token_set
  | Terminal token :: _ =>
      token_set' <- vs_set token_set token ;;
      Ok (token_set', false)
  end.

(** position.rs:31-63 *)
Definition follow_set_for_rule (nodes : list inode) (rule_follow_set : bitset)
    (f : first_table) (v : vocab T) : outcome E bitset :=
  '(token_set, to_end) <- follow_loop nodes f (vs_new v) ;;
  if to_end : bool then Ok (fst (vs_merge token_set rule_follow_set)) else Ok token_set.

(** position.rs:93-101 *)
Definition next_node (g : indexed_grammar T L) (p : position) : outcome E (option inode) :=
  production <- production_rule g (production_id p) ;;
  rest <- slice_from (irhs production) (pos p) ;;
  Ok (find (fun n => negb (is_epsilon n)) rest).

(** position.rs:87-89 *)
Definition at_end_of_rule (g : indexed_grammar T L) (p : position) : outcome E bool :=
  o <- next_node g p ;; Ok (match o with None => true | Some _ => false end).

(** position.rs:105-108 *)
Definition advance (g : indexed_grammar T L) (p : position) : outcome E position :=
  _ <- debug_assertM (b <- at_end_of_rule g p ;; Ok (negb b)) "!self.at_end_of_rule(grammar)" ;;
  Ok (mk_position (production_id p) (pos p + 1) (follow_set p)).

(** position.rs:110-118 *)
Definition advance_all (g : indexed_grammar T L) (ps : list position) : outcome E (list position) :=
  mapM (advance g) ps.

(** position.rs:120-129 *)
Definition new_from_start_with_follow_set (id : nat) (fs : bitset) : position :=
  mk_position id 0 fs.

(** position.rs:144-148 *)
Definition new_top_level (id : nat) (v : vocab T) : outcome E position :=
  fs <- vs_set (vs_new v) EndOfStream ;;
  Ok (new_from_start_with_follow_set id fs).

(** position.rs:153-169 *)
Definition next_production_label (g : indexed_grammar T L) (f : first_table) (p : position)
  : outcome E (option (nat * bitset)) :=
  production <- production_rule g (production_id p) ;;
  rest <- slice_from (irhs production) (pos p) ;;
  match maybe_first_production_label rest with
  | None => Ok None
  | Some label =>
      rest' <- slice_from (irhs production) (pos p + 1) ;;
      fs <- follow_set_for_rule rest' (follow_set p) f (ivocab g) ;;
      Ok (Some (label, fs))
  end.

End Pos.

(** kernel.rs:11-16: the sorted positions. *)
Definition kernel := list position.

(** The ordering of [(ProductionRuleId, usize)] keys (derived [Ord], tuples
    lexicographic). *)
Definition key_leb (a b : position) : bool :=
  if production_id a <? production_id b then true
  else if production_id a =? production_id b then pos a <=? pos b
  else false.

(** [sort_by_key] is a stable sort; stable insertion sort computes the same
    list. *)
Fixpoint insert_position (p : position) (ps : list position) : list position :=
  match ps with
  | [] => [p]
  | q :: ps' => if key_leb p q then p :: q :: ps' else q :: insert_position p ps'
  end.
Fixpoint sort_positions (ps : list position) : list position :=
  match ps with
  | [] => []
  | p :: ps' => insert_position p (sort_positions ps')
  end.

(** kernel.rs:19-22 *)
Definition kernel_new (ps : list position) : kernel := sort_positions ps.

(** kernel_table.rs:8-11 *)
Record kernel_table := mk_kernel_table {
  ktable : hash_map kernel nat;
  kstates : list kernel;
}.

(** kernel_table.rs:14-19 *)
Definition kernel_table_new : kernel_table := mk_kernel_table [] [].

(** kernel_table.rs:21-23 *)
Definition get_state (t : kernel_table) (id : nat) : option kernel := nth_error (kstates t) id.

(** kernel_table.rs:25-38 *)
Definition get_or_insert (t : kernel_table) (k : kernel) : kernel_table * nat :=
  let table_size := List.length (ktable t) in
  match hm_get k (ktable t) with
  | Some id => (t, id)
  | None =>
      (mk_kernel_table (hm_insert_vacant k table_size (ktable t)) (kstates t ++ [k]), table_size)
  end.
