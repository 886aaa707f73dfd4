(** Model of lr_table/src/lr_table.rs. *)
From Coq Require Import Arith Bool String NArith List.
From Verif Require Import Base.Prelude Spec.Grammar Model.Error.
From Verif Require Import Model.BitSet Model.FixedMap Model.Vocabulary.
From Verif Require Import Model.IndexedGrammar Model.FirstMap Model.Position Model.Closure.
Import ListNotations.

(** lr_table.rs:41-46; [StateId] is its number. *)
Inductive action :=
| Shift (next_state : nat)
| Reduce (rule : nat)
| Accept.

#[global] Instance EqDec_action : EqDec action.
Proof. intros x y; decide equality; apply Nat.eq_dec. Defined.

(** lr_table.rs:85-92; a [GotoAction] is its state. *)
Record entry_builder := mk_entry {
  eactions : sparse_map (aug nat) action;
  egotos : sparse_map nat nat;
}.

(** lr_table.rs:253-260 *)
Record lr_table := mk_table {
  action_table : list (option action);
  goto_table : list (option nat);
  num_states : nat;
}.

Section Build.
Context {bm : BuildMode} {T L : Type}.
Let E := lr_error T L.
Variable g : indexed_grammar T L.

(** lr_table.rs:95-100 *)
Definition entry_new : entry_builder :=
  mk_entry (sm_new (vocab_size (ivocab g))) (sm_new (labels_count g)).

(** lr_table.rs:187-195, 228-230: [inr a] is [Err(&a)]. *)
Definition add_action (b : entry_builder) (token : aug nat) (a : action)
  : outcome E (entry_builder + action) :=
  r <- sm_try_insert (eactions b) token a ;;
  Ok (match r with
      | inl m => inl (mk_entry m (egotos b))
      | inr existing => inr existing
      end).

(** lr_table.rs:197-218 *)
Definition add_reduce_action (rule : nat) (b : entry_builder) (token : aug nat)
  : outcome E entry_builder :=
  r <- add_action b token (Reduce rule) ;;
  match r with
  | inl b' => Ok b'
  | inr existing =>
      lookahead <- id_to_token (ivocab g) token ;;
      match existing with
      | Reduce other_rule => Err (ReduceConflict rule other_rule lookahead)
      | Shift _ => Err (ShiftReduceConflict rule lookahead)
      | Accept => Err (ReduceConflict rule root_production_rule lookahead)
      end
  end.

(** lr_table.rs:220-226 *)
Definition add_goto_action (b : entry_builder) (label next_state : nat)
  : outcome E (entry_builder + nat) :=
  r <- sm_try_insert (egotos b) label next_state ;;
  Ok (match r with
      | inl m => inl (mk_entry (eactions b) m)
      | inr existing => inr existing
      end).

Definition is_eos (a : aug nat) : bool :=
  match a with EndOfStream => true | _ => false end.

(** lr_table.rs:116-141: one completed position. *)
Definition add_completed (b : entry_builder) (p : position) : outcome E entry_builder :=
  _ <- debug_assertM (at_end_of_rule g p) "position.at_end_of_rule(grammar)" ;;
  if production_id p =? root_production_rule then
    _ <- debug_assert (forallb is_eos (vs_iter (follow_set p))) "root follow set" ;;
    r <- add_action b EndOfStream Accept ;;
    match r with
    | inl b' => Ok b'
    | inr _ => Panic "Accept action unexpectedly conflicted with another rule"
    end
  else
    foldM (add_reduce_action (production_id p)) b (vs_iter (follow_set p)).

(** lr_table.rs:111-182: one partition. *)
Definition add_partition (st : entry_builder * kernel_table) (p : nat * list position)
  : outcome E (entry_builder * kernel_table) :=
  let '(b, kt) := st in
  let '(category_id, positions) := p in
  match static_from_id category_id (vocab_size (ivocab g)) with
  | None =>
      b' <- foldM add_completed b positions ;;
      Ok (b', kt)
  | Some node =>
      _ <- debug_assertM (allM (fun p => e <- at_end_of_rule g p ;; Ok (negb e)) positions)
             "!position.at_end_of_rule(grammar)" ;;
      positions' <- advance_all g positions ;;
      let k := kernel_new positions' in
      let '(kt', id) := get_or_insert kt k in
      match node with
      | Production label =>
          r <- add_goto_action b label id ;;
          match r with
          | inl b' => Ok (b', kt')
          | inr _ => Panic "Goto action unexpectedly conflicted with another action"
          end
      | Terminal terminal =>
          r <- add_action b terminal (Shift id) ;;
          match r with
          | inl b' => Ok (b', kt')
          | inr existing =>
              lookahead <- id_to_token (ivocab g) terminal ;;
              match existing with
              | Reduce other_rule => Err (ShiftReduceConflict other_rule lookahead)
              | Shift _ => Err (ShiftConflict lookahead)
              | Accept => Err (ShiftReduceConflict root_production_rule lookahead)
              end
          end
      end
  end.

(** lr_table.rs:104-185 *)
Definition try_build_from_partitions (partitions : sparse_map nat (list position))
    (kt : kernel_table) : outcome E (entry_builder * kernel_table) :=
  foldM add_partition (entry_new, kt) (sm_iter partitions).

(** lr_table.rs:234-250 *)
Definition into_vecs (b : entry_builder)
  : outcome E (list (option action) * list (option nat)) :=
  actions <- mapM (sm_get (eactions b)) (for_each_id (ivocab g)) ;;
  gotos <- mapM (sm_get (egotos b)) (all_production_labels g) ;;
  Ok (actions, gotos).

(** lr_table.rs:283-299 and the fold of 306-323, fused: the Rust code builds
    one row per step of a lazy iterator and stops at the first error.  The loop
    state is (next state id, kernel table, table so far). *)
Definition build_row (fuel : nat) (f : first_table) (st : nat * kernel_table * lr_table)
  : outcome E ((nat * kernel_table * lr_table) + lr_table) :=
  let '(state_id, kt, table) := st in
  match get_state kt state_id with
  | None => Ok (inr table)
  | Some k =>
      partitions <- partition_closure_by_next_node g f fuel k ;;
      '(b, kt') <- try_build_from_partitions partitions kt ;;
      '(actions, gotos) <- into_vecs b ;;
      Ok (inl (S state_id, kt',
               mk_table (action_table table ++ actions) (goto_table table ++ gotos)
                        (num_states table + 1)))
  end.

(** lr_table.rs:273-281 *)
Definition initial_kernel : outcome E kernel :=
  ids <- production_rule_ids_for_label g root_production_label ;;
  ps <- mapM (fun id => new_top_level id (ivocab g)) ids ;;
  Ok (kernel_new ps).

(** lr_table.rs:302-324 with 263-281 *)
Definition table_build (fuel : nat) : outcome E lr_table :=
  f <- first_build fuel g ;;
  k0 <- initial_kernel ;;
  let '(kt, id) := get_or_insert kernel_table_new k0 in
  _ <- debug_assert (id =? 0) "id.0 == 0" ;;
  while_loop fuel (build_row fuel f) (0, kt, mk_table [] [] 0).

End Build.

Section Access.
Context {bm : BuildMode} {E T L : Type}.

(** lr_table.rs:326-328 *)
Definition root_state : nat := 0.

(** Division as in [a / b] on usize: panics when [b] is zero. *)
Definition checked_div (a b : nat) : outcome E nat :=
  if b =? 0 then Panic "attempt to divide by zero" else Ok (a / b).

(** lr_table.rs:340-344 *)
Definition table_vocab_size (t : lr_table) : outcome E nat :=
  let num_actions := List.length (action_table t) in
  _ <- debug_assert (if num_states t =? 0 then num_actions =? 0
                     else num_actions mod num_states t =? 0)
         "num_actions.is_multiple_of(self.num_states)" ;;
  checked_div num_actions (num_states t).

(** lr_table.rs:346-350 *)
Definition num_production_labels (t : lr_table) : outcome E nat :=
  let num_gotos := List.length (goto_table t) in
  _ <- debug_assert (if num_states t =? 0 then num_gotos =? 0
                     else num_gotos mod num_states t =? 0)
         "num_gotos.is_multiple_of(self.num_states)" ;;
  checked_div num_gotos (num_states t).

(** lr_table.rs:330-333 *)
Definition get_action (t : lr_table) (state : nat) (token : aug nat)
  : outcome E (option action) :=
  vs <- table_vocab_size t ;;
  index (action_table t) (vs * state + label_id token).

(** lr_table.rs:335-338 *)
Definition get_goto (t : lr_table) (state : nat) (label : nat) : outcome E (option nat) :=
  nl <- num_production_labels t ;;
  index (goto_table t) (nl * state + label).

(** lr_table.rs:364-366 *)
Definition table_states (t : lr_table) : list nat := seq 0 (num_states t).

(** lr_table.rs:371-390.  The iterator is lazy in Rust; here it is collected. *)
Definition state_actions (t : lr_table) (g : indexed_grammar T L) (state : nat)
  : outcome E (list (aug T * action)) :=
  _ <- debug_assertM (vs <- table_vocab_size t ;; Ok (vocab_size (ivocab g) =? vs))
         "grammar.vocab().size() == self.vocab_size()" ;;
  let vsize := vocab_size (ivocab g) in
  let state_offset := state * vsize in
  row <- slice (action_table t) state_offset (state_offset + vsize) ;;
  acts <- mapM (fun p : option action * aug nat =>
      match fst p with
      | Some a => token <- id_to_token (ivocab g) (snd p) ;; Ok [(token, a)]
      | None => Ok []
      end) (combine row (for_each_id (ivocab g))) ;;
  Ok (concat acts).

(** lr_table.rs:395-412 *)
Definition goto_actions (t : lr_table) (g : indexed_grammar T L) (state : nat)
  : outcome E (list (nat * nat)) :=
  _ <- debug_assertM (nl <- num_production_labels t ;; Ok (nl =? labels_count g))
         "self.num_production_labels() == grammar.labels_count()" ;;
  let nl := labels_count g in
  let state_offset := state * nl in
  row <- slice (goto_table t) state_offset (state_offset + nl) ;;
  Ok (concat (map (fun p : option nat * nat =>
      match fst p with
      | Some s => [(snd p, s)]
      | None => []
      end) (combine row (all_production_labels g)))).

End Access.
