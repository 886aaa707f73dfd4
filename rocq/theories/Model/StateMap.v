(** Model of lr_table/src/lr_state_map.rs. *)
From Coq Require Import Arith Bool String NArith List.
From Verif Require Import Base.Prelude Spec.Grammar Model.Error.
From Verif Require Import Model.BitSet Model.FixedMap Model.Vocabulary.
From Verif Require Import Model.IndexedGrammar Model.LRTable.
Import ListNotations.

(** lr_state_map.rs:30-35 *)
Inductive state_ty (T : Type) :=
| TyReduce (label : nat)
| TyTerminal (token : aug T)
| TyRoot.
Arguments TyReduce {T}.
Arguments TyTerminal {T}.
Arguments TyRoot {T}.

(** lr_state_map.rs:60-65 *)
Record state_info (T : Type) := mk_info {
  prev_states : list nat;
  prev_state_return_type : state_ty T;
}.
Arguments mk_info {T}.
Arguments prev_states {T}.
Arguments prev_state_return_type {T}.

Section StateMap.
Context {bm : BuildMode} {T L : Type} `{EqDec T}.
Let E := lr_error T L.

(** lr_state_map.rs:38-57 *)
Definition verify_compatible (self other : state_ty T) : outcome E unit :=
  match self, other with
  | TyReduce state1, TyReduce state2 =>
      if eqb state1 state2 then Ok tt else Err StateResolveConflict
  | TyTerminal terminal1, TyTerminal terminal2 =>
      if eqb terminal1 terminal2 then Ok tt else Err StateResolveConflict
  | TyRoot, TyRoot => Ok tt
  | _, _ => Err StateResolveConflict
  end.

(** lr_state_map.rs:16-28 *)
Definition insert_state_and_type (state : nat) (ty : state_ty T)
    (map : hash_map nat (state_ty T)) : outcome E (hash_map nat (state_ty T)) :=
  match hm_get state map with
  | Some entry => _ <- verify_compatible entry ty ;; Ok map
  | None => Ok (hm_insert_vacant state ty map)
  end.

(** [insert_state_and_type(state, ty, &mut state_map[i])?]. *)
Definition insert_at (maps : list (hash_map nat (state_ty T))) (i state : nat) (ty : state_ty T)
  : outcome E (list (hash_map nat (state_ty T))) :=
  map <- index maps i ;;
  map' <- insert_state_and_type state ty map ;;
  store maps i map'.

(** lr_state_map.rs:68-84.  [order] is the order in which the hash map
    enumerates its entries. *)
Definition build_from_state_map (order : hash_map nat (state_ty T) -> list (nat * state_ty T))
    (map : hash_map nat (state_ty T)) : outcome E (state_info T) :=
  match order map with
  | [] => Err UnresolvedStates
  | (state1, return_type) :: iter =>
      prev <- foldM (fun (prev_states : list nat) (e : nat * state_ty T) =>
          _ <- verify_compatible return_type (snd e) ;;
          Ok (prev_states ++ [fst e])) [state1] iter ;;
      Ok (mk_info prev return_type)
  end.

(** lr_state_map.rs:119-138: one state of the outer loop. *)
Definition map_state (g : indexed_grammar T L) (t : lr_table)
    (maps : list (hash_map nat (state_ty T))) (state : nat)
  : outcome E (list (hash_map nat (state_ty T))) :=
  acts <- state_actions t g state ;;
  maps <- foldM (fun maps (e : aug T * action) =>
      match snd e with
      | Shift next_state => insert_at maps next_state state (TyTerminal (fst e))
      | _ => Ok maps
      end) maps acts ;;
  gts <- goto_actions t g state ;;
  foldM (fun maps (e : nat * nat) => insert_at maps (snd e) state (TyReduce (fst e))) maps gts.

(** lr_state_map.rs:103-150; the [LRStateMap] is its vector. *)
Definition build_from_lr_table (order : hash_map nat (state_ty T) -> list (nat * state_ty T))
    (g : indexed_grammar T L) (t : lr_table) : outcome E (list (state_info T)) :=
  let maps := map (fun _ => []) (seq 0 (num_states t)) in
  map0 <- index maps 0 ;;
  maps <- store maps 0 (hm_insert_vacant root_state TyRoot map0) ;;
  maps <- foldM (map_state g t) maps (table_states t) ;;
  _ <- debug_assert (List.length maps =? num_states t) "state_map.len() == lr_table.num_states()" ;;
  mapM (build_from_state_map order) maps.

(** lr_state_map.rs:152-154 *)
Definition state_type {E} (sm : list (state_info T)) (state : nat) : outcome E (state_ty T) :=
  i <- index sm state ;;
  Ok (prev_state_return_type i).

(** lr_state_map.rs:158-160 *)
Definition back_edges {E} (sm : list (state_info T)) (state : nat) : outcome E (list nat) :=
  i <- index sm state ;;
  Ok (prev_states i).

End StateMap.
