(** The state map (C18, C19).  [edge] and [ty_symbol] are in [Spec.States];
    [order] is the order in which a hash map enumerates its entries. *)
From Coq Require Import String List Permutation.
From Verif Require Import Base.Prelude Spec.Grammar Spec.Observers Spec.States Model.Error.
From Verif Require Import Model.Vocabulary Model.IndexedGrammar Model.LRTable Model.StateMap.
From Verif Require Import Proofs.Refutations Proofs.StateMapFinal.
Import ListNotations.
Open Scope string_scope.

(** C18. *)
Theorem C18_state_map_types :
  forall (bm : BuildMode) (T L : Type) (dT : EqDec T) (dL : EqDec L) (g : grammar T L) ig t fuel1 fuel2 order,
  indexed_build fuel1 g = Ok ig -> table_build ig fuel2 = Ok t -> (forall m, Permutation (order m) m) ->
  exists sm, build_from_lr_table order ig t = Ok sm /\ state_type (E := unit) sm root_state = Ok TyRoot /\
  (forall s X, ~ edge ig t s X root_state) /\
  forall s, s < num_states t -> s <> root_state -> exists ty X, state_type (E := unit) sm s = Ok ty /\ ty_symbol ig ty X /\
    (exists s0, edge ig t s0 X s) /\ forall s0 X', edge ig t s0 X' s -> X' = X.
Proof.
  exact (fun bm T L dT dL g ig t fuel1 fuel2 order Hg Ht => @state_map_types bm T L dT dL g ig t fuel1 fuel2 Hg Ht order).
Qed.
Print Assumptions C18_state_map_types.

(** C19. *)
Theorem C19_back_edges_exact :
  forall (bm : BuildMode) (T L : Type) (dT : EqDec T) (dL : EqDec L) (g : grammar T L) ig t fuel1 fuel2 order sm s,
  indexed_build fuel1 g = Ok ig -> table_build ig fuel2 = Ok t -> (forall m, Permutation (order m) m) ->
  build_from_lr_table order ig t = Ok sm -> s < num_states t ->
  exists l, back_edges (E := unit) sm s = Ok l /\ NoDup l /\
    forall s0, In s0 l <-> (exists X, edge ig t s0 X s) \/ s0 = root_state /\ s = root_state.
Proof.
  exact (fun bm T L dT dL g ig t fuel1 fuel2 order sm s Hg Ht => @state_map_back_edges bm T L dT dL g ig t fuel1 fuel2 Hg Ht order sm s).
Qed.
Print Assumptions C19_back_edges_exact.

Example C18_C19_example : exists ig t sm, indexed_build (bm := true) 50 opt_list = Ok ig /\ table_build (bm := true) ig 50 = Ok t /\
  build_from_lr_table (bm := true) (fun m => rev m) ig t = Ok sm /\ (forall m : list (nat * state_ty string), Permutation (rev m) m) /\
  map (fun s => (state_type (E := unit) sm s, back_edges (E := unit) sm s)) (seq 0 5) =
    [(Ok TyRoot, Ok [0]); (Ok (TyReduce 1), Ok [0]); (Ok (TyTerminal (Token "a")), Ok [2; 0]); (Ok (TyReduce 2), Ok [1]);
     (Ok (TyTerminal (Token "(")), Ok [1])].
Proof.
  eexists; eexists; eexists. split; [vm_compute; reflexivity|]. split; [vm_compute; reflexivity|]. split; [vm_compute; reflexivity|].
  split; [intros m; apply Permutation_sym, Permutation_rev|]. reflexivity.
Qed.
