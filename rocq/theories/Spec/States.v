(** The states of the builder and of the finished table, by the viable prefixes
    that lead to them. *)
From Coq Require Import List.
From Verif Require Import Base.Prelude Spec.Grammar Spec.Observers Model.Error Model.BitSet Model.FixedMap Model.Vocabulary.
From Verif Require Import Model.IndexedGrammar Model.FirstMap Model.Position Model.Closure Model.LRTable Model.StateMap.
Import ListNotations.

Section States.
Context {bm : BuildMode} {T L : Type} `{EqDec T}.
Variable ig : indexed_grammar T L.

(** [reached γ k]: starting with the initial kernel, partitioning the closure by
    the next node and advancing one class, following [γ], gives the kernel [k]. *)
Inductive reached (F : first_table) : list (node T L) -> kernel -> Prop :=
| reached_root k : initial_kernel ig = Ok k -> reached F [] k
| reached_next γ k fuel parts id ps X' X ps' : reached F γ k ->
    partition_closure_by_next_node (E := lr_error T L) ig F fuel k = Ok parts ->
    In (id, ps) (sm_iter parts) -> static_from_id id (vocab_size (ivocab ig)) = Some X' -> node_back ig X' X ->
    advance_all (E := lr_error T L) ig ps = Ok ps' -> reached F (γ ++ [X]) (kernel_new ps').

(** The partitioned closure has a position in rule [i] of the source grammar,
    before node [p]; it has one whose follow set contains [a]. *)
Definition holds (parts : sparse_map nat (list position)) (i p : nat) : Prop :=
  exists id ps q ir, In (id, ps) (sm_iter parts) /\ In q ps /\
    nth_error (rules ig) (production_id q) = Some ir /\ original_index ir = i /\ pos q = p.
Definition holds_before (parts : sparse_map nat (list position)) (i p : nat) (a : aug T) : Prop :=
  exists id ps q ir a', In (id, ps) (sm_iter parts) /\ In q ps /\
    nth_error (rules ig) (production_id q) = Some ir /\ original_index ir = i /\ pos q = p /\
    augmented_token_to_id (ivocab ig) a = Some a' /\ vs_has (E := unit) (follow_set q) a' = Ok true.

(** Following shifts and gotos of the finished table along [γ] ends in state [s]. *)
Inductive leads (t : lr_table) : list (node T L) -> nat -> Prop :=
| leads_root : leads t [] root_state
| leads_shift γ s a a' s' : leads t γ s -> augmented_token_to_id (ivocab ig) a = Some a' ->
    get_action (E := unit) t s a' = Ok (Some (Shift s')) -> leads t (γ ++ [Terminal a]) s'
| leads_goto γ s l k s' : leads t γ s -> @orig_production_label unit T L ig k = Ok l ->
    get_goto (E := unit) t s k = Ok (Some s') -> leads t (γ ++ [Production l]) s'.

(** The table has an edge labelled [X] from [s] to [s']. *)
Inductive edge (t : lr_table) (s : nat) : node T L -> nat -> Prop :=
| edge_shift a a' s' : augmented_token_to_id (ivocab ig) a = Some a' ->
    get_action (E := unit) t s a' = Ok (Some (Shift s')) -> edge t s (Terminal a) s'
| edge_goto l k s' : @orig_production_label unit T L ig k = Ok l ->
    get_goto (E := unit) t s k = Ok (Some s') -> edge t s (Production l) s'.

(** The symbol a state type stands for. *)
Inductive ty_symbol : state_ty T -> node T L -> Prop :=
| ty_terminal a : ty_symbol (TyTerminal a) (Terminal a)
| ty_reduce k l : @orig_production_label unit T L ig k = Ok l -> ty_symbol (TyReduce k) (Production l).
End States.
