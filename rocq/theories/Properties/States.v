(** The builder's states and the finished table (C15-C17).  [reached], [holds],
    [leads] are in [Spec.States]. *)
From Coq Require Import String List Permutation.
From Verif Require Import Base.Prelude Spec.Grammar Spec.Validity Spec.Nullable Spec.Observers Spec.States Model.Error.
From Verif Require Import Model.BitSet Model.FixedMap Model.Vocabulary Model.IndexedGrammar Model.FirstMap Model.Position Model.Closure Model.LRTable.
From Verif Require Import Proofs.ItemSets Proofs.Refutations Proofs.LR1Final Proofs.LR1Refute Proofs.StatesFinal Proofs.TableFinal Proofs.StatesRefute Spec.LR1.
Import ListNotations.
Open Scope string_scope.

(** C15.  The positions of a state are exactly the items of every prefix leading
    to it, and no follow set has a token too many. *)
Theorem C15_state_positions_partial :
  forall (bm : BuildMode) (T L : Type) (dT : EqDec T) (dL : EqDec L) (g : grammar T L) ig F fuel1 fuel2 fuel3 γ k parts,
  indexed_build fuel1 g = Ok ig -> first_build (E := lr_error T L) fuel2 ig = Ok F -> eps_trailing g -> reached ig F γ k ->
  partition_closure_by_next_node (E := lr_error T L) ig F fuel3 k = Ok parts ->
  (forall i p, holds ig parts i p <-> item g γ i p) /\ (forall i p a, holds_before ig parts i p a -> lookahead g γ i p a).
Proof.
  exact (fun bm T L dT dL g ig F fuel1 fuel2 fuel3 γ k parts Hg HF He Hr Hp =>
    @state_positions_exact bm T L dT dL g ig F fuel1 fuel2 Hg HF γ k fuel3 parts He Hr Hp).
Qed.
Print Assumptions C15_state_positions_partial.

(** If FIRST sets miss nothing, no follow set has a token too few. *)
Theorem C15_state_lookaheads_partial :
  forall (bm : BuildMode) (T L : Type) (dT : EqDec T) (dL : EqDec L) (g : grammar T L) ig F fuel1 fuel2 fuel3 γ k parts,
  indexed_build fuel1 g = Ok ig -> first_build (E := lr_error T L) fuel2 ig = Ok F -> eps_trailing g -> first_complete g -> reached ig F γ k ->
  partition_closure_by_next_node (E := lr_error T L) ig F fuel3 k = Ok parts ->
  forall i p a, holds_before ig parts i p a <-> lookahead g γ i p a.
Proof.
  exact (fun bm T L dT dL g ig F fuel1 fuel2 fuel3 γ k parts Hg HF He Hf Hr Hp =>
    @state_lookaheads_exact bm T L dT dL g ig F fuel1 fuel2 Hg HF γ k fuel3 parts He Hf Hr Hp).
Qed.
Print Assumptions C15_state_lookaheads_partial.

(** If, besides, every label derives some word: the textbook's LR(1) items. *)
Theorem C15_state_lr1_items_partial :
  forall (bm : BuildMode) (T L : Type) (dT : EqDec T) (dL : EqDec L) (g : grammar T L) ig F fuel1 fuel2 fuel3 γ k parts,
  indexed_build fuel1 g = Ok ig -> first_build (E := lr_error T L) fuel2 ig = Ok F -> eps_trailing g -> first_complete g -> productive g ->
  reached ig F γ k -> partition_closure_by_next_node (E := lr_error T L) ig F fuel3 k = Ok parts ->
  forall i p a, holds_before ig parts i p a <-> lr1_item g γ i p a.
Proof.
  exact (fun bm T L dT dL g ig F fuel1 fuel2 fuel3 γ k parts Hg HF He Hf Hpr Hr Hp =>
    @state_lookaheads_lr1 bm T L dT dL g ig F fuel1 fuel2 Hg HF γ k fuel3 parts He Hf Hpr Hr Hp).
Qed.
Print Assumptions C15_state_lr1_items_partial.

(** Every prefix that has an item has a state. *)
Theorem C15_states_exist_partial :
  forall (bm : BuildMode) (T L : Type) (dT : EqDec T) (dL : EqDec L) (g : grammar T L) ig F fuel1 fuel2 γ,
  indexed_build fuel1 g = Ok ig -> first_build (E := lr_error T L) fuel2 ig = Ok F -> eps_trailing g ->
  (exists i p, item g γ i p) -> exists k fuel3 parts, reached ig F γ k /\
    partition_closure_by_next_node (E := lr_error T L) ig F fuel3 k = Ok parts.
Proof.
  exact (fun bm T L dT dL g ig F fuel1 fuel2 γ Hg HF He Hi => @states_exist bm T L dT dL g ig F fuel1 fuel2 Hg HF γ He Hi).
Qed.
Print Assumptions C15_states_exist_partial.

(** Without the two hypotheses C15 is false: a lookahead is missing because of
    the FIRST bug; a state has no item because of an epsilon node before a
    token. *)
Theorem C15_state_lookaheads_refuted :
  forall bm : BuildMode, exists (g : grammar string string) ig F k parts i p a, no_eos g /\ eps_trailing g /\ productive g /\
  indexed_build 50 g = Ok ig /\ first_build (E := lr_error string string) 50 ig = Ok F /\ reached ig F [] k /\
  partition_closure_by_next_node (E := lr_error string string) ig F 50 k = Ok parts /\
  lookahead g [] i p a /\ ~ holds_before ig parts i p a.
Proof. exact lookahead_missing. Qed.
Print Assumptions C15_state_lookaheads_refuted.

Theorem C15_state_positions_refuted :
  forall bm : BuildMode, exists (g : grammar string string) ig F k γ, no_eos g /\ indexed_build 50 g = Ok ig /\
  first_build (E := lr_error string string) 50 ig = Ok F /\ reached ig F γ k /\ forall i p, ~ item g γ i p.
Proof. exact reached_no_item. Qed.
Print Assumptions C15_state_positions_refuted.

Example C15_example : eps_trailing opt_list /\ first_complete (bm := true) opt_list /\ productive opt_list /\
  item opt_list [nt "L"; tk "("] 2 0 /\ lookahead opt_list [nt "L"; tk "("] 2 0 (Token ")") /\
  exists ig F t, indexed_build (bm := true) 50 opt_list = Ok ig /\
    first_build (bm := true) (E := lr_error string string) 50 ig = Ok F /\ table_build (bm := true) ig 50 = Ok t /\ num_states t = 10.
Proof.
  destruct opt_list_ok as (_ & H2 & H3 & _).
  exact (conj H2 (conj (direct_first_complete (bm := true) _ H3) (conj opt_list_productive (conj (proj1 opt_list_item) (conj (proj2 opt_list_item) (opt_list_states true)))))).
Qed.

(** C16.  The states of the table are those some prefix leads to. *)
Theorem C16_states_reachable :
  forall (bm : BuildMode) (T L : Type) (dT : EqDec T) (dL : EqDec L) (g : grammar T L) ig t fuel1 fuel2,
  indexed_build fuel1 g = Ok ig -> table_build ig fuel2 = Ok t -> forall s, s < num_states t <-> exists γ, leads ig t γ s.
Proof. exact (fun bm T L dT dL g ig t fuel1 fuel2 Hg Ht => @states_reachable bm T L dT dL g ig t fuel1 fuel2 Hg Ht). Qed.
Print Assumptions C16_states_reachable.

(** Two prefixes lead to the same state exactly if the builder makes the same
    kernel of them (and it makes a kernel of every such prefix).  The first rule
    must not mention its own label; the code panics on most grammars where it
    does (C04). *)
Theorem C16_states_are_kernels :
  forall (bm : BuildMode) (T L : Type) (dT : EqDec T) (dL : EqDec L) (g : grammar T L) ig t F fuel1 fuel2 γ s γ' s' k k',
  indexed_build fuel1 g = Ok ig -> table_build ig fuel2 = Ok t -> first_build (E := lr_error T L) fuel2 ig = Ok F ->
  (forall r, nth_error g 0 = Some r -> ~ uses r (symbol r)) ->
  leads ig t γ s -> leads ig t γ' s' -> reached ig F γ k -> reached ig F γ' k' -> (s = s' <-> k = k').
Proof.
  exact (fun bm T L dT dL g ig t F fuel1 fuel2 γ s γ' s' k k' Hg Ht HF =>
    @states_kernels bm T L dT dL g ig t fuel1 fuel2 Hg Ht F γ s γ' s' k k' HF).
Qed.
Print Assumptions C16_states_are_kernels.

Theorem C16_prefixes_have_kernels :
  forall (bm : BuildMode) (T L : Type) (dT : EqDec T) (dL : EqDec L) (g : grammar T L) ig t F fuel1 fuel2 γ s,
  indexed_build fuel1 g = Ok ig -> table_build ig fuel2 = Ok t -> first_build (E := lr_error T L) fuel2 ig = Ok F ->
  leads ig t γ s -> exists k, reached ig F γ k.
Proof.
  exact (fun bm T L dT dL g ig t F fuel1 fuel2 γ s Hg Ht HF => @leads_reached bm T L dT dL g ig t fuel1 fuel2 Hg Ht F γ s HF).
Qed.
Print Assumptions C16_prefixes_have_kernels.

(** With the hypotheses of C15: exactly if the two prefixes have the same items
    and lookaheads. *)
Theorem C16_states_are_item_sets :
  forall (bm : BuildMode) (T L : Type) (dT : EqDec T) (dL : EqDec L) (g : grammar T L) ig t fuel1 fuel2 γ s γ' s',
  indexed_build fuel1 g = Ok ig -> table_build ig fuel2 = Ok t -> eps_trailing g -> first_complete g ->
  (forall r, nth_error g 0 = Some r -> ~ uses r (symbol r)) -> leads ig t γ s -> leads ig t γ' s' ->
  (s = s' <-> (forall i p, item g γ i p <-> item g γ' i p) /\ (forall i p a, lookahead g γ i p a <-> lookahead g γ' i p a)).
Proof.
  exact (fun bm T L dT dL g ig t fuel1 fuel2 γ s γ' s' Hg Ht => @states_items bm T L dT dL g ig t fuel1 fuel2 Hg Ht γ s γ' s').
Qed.
Print Assumptions C16_states_are_item_sets.

(** A kernel does not depend on the order in which its positions were found. *)
Theorem C16_kernel_order_free :
  forall ps ps' : list position, NoDup (map (fun q => (production_id q, pos q)) ps) -> Permutation ps ps' -> kernel_new ps = kernel_new ps'.
Proof. exact kernel_new_order_free. Qed.
Print Assumptions C16_kernel_order_free.

Example C16_example : eps_trailing opt_list /\ first_complete (bm := true) opt_list /\
  (forall r, nth_error opt_list 0 = Some r -> ~ uses r (symbol r)) /\
  exists ig F t, indexed_build (bm := true) 50 opt_list = Ok ig /\
    first_build (bm := true) (E := lr_error string string) 50 ig = Ok F /\ table_build (bm := true) ig 50 = Ok t /\ num_states t = 10.
Proof.
  destruct opt_list_ok as (_ & H2 & H3 & _).
  exact (conj H2 (conj (direct_first_complete (bm := true) _ H3) (conj opt_list_root (opt_list_states true)))).
Qed.

(** C17. *)
Theorem C17_accessors_agree :
  forall (bm : BuildMode) (T L E : Type) (dT : EqDec T) (dL : EqDec L) (g : grammar T L) ig t fuel1 fuel2 s,
  indexed_build fuel1 g = Ok ig -> table_build ig fuel2 = Ok t -> s < num_states t ->
  (forall a a', augmented_token_to_id (ivocab ig) a = Some a' -> exists o, get_action (E := E) t s a' = Ok o) /\
  (forall k l, @orig_production_label unit T L ig k = Ok l -> exists o, get_goto (E := E) t s k = Ok o) /\
  (exists acts, state_actions (E := E) t ig s = Ok acts /\ NoDup (map fst acts) /\
     forall a act, In (a, act) acts <-> exists a', augmented_token_to_id (ivocab ig) a = Some a' /\ get_action (E := E) t s a' = Ok (Some act)) /\
  (exists gts, goto_actions (E := E) t ig s = Ok gts /\ NoDup (map fst gts) /\
     forall k s', In (k, s') gts <-> (exists l, @orig_production_label unit T L ig k = Ok l) /\ get_goto (E := E) t s k = Ok (Some s')) /\
  (forall a a' s', augmented_token_to_id (ivocab ig) a = Some a' -> get_action (E := E) t s a' = Ok (Some (Shift s')) -> s' < num_states t) /\
  (forall a a' j, augmented_token_to_id (ivocab ig) a = Some a' -> get_action (E := E) t s a' = Ok (Some (Reduce j)) -> 0 < j < List.length (rules ig)) /\
  (forall k l s', @orig_production_label unit T L ig k = Ok l -> get_goto (E := E) t s k = Ok (Some s') -> s' < num_states t).
Proof.
  exact (fun bm T L E dT dL g ig t fuel1 fuel2 s Hg Ht => @accessors bm T L dT dL g ig t fuel1 fuel2 Hg Ht E s).
Qed.
Print Assumptions C17_accessors_agree.

Example C17_example : exists ig F t, indexed_build (bm := true) 50 opt_list = Ok ig /\
  first_build (bm := true) (E := lr_error string string) 50 ig = Ok F /\ table_build (bm := true) ig 50 = Ok t /\ num_states t = 10.
Proof. exact (opt_list_states true). Qed.
