(** Model of lr_table/src/indexed_grammar.rs. *)
From Coq Require Import Arith Bool String NArith List.
From Verif Require Import Base.Prelude Spec.Grammar Model.Error.
From Verif Require Import Model.BitSet Model.FixedMap Model.Vocabulary.
Import ListNotations.

(** indexed_grammar.rs:13-53: [ProductionLabel], [ProductionRuleId] and
    [TokenId] are their numbers. *)
Definition inode := node nat nat.

(** indexed_grammar.rs:55-90 [IndexedProductionRule] *)
Record indexed_rule := mk_indexed_rule {
  irule : rule nat nat;
  original_index : nat;
}.
Definition isymbol (r : indexed_rule) : nat := symbol (irule r).
Definition irhs (r : indexed_rule) : list inode := rhs (irule r).
(** indexed_grammar.rs:85-89, grammar.rs:39-41 *)
Definition rules_excluding_epsilon (r : indexed_rule) : list inode :=
  filter (fun n => negb (is_epsilon n)) (irhs r).

(** indexed_grammar.rs:167-174 [RuleMetadata] *)
Record rule_meta (L : Type) := mk_meta {
  start_index : nat;
  end_index : nat;
  original_label : L;
}.
Arguments mk_meta {L}.
Arguments start_index {L}.
Arguments end_index {L}.
Arguments original_label {L}.

(** indexed_grammar.rs:176-180 [IndexedGrammar] *)
Record indexed_grammar (T L : Type) := mk_indexed {
  rules : list indexed_rule;
  rule_metadata : list (rule_meta L);
  ivocab : vocab T;
}.
Arguments mk_indexed {T L}.
Arguments rules {T L}.
Arguments rule_metadata {T L}.
Arguments ivocab {T L}.

Section Accessors.
Context {E T L : Type}.

(** indexed_grammar.rs:363-369 *)
Definition root_production_label : nat := 0.
Definition root_production_rule : nat := 0.

(** indexed_grammar.rs:376-378 *)
Definition labels_count (g : indexed_grammar T L) : nat := List.length (rule_metadata g).

(** indexed_grammar.rs:371-373 *)
Definition all_production_labels (g : indexed_grammar T L) : list nat :=
  seq 0 (labels_count g).

(** indexed_grammar.rs:403-405 *)
Definition production_rule (g : indexed_grammar T L) (id : nat) : outcome E indexed_rule :=
  index (rules g) id.

(** indexed_grammar.rs:409-415 *)
Definition production_rule_ids_for_label (g : indexed_grammar T L) (label : nat)
  : outcome E (list nat) :=
  meta <- index (rule_metadata g) label ;;
  Ok (seq (start_index meta) (end_index meta - start_index meta)).

(** indexed_grammar.rs:419-426.  The Rust iterator indexes [rules] lazily;
    here all rules are looked up first. *)
Definition production_rules_for_label (g : indexed_grammar T L) (label : nat)
  : outcome E (list indexed_rule) :=
  ids <- production_rule_ids_for_label g label ;;
  mapM (production_rule g) ids.

(** indexed_grammar.rs:430-432 *)
Definition orig_production_label (g : indexed_grammar T L) (label : nat) : outcome E L :=
  meta <- index (rule_metadata g) label ;; Ok (original_label meta).

End Accessors.

(** indexed_grammar.rs:96-165 [SparsePartitionMap]: a sparse map keyed by
    [usize] ids of next-node categories. *)
(** indexed_grammar.rs:109-115 *)
Definition static_id (category : option inode) (vsize : nat) : nat :=
  match category with
  | Some (Production label) => vsize + 1 + label
  | Some (Terminal terminal) => label_id terminal + 1
  | None => 0
  end.

(** indexed_grammar.rs:117-129 *)
Definition static_from_id (id vsize : nat) : option inode :=
  if id =? 0 then None
  else if id <=? vsize then Some (Terminal (aug_from_id (id - 1)))
  else Some (Production (id - (vsize + 1))).

(** indexed_grammar.rs:195-198 [LabelGroup] *)
Notation label_group T L := (prod L (list (prod (rule T L) nat))).

Section Build.
Context {bm : BuildMode} {T L : Type} `{EqDec T} `{EqDec L}.
Let E := lr_error T L.

(** indexed_grammar.rs:214-221 *)
Definition references (root : L) (r : rule T L) : bool :=
  existsb (fun n => match n with Production l => eqb l root | Terminal _ => false end) (rhs r).

(** indexed_grammar.rs:209-244: one round of the loop over the productions
    after the first. *)
Definition add_production (root : rule T L)
    (st : hash_map L nat * list (label_group T L)) (p : rule T L * nat)
  : outcome E (hash_map L nat * list (label_group T L)) :=
  let '(label_map, label_groups) := st in
  let '(production, original_index) := p in
  let orig_label := symbol production in
  if eqb orig_label (symbol root) then Err (BuildGrammar RootProductionRepeated)
  else if references (symbol root) production then
    Err (BuildGrammar RootProductionReferenced)
  else
    let map_len := List.length label_map in
    let '(label, label_map') :=
      match hm_get orig_label label_map with
      | Some l => (l, label_map)
      | None => (map_len, hm_insert_vacant orig_label map_len label_map)
      end in
    if negb (List.length label_map' =? map_len) then
      _ <- debug_assert (label =? List.length label_groups) "label.0 == label_groups.len()" ;;
      Ok (label_map', label_groups ++ [(orig_label, [(production, original_index)])])
    else
      group <- index label_groups label ;;
      label_groups' <- store label_groups label
        (fst group, snd group ++ [(production, original_index)]) ;;
      Ok (label_map', label_groups').

(** indexed_grammar.rs:262-273: mapping one node. *)
Definition index_node (label_map : hash_map L nat) (v : vocab T) (n : node T L)
  : outcome E (vocab T * inode) :=
  match n with
  | Production user_label =>
      match hm_get user_label label_map with
      | Some l => Ok (v, Production l)
      | None => Err (UnrecognizedLabel user_label)
      end
  | Terminal terminal =>
      let '(v', id) := get_id_or_insert v terminal in
      Ok (v', Terminal id)
  end.

(** indexed_grammar.rs:256-277: mapping one rule. *)
Definition index_rule (label_map : hash_map L nat) (label : nat) (v : vocab T)
    (p : rule T L * nat) : outcome E (vocab T * indexed_rule) :=
  let '(production, original_index) := p in
  '(v', ns) <- map_accumM (index_node label_map) v (rhs production) ;;
  Ok (v', mk_indexed_rule (mk_rule label ns) original_index).

(** indexed_grammar.rs:249-279: mapping one label group. *)
Definition index_group (label_map : hash_map L nat) (v : vocab T)
    (p : nat * label_group T L) : outcome E (vocab T * list indexed_rule) :=
  let '(label, group) := p in
  map_accumM (index_rule label_map label) v (snd group).

(** [iter().enumerate()] *)
Definition enumerate {A} (l : list A) : list (nat * A) := combine (seq 0 (List.length l)) l.

(** indexed_grammar.rs:283-296: the [scan] computing rule ranges. *)
Fixpoint scan_metadata (total : nat) (groups : list (label_group T L)) : list (rule_meta L) :=
  match groups with
  | [] => []
  | (orig, rs) :: groups' =>
      mk_meta total (total + List.length rs) orig :: scan_metadata (total + List.length rs) groups'
  end.

(** indexed_grammar.rs:332-339: visiting the nodes of one rule. *)
Definition visit_node (st : bitset * list nat) (n : inode) : outcome E (bitset * list nat) :=
  let '(rule_set, labels_to_explore) := st in
  match n with
  | Production label =>
      seen <- bs_has rule_set label ;;
      if negb seen then
        rule_set' <- bs_set rule_set label ;;
        Ok (rule_set', label :: labels_to_explore)
      else Ok st
  | Terminal _ => Ok st
  end.

(** indexed_grammar.rs:329-341: one round of the [while let]; the work list is
    kept top first. *)
Definition visit_label (g : indexed_grammar T L) (st : bitset * list nat)
  : outcome E ((bitset * list nat) + bitset) :=
  let '(rule_set, labels_to_explore) := st in
  match labels_to_explore with
  | [] => Ok (inr rule_set)
  | label :: rest =>
      _ <- debug_assertM (bs_has rule_set label) "rule_set.has(&label)" ;;
      rs <- production_rules_for_label g label ;;
      st' <- foldM (fun st r => foldM visit_node st (irhs r)) (rule_set, rest) rs ;;
      Ok (inl st')
  end.

(** indexed_grammar.rs:324-355.  The labels of the error are listed in the
    order of the association list rather than in hash order. *)
Definition verify_connected (fuel : nat) (g : indexed_grammar T L) (label_map : hash_map L nat)
  : outcome E unit :=
  rule_set0 <- bs_set (bs_new (labels_count g)) root_production_label ;;
  rule_set <- while_loop fuel (visit_label g) (rule_set0, [root_production_label]) ;;
  full <- bs_full rule_set ;;
  if full then Ok tt
  else
    disconnected <- foldM (fun acc p =>
        has <- bs_has rule_set (snd p) ;;
        Ok (if has then acc else acc ++ [fst p])) [] label_map ;;
    Err (BuildGrammar (NotConnected disconnected)).

(** indexed_grammar.rs:183-309 *)
Definition build_from_grammar (fuel : nat) (g : grammar T L)
  : outcome E (indexed_grammar T L * hash_map L nat) :=
  match combine g (seq 0 (List.length g)) with
  | [] => Err (BuildGrammar EmptyGrammar)
  | (root_production, root_index) :: productions_iter =>
      let root_label := symbol root_production in
      '(label_map, label_groups) <-
        foldM (add_production root_production)
          ([(root_label, root_production_label)],
           [(root_label, [(root_production, root_index)])])
          productions_iter ;;
      '(v, rss) <- map_accumM (index_group label_map) vocab_empty (enumerate label_groups) ;;
      let g' := mk_indexed (concat rss) (scan_metadata 0 label_groups) v in
      _ <- verify_connected fuel g' label_map ;;
      Ok (g', label_map)
  end.

(** indexed_grammar.rs:318-320 *)
Definition indexed_build (fuel : nat) (g : grammar T L) : outcome E (indexed_grammar T L) :=
  '(ig, _) <- build_from_grammar fuel g ;; Ok ig.

End Build.
