(** C09, C10: grammar validation and indexing. *)
From Coq Require Import Arith Bool String NArith List.
From Verif Require Import Base.Prelude Spec.Grammar Spec.Validity Spec.Observers Model.Error.
From Verif Require Import Model.Vocabulary Model.IndexedGrammar.
From Verif Require Import Proofs.IndexedFinal.
Import ListNotations.

(** C09.  Each outcome of [IndexedGrammar::build] occurs exactly under its
    documented condition; [length g < fuel] is budget enough for every grammar
    [g], so the loop always ends and nothing panics. *)
Theorem C09_validation_exact :
  forall (bm : BuildMode) (T L : Type) (dT : EqDec T) (dL : EqDec L) fuel (g : grammar T L), length g < fuel ->
  let res := indexed_build fuel g in
  ((exists ig, res = Ok ig) <-> valid_grammar g) /\
  (res = Err (BuildGrammar EmptyGrammar) <-> g = []) /\
  (res = Err (BuildGrammar RootProductionRepeated) <->
     exists root rest, g = root :: rest /\ first_offence (symbol root) rest true) /\
  (res = Err (BuildGrammar RootProductionReferenced) <->
     exists root rest, g = root :: rest /\ first_offence (symbol root) rest false) /\
  ((exists l, res = Err (UnrecognizedLabel l)) <->
     exists root rest, g = root :: rest /\ Forall (root_clean (symbol root)) rest /\ ~ labels_defined g) /\
  (forall l, res = Err (UnrecognizedLabel l) -> ~ defined g l /\ exists r, In r g /\ uses r l) /\
  ((exists ls, res = Err (BuildGrammar (NotConnected ls))) <->
     exists root rest, g = root :: rest /\ Forall (root_clean (symbol root)) rest /\ labels_defined g /\
       exists l, defined g l /\ ~ reachable g l) /\
  (forall ls, res = Err (BuildGrammar (NotConnected ls)) -> forall l, In l ls <-> defined g l /\ ~ reachable g l) /\
  ((exists ig, res = Ok ig) \/ exists e, res = Err e).
Proof. exact (fun bm T L dT dL => @validation_exact bm T L dT dL). Qed.
Print Assumptions C09_validation_exact.

Example C09_example_ok :
  exists ig, indexed_build (bm := true) 10 [mk_rule "S" [Production "A"]; mk_rule "A" [Terminal (Token 1)]]%string = Ok ig.
Proof. vm_compute. eexists. reflexivity. Qed.
Example C09_example_not_connected :
  indexed_build (bm := true) 10 [mk_rule "S" [Terminal (Token 1)]; mk_rule "A" [Production "B"]; mk_rule "B" [Terminal (Token 1)]]%string
  = Err (BuildGrammar (NotConnected ["A"; "B"]%string)).
Proof. vm_compute. reflexivity. Qed.

(** C10.  Every original rule appears exactly once, maps back exactly, the
    rules of a label are contiguous and keep source order, rule 0 is the first
    rule, distinct labels stay distinct, and the vocabulary is exactly the
    tokens occurring in the grammar. *)
Theorem C10_indexing_lossless :
  forall (bm : BuildMode) (T L : Type) (dT : EqDec T) (dL : EqDec L) fuel (g : grammar T L) ig,
  indexed_build fuel g = Ok ig ->
  length (rules ig) = length g /\
  (forall i r, nth_error g i = Some r ->
     exists j, forall j', (exists ir, nth_error (rules ig) j' = Some ir /\ original_index ir = i) <-> j' = j) /\
  (forall j ir, nth_error (rules ig) j = Some ir ->
     exists r, nth_error g (original_index ir) = Some r /\
       @orig_production_label unit T L ig (isymbol ir) = Ok (symbol r) /\
       Forall2 (node_back ig) (irhs ir) (rhs r)) /\
  (exists ir, nth_error (rules ig) 0 = Some ir /\ original_index ir = 0 /\ isymbol ir = 0) /\
  (forall l, l < labels_count ig -> exists start len,
     @production_rule_ids_for_label unit T L ig l = Ok (seq start len) /\
     (forall j ir, nth_error (rules ig) j = Some ir -> (In j (seq start len) <-> isymbol ir = l)) /\
     (forall j j' ir ir', nth_error (rules ig) j = Some ir -> nth_error (rules ig) j' = Some ir' ->
        In j (seq start len) -> In j' (seq start len) -> j < j' -> original_index ir < original_index ir')) /\
  (forall k k' l, @orig_production_label unit T L ig k = Ok l -> @orig_production_label unit T L ig k' = Ok l -> k = k') /\
  (forall t, (exists i, token_to_id (ivocab ig) t = Some i) <-> exists r, In r g /\ In (Terminal (Token t)) (rhs r)).
Proof. exact (fun bm T L dT dL => @indexing_lossless bm T L dT dL). Qed.
Print Assumptions C10_indexing_lossless.

(** Rules of one label scattered over the source are collected in order. *)
Example C10_example :
  exists ig, indexed_build (bm := true) 10
    [mk_rule "S" [Production "A"; Production "B"]; mk_rule "A" [Terminal (Token 1)]; mk_rule "B" [Terminal (Token 2)];
     mk_rule "A" [Terminal (Token 2); Production "B"]]%string = Ok ig /\ map original_index (rules ig) = [0; 1; 3; 2].
Proof. vm_compute. eexists. split; reflexivity. Qed.
