(** The printed table (C45) and the symbols of its edges (C46).  [shows_table]
    and [aligned] are in [Spec.TableText], [edge] in [Spec.States]. *)
From Coq Require Import String Ascii List.
From Verif Require Import Base.Prelude Spec.Grammar Spec.States Spec.TableText Model.Error.
From Verif Require Import Model.Vocabulary Model.IndexedGrammar Model.LRTable Model.TableText.
From Verif Require Import Proofs.Refutations Proofs.UsedTokens Proofs.TableText.
Import ListNotations.
Open Scope string_scope.

(** C45. *)
Theorem C45_table_text :
  forall (bm : BuildMode) (T L : Type) (dT : EqDec T) (dL : EqDec L) (g : grammar T L) ig t fuel1 fuel2,
  indexed_build fuel1 g = Ok ig -> table_build ig fuel2 = Ok t ->
  exists text, table_text (E := unit) t = Ok text /\ shows_table t (vocab_size (ivocab ig)) (labels_count ig) text /\ aligned text.
Proof. exact (fun bm T L dT dL g ig t fuel1 fuel2 => @table_text_ok bm T L dT dL g ig t fuel1 fuel2 unit). Qed.
Print Assumptions C45_table_text.

Theorem C45_text_determines_table :
  forall (bm : BuildMode) (T1 L1 T2 L2 : Type) (dT1 : EqDec T1) (dL1 : EqDec L1) (dT2 : EqDec T2) (dL2 : EqDec L2)
    (g1 : grammar T1 L1) (g2 : grammar T2 L2) ig1 ig2 t1 t2 fuel1 fuel1' fuel2 fuel2' text,
  indexed_build fuel1 g1 = Ok ig1 -> table_build ig1 fuel1' = Ok t1 ->
  indexed_build fuel2 g2 = Ok ig2 -> table_build ig2 fuel2' = Ok t2 ->
  table_text (E := unit) t1 = Ok text -> table_text (E := unit) t2 = Ok text -> t1 = t2.
Proof.
  exact (fun bm T1 L1 T2 L2 dT1 dL1 dT2 dL2 g1 g2 ig1 ig2 t1 t2 f1 f1' f2 f2' text =>
    @text_determines_table bm T1 L1 T2 L2 unit dT1 dL1 dT2 dL2 g1 g2 ig1 ig2 t1 t2 f1 f1' f2 f2' text).
Qed.
Print Assumptions C45_text_determines_table.

(** C46. *)
Theorem C46_grammar_tokens :
  forall (bm : BuildMode) (T L : Type) (dT : EqDec T) (dL : EqDec L) (g : grammar T L) ig fuel tok, indexed_build fuel g = Ok ig ->
  ((exists i, token_to_id (ivocab ig) tok = Some i) <-> exists r, In r g /\ In (Terminal (Token tok)) (rhs r)).
Proof. exact (fun bm T L dT dL g ig fuel tok Hig => @grammar_tokens bm T L dT dL g ig fuel Hig tok). Qed.
Print Assumptions C46_grammar_tokens.

Theorem C46_symbols_label_edges :
  forall (bm : BuildMode) (T L : Type) (dT : EqDec T) (dL : EqDec L) (g : grammar T L) ig t fuel1 fuel2 X,
  indexed_build fuel1 g = Ok ig -> table_build ig fuel2 = Ok t ->
  ((exists s s', edge ig t s X s') <-> X <> Terminal Epsilon /\ exists r, In r g /\ In X (rhs r)).
Proof. exact (fun bm T L dT dL g ig t fuel1 fuel2 X Hig Ht => @symbols_label_edges bm T L dT dL g ig t fuel1 fuel2 Hig Ht X). Qed.
Print Assumptions C46_symbols_label_edges.

(** The table of [S -> L M; L -> !; L -> a L !; M -> !; M -> ( L )]. *)
Example C45_C46_example : exists ig t, indexed_build (bm := true) 50 opt_list = Ok ig /\ table_build (bm := true) ig 50 = Ok t /\
  table_text (bm := true) (E := unit) t = Ok (String.concat newline_text [
    "    $   0   1   2   ";
    " 0: r1  s2  r1  _   : _     GO(1) _    ";
    " 1: r3  _   s4  _   : _     _     GO(3)";
    " 2: r1  s2  r1  _   : _     GO(5) _    ";
    " 3: acc _   _   _   : _     _     _    ";
    " 4: _   s7  _   r1  : _     GO(6) _    ";
    " 5: r2  _   r2  _   : _     _     _    ";
    " 6: _   _   _   s8  : _     _     _    ";
    " 7: _   s7  _   r1  : _     GO(9) _    ";
    " 8: r4  _   _   _   : _     _     _    ";
    " 9: _   _   _   r2  : _     _     _    "]) /\
  token_to_id (ivocab ig) ")" = Some 2 /\ edge (bm := true) ig t 6 (Terminal (Token ")")) 8.
Proof.
  eexists; eexists. split; [vm_compute; reflexivity|]. split; [vm_compute; reflexivity|]. split; [vm_compute; reflexivity|].
  split; [vm_compute; reflexivity|]. eapply edge_shift; vm_compute; reflexivity.
Qed.
