(** What can be observed of an indexed grammar through its public accessors. *)
From Coq Require Import List.
From Verif Require Import Base.Prelude Spec.Grammar Spec.LR1 Model.Error Model.BitSet Model.Vocabulary Model.IndexedGrammar Model.FirstMap.
Import ListNotations.

(** The node [nd'] of an indexed rule is, mapped back through [id_to_token] and
    [orig_production_label], the node [nd]. *)
Definition node_back {T L} (ig : indexed_grammar T L) (nd' : inode) (nd : node T L) : Prop :=
  match nd', nd with
  | Terminal i, Terminal a => @id_to_token unit T (ivocab ig) i = Ok a
  | Production k, Production l => @orig_production_label unit T L ig k = Ok l
  | _, _ => False
  end.

(** The FIRST table [F] says that [l] can begin with [a] (or, if [a] is
    [Epsilon], that it can vanish). *)
Definition first_has {bm : BuildMode} {T L} `{EqDec T} (ig : indexed_grammar T L) (F : first_table) (l : L) (a : aug T) : Prop :=
  exists k i s, @orig_production_label unit T L ig k = Ok l /\ augmented_token_to_id (ivocab ig) a = Some i /\
    first_set (E := unit) F k = Ok s /\ vs_has (E := unit) s i = Ok true.

(** The FIRST table computed for [g] misses nothing. *)
Definition first_complete {bm : BuildMode} {T L} `{EqDec T} `{EqDec L} (g : grammar T L) : Prop :=
  forall fuel ig F, indexed_build fuel g = Ok ig -> first_build (E := lr_error T L) fuel ig = Ok F ->
  forall l, (forall a, begins g [Production l] a -> first_has ig F l a) /\
    (vanishes g [Production l] -> first_has ig F l Epsilon).

(** Rule [j] of the indexed grammar is rule [i] of the source. *)
Definition rule_of {T L} (ig : indexed_grammar T L) (j i : nat) : Prop :=
  exists ir, nth_error (rules ig) j = Some ir /\ original_index ir = i.

(** The error [e] names two actions that one viable prefix really calls for;
    [reduces] and [shifts] say which actions those are. *)
Definition genuine {T L} (ig : indexed_grammar T L)
    (reduces : list (node T L) -> nat -> aug T -> Prop) (shifts : list (node T L) -> aug T -> Prop) (e : lr_error T L) : Prop :=
  match e with
  | ReduceConflict j1 j2 a => exists γ i1 i2, rule_of ig j1 i1 /\ rule_of ig j2 i2 /\ i1 <> i2 /\ reduces γ i1 a /\ reduces γ i2 a
  | ShiftReduceConflict j a => exists γ i, rule_of ig j i /\ shifts γ a /\ reduces γ i a
  | _ => False
  end.
