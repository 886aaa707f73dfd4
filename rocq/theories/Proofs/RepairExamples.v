(** The grammars of [Refutations], with the repaired line. *)
From Coq Require Import Arith Bool String NArith List Lia.
From Verif Require Import Base.Prelude Spec.Grammar Spec.Validity Spec.Nullable Spec.Observers Model.Error.
From Verif Require Import Model.BitSet Model.FixedMap Model.Vocabulary Model.IndexedGrammar Model.FirstMap.
From Verif Require Import Model.Position Model.Closure Model.LRTable Model.ParseSimulator.
From Verif Require Import Proofs.Fuel Proofs.Refutations Spec.LR1 Proofs.LR1Final Proofs.LR1Refute Spec.Repair Proofs.Repair.
Import ListNotations.
Open Scope string_scope.

Definition answers {bm : BuildMode} (m : outcome (lr_error string string) (parser string string)) (w : list string) : option bool :=
  match m with Ok p => match parse_stream (E := unit) 50 p w with Ok b => Some b | _ => None end | _ => None end.

Lemma runs_both {bm : BuildMode} (g : grammar string string) w :
  (answers (parser_new 50 g) w, answers (parser_new_repaired 50 g) w) = (Some false, Some true) ->
  exists p p', parser_new 50 g = Ok p /\ parse_stream (E := unit) 50 p w = Ok false /\
    parser_new_repaired 50 g = Ok p' /\ parse_stream (E := unit) 50 p' w = Ok true.
Proof.
  unfold answers. destruct (parser_new 50 g) as [p| | |]; try discriminate. destruct (parser_new_repaired 50 g) as [p'| | |]; try discriminate;
    [|destruct (parse_stream 50 p w); discriminate..].
  intros Hr. exists p, p'. split; auto. destruct (parse_stream (E := unit) 50 p w); try discriminate.
  destruct (parse_stream (E := unit) 50 p' w); try discriminate. injection Hr as -> ->. auto.
Qed.

Lemma errs {bm : BuildMode} (g : grammar string string) :
  match parser_new_repaired 50 g with Err _ => true | _ => false end = true -> exists e, parser_new_repaired 50 g = Err e.
Proof. destruct (parser_new_repaired 50 g); try discriminate. eauto. Qed.

(** [S -> A A; A -> B c; B -> !]: "cc" is rejected by the code, accepted when repaired. *)
Lemma repair_needed (bm : BuildMode) : exists (g : grammar string string) w p p', no_eos g /\ eps_trailing g /\ productive g /\
  (forall r, nth_error g 0 = Some r -> ~ uses r (symbol r)) /\ language g w /\
  parser_new 50 g = Ok p /\ parse_stream (E := unit) 50 p w = Ok false /\
  parser_new_repaired 50 g = Ok p' /\ parse_stream (E := unit) 50 p' w = Ok true.
Proof.
  exists g_first, w_first.
  assert (Hp : exists p p', parser_new 50 g_first = Ok p /\ parse_stream (E := unit) 50 p w_first = Ok false /\
    parser_new_repaired 50 g_first = Ok p' /\ parse_stream (E := unit) 50 p' w_first = Ok true).
  { apply runs_both. destruct bm; vm_compute; reflexivity. }
  destruct Hp as (p & p' & H1 & H2 & H3 & H4). exists p, p'.
  split; [apply no_eos_ok; reflexivity|]. split; [apply eps_trailing_ok; reflexivity|].
  split. { apply (productive_ok _ (fun i => nth i [t_first; Node 1 [Node 2 []; Leaf "c"]; Node 2 []] (Leaf "")) 10). vm_compute. reflexivity. }
  split. { intros r Hr. injection Hr as <-. intros [Hx|[Hx|[]]]; discriminate. }
  split; [exists t_first; apply (check_tree_ok _ 10); reflexivity|]. auto.
Qed.

(** [S -> T; T -> X A | Y A; X -> !; Y -> !; A -> B c; B -> !]: ambiguous; accepted by the
    code, rejected when repaired. *)
Lemma repair_rejects (bm : BuildMode) : exists (g : grammar string string) w t1 t2 p e, no_eos g /\ eps_trailing g /\
  parses g w t1 /\ parses g w t2 /\ t1 <> t2 /\ parser_new 50 g = Ok p /\ parser_new_repaired 50 g = Err e /\
  exists ig, indexed_build 50 g = Ok ig /\ genuine ig (may_reduce g) (may_shift g) e.
Proof.
  assert (Hp : exists p, parser_new 50 g_ambig = Ok p) by (apply builds_ok; destruct bm; vm_compute; reflexivity).
  destruct Hp as (p & Hp).
  assert (He : exists e, parser_new_repaired 50 g_ambig = Err e) by (apply errs; destruct bm; vm_compute; reflexivity).
  destruct He as (e & He).
  exists g_ambig, ["c"], (Node 0 [Node 1 [Node 3 []; Node 5 [Node 6 []; Leaf "c"]]]), (Node 0 [Node 2 [Node 4 []; Node 5 [Node 6 []; Leaf "c"]]]), p, e.
  assert (Heps : eps_trailing g_ambig) by (apply eps_trailing_ok; reflexivity).
  split; [apply no_eos_ok; reflexivity|]. split; [auto|].
  split; [apply (check_tree_ok _ 10); reflexivity|]. split; [apply (check_tree_ok _ 10); reflexivity|]. split; [discriminate|].
  split; [auto|]. split; [auto|]. destruct (repaired_errors _ _ _ Heps He) as [Hx|Hx]; auto.
  exfalso. unfold parser_new in Hp. rewrite Hx in Hp. discriminate.
Qed.

(** The optional lists, whose FIRST sets are complete as it is. *)
Lemma repair_keeps (bm : BuildMode) : first_complete opt_list /\ exists p, parser_new 50 opt_list = Ok p /\ parser_new_repaired 50 opt_list = Ok p.
Proof.
  split; [apply direct_first_complete, opt_list_ok|].
  assert (Hp : exists p, parser_new 50 opt_list = Ok p) by (apply builds_ok; destruct bm; vm_compute; reflexivity).
  destruct Hp as (p & Hp). exists p. split; [exact Hp|]. rewrite <- Hp. destruct bm; vm_compute; reflexivity.
Qed.
