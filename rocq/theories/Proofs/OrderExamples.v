(** Grammars whose rules are in a good and in a bad order. *)
From Coq Require Import Arith Bool String NArith List Lia Permutation.
From Verif Require Import Base.Prelude Spec.Grammar Spec.Validity Spec.Nullable Spec.Observers Spec.Early Spec.LR1 Model.Error.
From Verif Require Import Model.BitSet Model.Vocabulary Model.IndexedGrammar Model.FirstMap Model.LRTable Model.ParseSimulator.
From Verif Require Import Proofs.Fuel Proofs.Refutations Proofs.LR1Refute Proofs.EarlyFinal.
Import ListNotations.
Open Scope string_scope.

(** [S -> A x; C -> !; B -> C C; A -> B c; A -> B]: no rule of A or B is empty. *)
Definition chain : G := [mk_rule "S" [nt "A"; tk "x"]; mk_rule "C" [eps]; mk_rule "B" [nt "C"; nt "C"];
  mk_rule "A" [nt "B"; tk "c"]; mk_rule "A" [nt "B"]].

Lemma chain_before l l' : (l, l') = ("C", "B") \/ (l, l') = ("B", "A") -> before chain l l'.
Proof.
  intros [He|He]; injection He as -> ->; [exists 1, (mk_rule "C" [eps])|exists 2, (mk_rule "B" [nt "C"; nt "C"])];
    (split; [reflexivity|]; split; [reflexivity|]); intros j r' Hj Hs;
    destruct j as [|[|[|[|[|j]]]]]; simpl in Hj; try (injection Hj as <-; simpl in Hs; try discriminate Hs; lia); destruct j; discriminate Hj.
Qed.

Lemma chain_C : early chain "C".
Proof. apply (early_rule chain (mk_rule "C" [eps])); [simpl; tauto|]. intros nd [<-|[]]. constructor. Qed.
Lemma chain_B : early chain "B".
Proof.
  apply (early_rule chain (mk_rule "B" [nt "C"; nt "C"])); [simpl; tauto|].
  intros nd [<-|[<-|[]]]; (apply early_label; [apply chain_before; auto|apply chain_C]).
Qed.
Lemma chain_A : early chain "A".
Proof.
  apply (early_rule chain (mk_rule "A" [nt "B"])); [simpl; tauto|].
  intros nd [<-|[]]; (apply early_label; [apply chain_before; auto|apply chain_B]).
Qed.

Lemma chain_early : early_epsilon chain.
Proof.
  split.
  - intros l _ (r & Hr & Hu). simpl in Hr. repeat (destruct Hr as [<-|Hr]); simpl in Hu;
      repeat (destruct Hu as [Hu|Hu]; [try discriminate Hu; injection Hu as <-; auto using chain_A, chain_B, chain_C|]); try tauto; destruct Hr.
  - intros _. exists (mk_rule "A" [nt "B"; tk "c"]), [nt "B"], (Token "c"), []. split; [simpl; tauto|]. split; [reflexivity|].
    split; [discriminate|]. constructor; [|constructor]. apply early_label; [apply chain_before; auto|apply chain_B].
Qed.

Lemma chain_not_direct : ~ direct_epsilon chain.
Proof.
  intros (H1 & _). destruct (H1 "B") as (r & Hr & Hs & He).
  - exists [Node 2 [Node 1 []; Node 1 []]].
    assert (DC : derives chain [nt "C"; nt "C"] [] [Node 1 []; Node 1 []]).
    { apply (derives_production chain 1 (mk_rule "C" [eps]) [] [] [nt "C"] [] [Node 1 []]); [reflexivity|repeat constructor|].
      apply (derives_production chain 1 (mk_rule "C" [eps]) [] [] [] [] []); [reflexivity|repeat constructor|constructor]. }
    apply (derives_production chain 2 (mk_rule "B" [nt "C"; nt "C"]) [Node 1 []; Node 1 []] [] [] [] []); [reflexivity|exact DC|constructor].
  - exists (mk_rule "A" [nt "B"]). split; simpl; tauto.
  - simpl in Hr. repeat (destruct Hr as [<-|Hr]); simpl in Hs; try discriminate Hs; [|destruct Hr].
    inversion He as [|? ? Hx]; discriminate Hx.
Qed.

Lemma chain_accepts (bm : BuildMode) : exists p, parser_new 50 chain = Ok p /\
  parse_stream (E := unit) 50 p ["x"] = Ok true /\ parse_stream (E := unit) 50 p ["c"; "x"] = Ok true.
Proof. apply runs_2. destruct bm; vm_compute; reflexivity. Qed.

Lemma chain_table (bm : BuildMode) : exists ig F, indexed_build 50 chain = Ok ig /\ first_build (E := lr_error string string) 50 ig = Ok F /\
  first_has ig F "A" (Token "c") /\ first_has ig F "A" Epsilon /\
  (forall k, orig_production_label (E := unit) ig k = match nth_error ["S"; "C"; "B"; "A"] k with Some l => Ok l | None => orig_production_label (E := unit) ig k end).
Proof.
  destruct (indexed_build 50 chain) as [ig| | |] eqn:Hig; [|destruct bm; vm_compute in Hig; discriminate Hig..].
  exists ig. destruct (first_build (E := lr_error string string) 50 ig) as [F| | |] eqn:HF;
    [|destruct bm; vm_compute in Hig; injection Hig as <-; vm_compute in HF; discriminate HF..].
  exists F. split; [auto|]. split; [auto|].
  destruct bm; vm_compute in Hig; injection Hig as <-; vm_compute in HF; injection HF as <-;
    (split; [exists 3; eexists _, _; repeat split|]; split; [exists 3; eexists _, _; repeat split|]; intros [|[|[|[|k]]]]; try reflexivity; destruct k; reflexivity).
Qed.

(** [g_first] with its last two rules exchanged. *)
Definition g_first_swapped : G := [mk_rule "S" [nt "A"; nt "A"]; mk_rule "B" [eps]; mk_rule "A" [nt "B"; tk "c"]].

Lemma order_verdicts (bm : BuildMode) : exists (g g' : G) p p' w, reordered g g' /\ no_eos g /\ eps_trailing g /\ productive g /\
  (forall r, nth_error g 0 = Some r -> ~ uses r (symbol r)) /\ parser_new 50 g = Ok p /\ parser_new 50 g' = Ok p' /\
  forall fuel, 50 <= fuel -> parse_stream (E := unit) fuel p w = Ok false /\ parse_stream (E := unit) fuel p' w = Ok true.
Proof.
  assert (Hp : exists p, parser_new 50 g_first = Ok p /\ parse_stream (E := unit) 50 p w_first = Ok false).
  { apply runs_1. destruct bm; vm_compute; reflexivity. }
  assert (Hp' : exists p, parser_new 50 g_first_swapped = Ok p /\ parse_stream (E := unit) 50 p w_first = Ok true).
  { apply runs_1. destruct bm; vm_compute; reflexivity. }
  destruct Hp as (p & Hp & Hw), Hp' as (p' & Hp' & Hw'). exists g_first, g_first_swapped, p, p', w_first.
  split. { eexists _, _, _. split; [reflexivity|]. split; [reflexivity|]. apply perm_swap. }
  split; [apply no_eos_ok; reflexivity|]. split; [apply eps_trailing_ok; reflexivity|].
  split. { apply (productive_ok _ (fun i => nth i [t_first; Node 1 [Node 2 []; Leaf "c"]; Node 2 []] (Leaf "")) 10). vm_compute. reflexivity. }
  split. { intros r Hr. injection Hr as <-. intros [Hx|[Hx|[]]]; discriminate. }
  split; [auto|]. split; [auto|]. intros fuel Hf. split; [exact (le_ok _ _ _ (parse_stream_le _ _ Hf _ _) Hw)|exact (le_ok _ _ _ (parse_stream_le _ _ Hf _ _) Hw')].
Qed.

(** [g_ambig] with its last two rules exchanged is rejected. *)
Definition g_ambig_swapped : G := [mk_rule "S" [nt "T"]; mk_rule "T" [nt "X"; nt "A"]; mk_rule "T" [nt "Y"; nt "A"];
  mk_rule "X" [eps]; mk_rule "Y" [eps]; mk_rule "B" [eps]; mk_rule "A" [nt "B"; tk "c"]].

Lemma order_acceptance (bm : BuildMode) : exists (g g' : G) p e, reordered g g' /\ no_eos g /\ eps_trailing g /\ productive g /\
  (forall r, nth_error g 0 = Some r -> ~ uses r (symbol r)) /\ parser_new 50 g = Ok p /\ parser_new 50 g' = Err e.
Proof.
  assert (Hp : exists p, parser_new 50 g_ambig = Ok p) by (apply builds_ok; destruct bm; vm_compute; reflexivity).
  destruct Hp as (p & Hp).
  assert (Hp' : exists e, parser_new 50 g_ambig_swapped = Err e).
  { destruct (parser_new 50 g_ambig_swapped) as [q|e|w|] eqn:Hq; [|eauto| |]; exfalso;
      assert (Hb : match parser_new 50 g_ambig_swapped with Err _ => true | _ => false end = true) by (destruct bm; vm_compute; reflexivity);
      rewrite Hq in Hb; discriminate. }
  destruct Hp' as (e & He). exists g_ambig, g_ambig_swapped, p, e.
  split. { eexists _, _, _. split; [reflexivity|]. split; [reflexivity|]. do 4 apply perm_skip. apply perm_swap. }
  split; [apply no_eos_ok; reflexivity|]. split; [apply eps_trailing_ok; reflexivity|].
  split. { apply (productive_ok _ (fun i => nth i [Node 0 [Node 1 [Node 3 []; Node 5 [Node 6 []; Leaf "c"]]]; Node 1 [Node 3 []; Node 5 [Node 6 []; Leaf "c"]];
      Node 2 [Node 4 []; Node 5 [Node 6 []; Leaf "c"]]; Node 3 []; Node 4 []; Node 5 [Node 6 []; Leaf "c"]; Node 6 []] (Leaf "")) 10). vm_compute. reflexivity. }
  split. { intros r Hr. injection Hr as <-. intros [Hx|[]]; discriminate. }
  auto.
Qed.

(** Two orders of [chain] that are both early. *)
Definition chain' : G := [mk_rule "S" [nt "A"; tk "x"]; mk_rule "C" [eps]; mk_rule "B" [nt "C"; nt "C"];
  mk_rule "A" [nt "B"]; mk_rule "A" [nt "B"; tk "c"]].

Lemma chain_before' l l' : (l, l') = ("C", "B") \/ (l, l') = ("B", "A") -> before chain' l l'.
Proof.
  intros [He|He]; injection He as -> ->; [exists 1, (mk_rule "C" [eps])|exists 2, (mk_rule "B" [nt "C"; nt "C"])];
    (split; [reflexivity|]; split; [reflexivity|]); intros j r' Hj Hs;
    destruct j as [|[|[|[|[|j]]]]]; simpl in Hj; try (injection Hj as <-; simpl in Hs; try discriminate Hs; lia); destruct j; discriminate Hj.
Qed.

Lemma chain_early' : early_epsilon chain'.
Proof.
  assert (HC : early chain' "C").
  { apply (early_rule chain' (mk_rule "C" [eps])); [simpl; tauto|]. intros nd [<-|[]]. constructor. }
  assert (HB : early chain' "B").
  { apply (early_rule chain' (mk_rule "B" [nt "C"; nt "C"])); [simpl; tauto|].
    intros nd [<-|[<-|[]]]; (apply early_label; [apply chain_before'; auto|exact HC]). }
  assert (HA : early chain' "A").
  { apply (early_rule chain' (mk_rule "A" [nt "B"])); [simpl; tauto|].
    intros nd [<-|[]]; (apply early_label; [apply chain_before'; auto|exact HB]). }
  split.
  - intros l _ (r & Hr & Hu). simpl in Hr. repeat (destruct Hr as [<-|Hr]); simpl in Hu;
      repeat (destruct Hu as [Hu|Hu]; [try discriminate Hu; injection Hu as <-; auto|]); try tauto; destruct Hr.
  - intros _. exists (mk_rule "A" [nt "B"; tk "c"]), [nt "B"], (Token "c"), []. split; [simpl; tauto|]. split; [reflexivity|].
    split; [discriminate|]. constructor; [|constructor]. apply early_label; [apply chain_before'; auto|exact HB].
Qed.

Lemma chain_reordered : reordered chain chain'.
Proof. eexists _, _, _. split; [reflexivity|]. split; [reflexivity|]. do 2 apply perm_skip. apply perm_swap. Qed.
