(** Examples and counterexamples for the states of the builder. *)
From Coq Require Import Arith Bool String NArith List Lia.
From Verif Require Import Base.Prelude Spec.Grammar Spec.Validity Spec.Nullable Spec.Observers Spec.States Model.Error.
From Verif Require Import Model.BitSet Model.FixedMap Model.Vocabulary Model.IndexedGrammar Model.FirstMap Model.Position Model.Closure Model.LRTable Model.ParseSimulator.
From Verif Require Import Proofs.Fuel Proofs.Refutations Proofs.IndexedFinal.
From Verif Require Import Spec.LR1 Proofs.LR1Proofs Proofs.LR1Final Proofs.LR1Refute Proofs.StatesFinal Proofs.TableFinal.
Import ListNotations.
Open Scope string_scope.

Ltac compute_eq H := vm_compute in H; injection H as <-.

(** The initial state of [S -> A A; A -> B c; B -> !] lacks a lookahead. *)
Lemma lookahead_missing (bm : BuildMode) : exists (g : G) ig F k parts i p a, no_eos g /\ eps_trailing g /\ productive g /\
  indexed_build 50 g = Ok ig /\ first_build (E := lr_error string string) 50 ig = Ok F /\ reached ig F [] k /\
  partition_closure_by_next_node (E := lr_error string string) ig F 50 k = Ok parts /\
  lookahead g [] i p a /\ ~ holds_before ig parts i p a.
Proof.
  exists g_first.
  destruct (indexed_build 50 g_first) as [ig| | |] eqn:Hig; [|destruct bm; vm_compute in Hig; discriminate Hig..].
  destruct (first_build (E := lr_error string string) 50 ig) as [F| | |] eqn:HF;
    [|destruct bm; compute_eq Hig; vm_compute in HF; discriminate HF..].
  destruct (initial_kernel ig) as [k| | |] eqn:Hk; [|destruct bm; compute_eq Hig; vm_compute in Hk; discriminate Hk..].
  destruct (partition_closure_by_next_node (E := lr_error string string) ig F 50 k) as [parts| | |] eqn:Hp;
    [|destruct bm; compute_eq Hig; compute_eq HF; compute_eq Hk; vm_compute in Hp; discriminate Hp..].
  exists ig, F, k, parts, 1, 0, (Token "c"). split; [apply no_eos_ok; reflexivity|]. split; [apply eps_trailing_ok; reflexivity|].
  split. { apply (productive_ok _ (fun i => nth i [t_first; Node 1 [Node 2 []; Leaf "c"]; Node 2 []] (Leaf "")) 10). vm_compute. reflexivity. }
  split; [auto|]. split; [auto|]. split; [apply reached_root; auto|]. split; [auto|]. split.
  - eapply (lookahead_first _ [] 0 0 1); [constructor| |reflexivity|]; [reflexivity|].
    change (begins g_first [nt "A"] (Token "c")). apply begins_iff. apply (fst_here g_first (mk_rule "A" [nt "B"; tk "c"])); [simpl; tauto|]. simpl.
    apply fst_null; [|apply fst_tok; discriminate]. apply vanishes_iff. exists [Node 2 []].
    apply (derives_production g_first 2 (mk_rule "B" [eps]) [] [] [] [] []); repeat constructor.
  - intros (id & ps & q & ir & a' & Hin & Hq & Hir & Ho & Hqp & Ha & Hv).
    destruct bm; compute_eq Hig; compute_eq HF; compute_eq Hk; compute_eq Hp; vm_compute in Ha; injection Ha as <-;
      vm_compute in Hin;
      repeat (destruct Hin as [Hin|Hin]; [injection Hin as <- <-; repeat (destruct Hq as [<-|Hq];
        [vm_compute in Hir; injection Hir as <-; try discriminate Ho; vm_compute in Hv; discriminate Hv|]); destruct Hq|]); destruct Hin.
Qed.

(** Following [a] twice from the initial state of [S -> ! a] gives a state, though
    no item is valid for [a a]. *)
Lemma reached_no_item (bm : BuildMode) : exists (g : G) ig F k γ, no_eos g /\ indexed_build 50 g = Ok ig /\
  first_build (E := lr_error string string) 50 ig = Ok F /\ reached ig F γ k /\ forall i p, ~ item g γ i p.
Proof.
  exists g_mid.
  destruct (indexed_build 50 g_mid) as [ig| | |] eqn:Hig; [|destruct bm; vm_compute in Hig; discriminate Hig..].
  destruct (first_build (E := lr_error string string) 50 ig) as [F| | |] eqn:HF;
    [|destruct bm; compute_eq Hig; vm_compute in HF; discriminate HF..].
  assert (Hr : exists k, reached ig F [tk "a"; tk "a"] k).
  { destruct bm; compute_eq Hig; compute_eq HF; eexists;
    (eapply (reached_next _ _ [tk "a"] _ 50);
      [eapply (reached_next _ _ [] _ 50); [apply reached_root; vm_compute; reflexivity|vm_compute; reflexivity|vm_compute; left; reflexivity|vm_compute; reflexivity|reflexivity|vm_compute; reflexivity]
      |vm_compute; reflexivity|vm_compute; left; reflexivity|vm_compute; reflexivity|reflexivity|vm_compute; reflexivity]). }
  destruct Hr as (k & Hr). exists ig, F, k, [tk "a"; tk "a"]. split; [apply no_eos_ok; reflexivity|]. split; [auto|]. split; [auto|]. split; auto.
  assert (Hinv : forall γ i p, item g_mid γ i p -> i = 0 /\ ((γ = [] /\ p = 0) \/ (γ = [tk "a"] /\ p = 1))).
  { induction 1 as [|γ i p j r Hi (-> & IH) Hn Hj|γ i p X Hi (-> & IH) Hn]; [auto| |].
    - destruct IH as [(-> & ->)|(-> & ->)]; discriminate Hn.
    - destruct IH as [(-> & ->)|(-> & ->)]; [injection Hn as <-; auto|discriminate Hn]. }
  intros i p Hi. apply Hinv in Hi as (_ & [(Hx & _)|(Hx & _)]); discriminate.
Qed.

(** A grammar meeting the hypotheses, with a prefix and an item of it. *)
Lemma opt_list_states (bm : BuildMode) : exists ig F t, indexed_build 50 opt_list = Ok ig /\
  first_build (E := lr_error string string) 50 ig = Ok F /\ table_build ig 50 = Ok t /\ num_states t = 10.
Proof.
  destruct (indexed_build 50 opt_list) as [ig| | |] eqn:Hig; [|destruct bm; vm_compute in Hig; discriminate Hig..].
  destruct (first_build (E := lr_error string string) 50 ig) as [F| | |] eqn:HF;
    [|destruct bm; compute_eq Hig; vm_compute in HF; discriminate HF..].
  destruct (table_build ig 50) as [t| | |] eqn:Ht; [|destruct bm; compute_eq Hig; vm_compute in Ht; discriminate Ht..].
  exists ig, F, t. repeat (split; [auto|]). destruct bm; compute_eq Hig; compute_eq Ht; reflexivity.
Qed.

Lemma opt_list_item : item opt_list [nt "L"; tk "("] 2 0 /\ lookahead opt_list [nt "L"; tk "("] 2 0 (Token ")").
Proof.
  assert (H0 : item opt_list ([] ++ [nt "L"]) 0 1) by (apply item_goto; [constructor|reflexivity]).
  assert (H1 : item opt_list [nt "L"] 4 0) by (apply (item_closure _ _ 0 1 4 (mk_rule "M" [tk "("; nt "L"; tk ")"])); [exact H0|reflexivity|reflexivity]).
  assert (H2 : item opt_list ([nt "L"] ++ [tk "("]) 4 1) by (apply item_goto; [exact H1|reflexivity]). split.
  - apply (item_closure _ _ 4 1 2 (mk_rule "L" [tk "a"; nt "L"; eps])); [exact H2|reflexivity|reflexivity].
  - apply (lookahead_first _ _ 4 1 2 (mk_rule "L" [tk "a"; nt "L"; eps])); [exact H2|reflexivity|reflexivity|]. split; [discriminate|]. eexists. constructor.
Qed.
