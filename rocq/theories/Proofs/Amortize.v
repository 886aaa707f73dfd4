(** Counting the steps of a machine with a stack, whose steps either read or
    reduce, and which can reduce only so often without its stack getting lower
    than at first. *)
From Coq Require Import Arith Lia.

Section Amortize.
Variable C : Type.
Variables (height remaining : C -> nat) (valid : C -> Prop) (reduces reads : C -> C -> Prop).
Hypothesis Hred : forall c c', valid c -> reduces c c' -> valid c' /\ height c' <= S (height c) /\ remaining c' = remaining c.
Hypothesis Hread : forall c c', valid c -> reads c c' -> valid c' /\ height c' <= S (height c) /\ S (remaining c') = remaining c.

Inductive run : nat -> C -> C -> Prop :=
| run_refl c : run 0 c c
| run_reduce n c c' c'' : reduces c c' -> run n c' c'' -> run (S n) c c''
| run_read n c c' c'' : reads c c' -> run n c' c'' -> run (S n) c c''.

(** Reductions after each of which the stack is at least [h] high. *)
Inductive above (h : nat) : nat -> C -> C -> Prop :=
| above_refl c : above h 0 c c
| above_step n c c' c'' : above h n c c' -> reduces c' c'' -> h <= height c'' -> above h (S n) c c''.

Lemma above_ok h n c c' : above h n c c' -> valid c -> valid c' /\ height c' <= n + height c /\ remaining c' = remaining c.
Proof.
  induction 1 as [c|n c c' c'' Ha IH Hr Hh]; intros Hv; [auto|]. destruct (IH Hv) as (Hv' & H1 & H2).
  destruct (Hred _ _ Hv' Hr) as (Hv2 & H3 & H4). repeat split; auto; lia.
Qed.

Variable K : nat.
Hypothesis HK : forall n c c', valid c -> above (height c) n c c' -> n <= K.

Definition bound (h m : nat) : nat := S K * (h + 1 + m * (K + 2)).

Lemma bound_lower h m : 0 < h -> S K + bound (h - 1) m = bound h m.
Proof. intros Hh. unfold bound. destruct h as [|h]; [lia|]. simpl (S h - 1). rewrite Nat.sub_0_r. lia. Qed.
Lemma bound_read h m : S K + bound (h + K + 1) m = bound h (S m).
Proof. unfold bound. simpl (S m * _). lia. Qed.
Lemma bound_mono h h' m : h <= h' -> bound h m <= bound h' m.
Proof. intros Hh. unfold bound. apply Nat.mul_le_mono_l. lia. Qed.

Theorem run_bound n c c' : valid c -> run n c c' -> n <= bound (height c) (remaining c).
Proof.
  revert c. induction n as [n IH] using lt_wf_ind. intros c Hv Hrun.
  assert (Hin : forall n', n' <= n -> forall k c1, above (height c) k c c1 -> (k = 0 -> n' = n) -> (0 < k -> n' < n) -> run n' c1 c' ->
    n' + k <= bound (height c) (remaining c)).
  { clear Hrun. induction n' as [|n' IHn]; intros Hle k c1 Ha H0 Hpos Hrun.
    - apply (HK k c c1) in Ha; auto. unfold bound. lia.
    - destruct (above_ok _ _ _ _ Ha Hv) as (Hv1 & Hh & Hm). pose proof (HK _ _ _ Hv Ha) as Hk.
      inversion Hrun as [|? ? c2 ? Hs Hr|? ? c2 ? Hs Hr]; subst.
      + destruct (le_lt_dec (height c) (height c2)) as [Hge|Hlt].
        * replace (S n' + k) with (n' + S k) by lia. apply (IHn ltac:(lia) (S k) c2); auto; try lia. econstructor; eauto.
        * destruct (Hred _ _ Hv1 Hs) as (Hv2 & _ & Hm2). assert (Hn : n' <= bound (height c2) (remaining c2)) by (apply IH; auto; lia).
          rewrite Hm2, Hm in Hn. pose proof (bound_mono (height c2) (height c - 1) (remaining c) ltac:(lia)).
          pose proof (bound_lower (height c) (remaining c) ltac:(lia)). lia.
      + destruct (Hread _ _ Hv1 Hs) as (Hv2 & Hh2 & Hm2). assert (Hn : n' <= bound (height c2) (remaining c2)) by (apply IH; auto; lia).
        rewrite <- Hm, <- Hm2. pose proof (bound_mono (height c2) (height c + K + 1) (remaining c2) ltac:(lia)).
        pose proof (bound_read (height c) (remaining c2)). lia. }
  specialize (Hin n (le_n n) 0 c (above_refl _ c) (fun _ => eq_refl) ltac:(lia) Hrun). lia.
Qed.

End Amortize.
