(** Other names for the terminals of a grammar. *)
From Coq Require Import Arith Bool List Lia.
From Verif Require Import Base.Prelude Spec.Grammar Spec.Validity Spec.Nullable Spec.LR1.
Import ListNotations.

Section Rename.
Context {T T' L : Type}.
Variable h : T -> T'.

Definition rename_aug (a : aug T) : aug T' := match a with Token t => Token (h t) | Epsilon => Epsilon | EndOfStream => EndOfStream end.
Definition rename_node (n : node T L) : node T' L := match n with Terminal a => Terminal (rename_aug a) | Production l => Production l end.
Definition rename_rule (r : rule T L) : rule T' L := mk_rule (symbol r) (map rename_node (rhs r)).
Definition rename (g : grammar T L) : grammar T' L := map rename_rule g.

Variable g : grammar T L.
Local Notation g' := (rename g).

Lemma rename_nth i r : nth_error g i = Some r -> nth_error g' i = Some (rename_rule r).
Proof. intros H. unfold rename. now rewrite nth_error_map, H. Qed.
Lemma rename_nth_inv i r : nth_error g' i = Some r -> exists r0, nth_error g i = Some r0 /\ r = rename_rule r0.
Proof. unfold rename. rewrite nth_error_map. destruct (nth_error g i) as [r0|]; [|discriminate]. intros H. injection H as <-. eauto. Qed.

(** ** Productive grammars *)
Lemma derives_back ns' w' ts' : derives g' ns' w' ts' -> forall ns, ns' = map rename_node ns -> exists w ts, derives g ns w ts.
Proof.
  induction 1 as [|t ns' w' ts' _ IH|ns' w' ts' _ IH|i r ts1 w1 ns' w2 ts2 Hi _ IH1 _ IH2]; intros ns Hns.
  - destruct ns; [|discriminate]. exists [], []. constructor.
  - destruct ns as [|n ns]; [discriminate|]. injection Hns as Hn Hns. destruct n as [[t0| |]|]; try discriminate. destruct (IH ns Hns) as (w & ts & H). eexists _, _. constructor. exact H.
  - destruct ns as [|n ns]; [discriminate|]. injection Hns as Hn Hns. destruct n as [[t0| |]|]; try discriminate. destruct (IH ns Hns) as (w & ts & H). eexists _, _. constructor. exact H.
  - destruct ns as [|n ns]; [discriminate|]. injection Hns as Hn Hns. destruct n as [a|l]; try discriminate. injection Hn as Hn.
    apply rename_nth_inv in Hi. destruct Hi as (r0 & Hi & ->). cbn in Hn. subst l.
    destruct (IH1 (rhs r0) eq_refl) as (v1 & us1 & H1). destruct (IH2 ns Hns) as (v2 & us2 & H2). eexists _, _. econstructor; eauto.
Qed.

Lemma rename_productive : productive g' -> productive g.
Proof.
  intros Hp r Hr. destruct (Hp (rename_rule r)) as (w & ts & H); [apply in_map; exact Hr|]. exact (derives_back _ _ _ H [Production (symbol r)] eq_refl).
Qed.

(** ** Validity *)
Lemma rename_uses r l : uses (rename_rule r) l <-> uses r l.
Proof.
  unfold uses. cbn. rewrite in_map_iff. split.
  - intros (n & Hn & Hin). destruct n; [discriminate|]. now injection Hn as ->.
  - intros H. exists (Production l). auto.
Qed.
Lemma rename_defined l : defined g' l <-> defined g l.
Proof.
  split.
  - intros (r & Hin & Hs). apply in_map_iff in Hin. destruct Hin as (r0 & <- & Hin). exists r0. auto.
  - intros (r & Hin & Hs). exists (rename_rule r). split; [now apply in_map|exact Hs].
Qed.
Lemma rename_reachable l : reachable g' l -> reachable g l.
Proof.
  induction 1 as [r rest Hg|r l _ IH Hin Hu].
  - destruct g as [|r0 g0]; [discriminate|]. cbn in Hg. injection Hg as <- _. exact (reachable_root _ r0 g0 eq_refl).
  - apply in_map_iff in Hin. destruct Hin as (r0 & <- & Hin). apply rename_uses in Hu. exact (reachable_use _ r0 l IH Hin Hu).
Qed.
Lemma rename_valid : valid_grammar g' -> valid_grammar g.
Proof.
  intros (root & rest & Hg & Hc & Hd & Hr). 
  assert (Hd' : labels_defined g).
  { intros r l Hin Hu. apply rename_defined. apply (Hd (rename_rule r)); [now apply in_map|now apply rename_uses]. }
  assert (Hr' : forall l, defined g l -> reachable g l) by (intros l Hl; apply rename_reachable, Hr, rename_defined, Hl).
  destruct g as [|r0 g0]; [discriminate|]. cbn in Hg. injection Hg as <- <-. exists r0, g0. split; [reflexivity|]. split; [|split; assumption].
  rewrite Forall_forall in Hc |- *. intros r Hin. destruct (Hc (rename_rule r) (in_map _ _ _ Hin)) as (H1 & H2). split; [exact H1|].
  intros Hu. apply H2. now apply rename_uses.
Qed.

(** ** LR(1) items *)
Lemma rename_step ns ns' : step g ns ns' -> step g' (map rename_node ns) (map rename_node ns').
Proof.
  intros [pre r post Hin|pre post]; rewrite !map_app.
  - apply (step_rule g' (map rename_node pre) (rename_rule r)). now apply in_map.
  - apply step_epsilon.
Qed.
Lemma rename_steps ns ns' : steps g ns ns' -> steps g' (map rename_node ns) (map rename_node ns').
Proof. induction 1; [constructor|]. econstructor; [apply rename_step|]; eauto. Qed.
Lemma rename_begins ns a : begins g ns a -> begins g' (map rename_node ns) (rename_aug a).
Proof.
  intros (Ha & ns' & H). split; [destruct a; cbn; congruence|]. exists (map rename_node ns'). now apply rename_steps in H.
Qed.
Lemma rename_body i : body g' i = map rename_node (body g i).
Proof.
  unfold body, rename. rewrite nth_error_map. destruct (nth_error g i) as [r|]; [|reflexivity]. cbn.
  induction (rhs r) as [|n ns IH]; [reflexivity|]. cbn. rewrite IH. destruct n as [[t| |]|]; reflexivity.
Qed.
Lemma rename_next i p : next g' i p = option_map rename_node (next g i p).
Proof. unfold next. now rewrite rename_body, nth_error_map. Qed.
Lemma rename_after i p : after g' i p = map rename_node (after g i p).
Proof. unfold after. now rewrite rename_body, skipn_map. Qed.
Lemma rename_item γ i p a : lr1_item g γ i p a -> lr1_item g' (map rename_node γ) i p (rename_aug a).
Proof.
  induction 1 as [|γ i p a j r b _ IH Hn Hj Hb|γ i p a X _ IH Hn].
  - constructor.
  - eapply (lr1_closure g' _ i p _ j (rename_rule r)); [exact IH| |now apply rename_nth|].
    + rewrite rename_next, Hn. reflexivity.
    + apply rename_begins in Hb. rewrite map_app, <- rename_after in Hb. exact Hb.
  - rewrite map_app. apply (lr1_goto g' _ i p _ (rename_node X)); [exact IH|]. now rewrite rename_next, Hn.
Qed.
Lemma rename_reduces γ i a : reduces g γ i a -> reduces g' (map rename_node γ) i (rename_aug a).
Proof. intros (p & Hi & Hn). exists p. split; [now apply rename_item|]. now rewrite rename_next, Hn. Qed.
Lemma rename_shifts γ a : shifts g γ a -> shifts g' (map rename_node γ) (rename_aug a).
Proof. intros (i & p & b & Hi & Hn). exists i, p, (rename_aug b). split; [now apply rename_item|]. now rewrite rename_next, Hn. Qed.

Theorem rename_lr1 : lr1_grammar g' -> lr1_grammar g.
Proof.
  intros (H1 & H2). split.
  - intros γ i j a Hi Hj. eapply H1; apply rename_reduces; eassumption.
  - intros γ i a Hi Hs. eapply H2; [apply rename_reduces|apply rename_shifts]; eassumption.
Qed.
End Rename.
