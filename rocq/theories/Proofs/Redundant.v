(** Grammars that say something twice are rejected. *)
From Coq Require Import Arith Bool String NArith List Lia.
From Verif Require Import Base.Prelude Spec.Grammar Spec.Validity Spec.Nullable Spec.Observers Spec.LR1 Spec.Redundant Model.Error.
From Verif Require Import Model.IndexedGrammar Model.FirstMap Model.LRTable Model.ParseSimulator.
From Verif Require Import Proofs.Machine Proofs.IndexedMain Proofs.IndexedFinal Proofs.ParserFinal Proofs.RecognitionFinal Proofs.LR1Final.
Import ListNotations.

Section Derive.
Context {T L : Type} `{EqDec L}.
Variable g : grammar T L.
Hypothesis Hv : valid_grammar g.
Hypothesis Hn : no_eos g.
Hypothesis Hp : productive g.

Lemma label_derives r l : In r g -> uses r l -> exists w ts, derives g [Production l] w ts.
Proof.
  intros Hr Hu. destruct Hv as (root & rest & _ & _ & Hd & _). destruct (Hd r l Hr Hu) as (r' & Hr' & <-). apply Hp; auto.
Qed.

Lemma nodes_derive r ns : In r g -> incl ns (rhs r) -> exists w ts, derives g ns w ts.
Proof.
  intros Hr. induction ns as [|nd ns IH]; intros Hi; [exists [], []; constructor|].
  destruct IH as (w & ts & D); [intros x Hx; apply Hi; right; auto|].
  destruct nd as [[t| |]|l].
  - exists (t :: w), (Leaf t :: ts). constructor; auto.
  - exists w, ts. constructor; auto.
  - exfalso. apply (Hn r Hr). apply Hi. left; auto.
  - destruct (label_derives r l Hr) as (w' & ts' & D'); [apply Hi; left; auto|].
    exists (w' ++ w), (ts' ++ ts). exact (derives_app _ [Production l] _ _ _ _ _ D' D).
Qed.

(** A tree of a label is part of one of a sentence. *)
Lemma in_context l : reachable g l -> exists (c : tree T -> tree T) u v, (forall t t', c t = c t' -> t = t') /\
  forall w t, derives g [Production l] w [t] -> parses g (u ++ w ++ v) (c t).
Proof.
  induction 1 as [r rest He|r l Hr IH Hin Hu].
  - exists (fun t => t), [], []. split; auto. intros w t D. rewrite app_nil_r. simpl.
    inversion D as [| | |i r' ts1 w1 ns w2 ts2 Hi D1 D2 E1 E2 E3]; subst. inversion D2; subst. rewrite app_nil_r.
    destruct Hv as (root & rest' & Hg & Hc & _). rewrite Hg in Hi. injection Hg as <- <-. destruct i as [|i].
    + injection Hi as ->. exists r', ts1. auto.
    + simpl in Hi. apply nth_error_In in Hi. rewrite Forall_forall in Hc. destruct (Hc _ Hi) as (Hs & _). congruence.
  - destruct IH as (c & u & v & Hc & HD). apply in_split in Hu as (ns1 & ns2 & Hns).
    destruct (nodes_derive r ns1 Hin) as (w1 & ts1 & D1); [rewrite Hns; intros x Hx; apply in_or_app; auto|].
    destruct (nodes_derive r ns2 Hin) as (w2 & ts2 & D2); [rewrite Hns; intros x Hx; apply in_or_app; right; right; auto|].
    apply In_nth_error in Hin as (i & Hi). exists (fun t => c (Node i (ts1 ++ t :: ts2))), (u ++ w1), (w2 ++ v). split.
    + intros t t' E. apply Hc in E. injection E as E. apply app_inv_head in E. congruence.
    + intros w t D. replace ((u ++ w1) ++ w ++ w2 ++ v) with (u ++ (w1 ++ w ++ w2) ++ v) by (now rewrite !app_assoc).
      apply HD. rewrite <- (app_nil_r (w1 ++ w ++ w2)). econstructor; eauto; [|constructor]. rewrite Hns. apply derives_app; auto.
      exact (derives_app _ [Production l] _ _ _ _ _ D D2).
Qed.

Lemma derives_defined l w ts : derives g [Production l] w ts -> defined g l.
Proof. intros D. inversion D as [| | |i r ts1 w1 ns w2 ts2 Hi D1 D2]; subst. exists r. split; auto. eapply nth_error_In; eauto. Qed.

Lemma two_sentences : two_ways g -> exists w t t', parses g w t /\ parses g w t' /\ t <> t'.
Proof.
  intros (l & w & t & t' & D & D' & Hne). pose proof Hv as (_ & _ & _ & _ & _ & Hr).
  destruct (in_context l (Hr _ (derives_defined _ _ _ D))) as (c & u & v & Hc & HD).
  exists (u ++ w ++ v), (c t), (c t'). repeat split; auto.
Qed.

Lemma twice_two_ways : written_twice g -> two_ways g.
Proof.
  intros (i & j & r & r' & Hij & Hi & Hj & Hs & He). destruct (nodes_derive r (rhs r)) as (w & ts & D); [eapply nth_error_In; eauto|intros x Hx; auto|].
  exists (symbol r), w, (Node i ts), (Node j ts). split; [|split].
  - rewrite <- (app_nil_r w). econstructor; eauto. constructor.
  - rewrite Hs, <- (app_nil_r w). econstructor; eauto; [|constructor]. apply derives_strip. unfold strip. rewrite <- He. now apply derives_strip.
  - congruence.
Qed.

(** ** Sizes *)
Fixpoint size (t : tree T) : nat :=
  match t with
  | Leaf _ => 0
  | Node _ ts => S ((fix go ts := match ts with [] => 0 | t :: ts' => size t + go ts' end) ts)
  end.
Definition sizes (ts : list (tree T)) : nat := list_sum (map size ts).
Lemma size_node i ts : size (Node i ts) = S (sizes ts).
Proof. simpl. f_equal. unfold sizes. induction ts as [|t ts IH]; [reflexivity|]. simpl. now rewrite IH. Qed.
Lemma sizes_app ts ts' : sizes (ts ++ ts') = sizes ts + sizes ts'.
Proof. unfold sizes. rewrite map_app. apply list_sum_app. Qed.

Lemma step_derives ns ns' w ts : step g ns ns' -> derives g ns' w ts -> exists ts', derives g ns w ts' /\ sizes ts <= sizes ts'.
Proof.
  intros [pre r post Hr|pre post] D.
  - destruct (derives_app_inv _ _ _ _ _ D) as (w1 & w2 & t1 & t2 & -> & -> & D1 & D2).
    destruct (derives_app_inv _ _ _ _ _ D2) as (w3 & w4 & t3 & t4 & -> & -> & D3 & D4). apply In_nth_error in Hr as (i & Hi).
    exists (t1 ++ Node i t3 :: t4). split; [apply derives_app; auto; econstructor; eauto|].
    change (Node i t3 :: t4) with ([Node i t3] ++ t4). rewrite !sizes_app. unfold sizes at 5. cbn [map list_sum]. rewrite size_node. simpl. lia.
  - destruct (derives_app_inv _ _ _ _ _ D) as (w1 & w2 & t1 & t2 & -> & -> & D1 & D2). exists (t1 ++ t2). split; auto.
    apply derives_app; auto. constructor; auto.
Qed.

Lemma steps_derives ns ns' : steps g ns ns' -> forall w ts, derives g ns' w ts -> exists ts', derives g ns w ts' /\ sizes ts <= sizes ts'.
Proof.
  induction 1 as [ns|ns ns' ns'' H1 H2 IH]; intros w ts D; [eauto|]. destruct (IH _ _ D) as (ts1 & D1 & L1).
  destruct (step_derives _ _ _ _ H1 D1) as (ts2 & D2 & L2). exists ts2. split; auto. lia.
Qed.

Lemma itself_two_ways : derives_itself g -> two_ways g.
Proof.
  intros (r & Hr & Hs). destruct (Hp r Hr) as (w & ts & D). destruct (steps_derives _ _ Hs _ _ D) as (ts' & D' & Hl).
  apply In_nth_error in Hr as (i & Hi).
  inversion D as [| | |j r' ts1 w1 ns w2 ts2 Hj D1 D2 E1 E2 E3]; subst. inversion D2; subst. rewrite app_nil_r in *.
  exists (symbol r), w1, (Node j ts1), (Node i ts'). split; [|split].
  - rewrite <- (app_nil_r w1). rewrite <- E1. econstructor; eauto using derives_nil.
  - rewrite <- (app_nil_r w1). econstructor; eauto using derives_nil.
  - intros E. injection E as -> <-. unfold sizes at 1 in Hl. cbn [map list_sum fold_right] in Hl. rewrite size_node in Hl. simpl in Hl. lia.
Qed.
End Derive.

Section Rejected.
Context {bm : BuildMode} {T L : Type} `{EqDec T} `{EqDec L}.

Definition redundant (g : grammar T L) : Prop := written_twice g \/ derives_itself g \/ two_ways g.

Lemma redundant_rejected (g : grammar T L) fuel p : no_eos g -> eps_trailing g -> first_complete g -> productive g -> redundant g -> parser_new fuel g <> Ok p.
Proof.
  intros Hn He Hc Hp Hr Ho. assert (Hv : valid_grammar g).
  { unfold parser_new in Ho. destruct (indexed_build fuel g) as [ig| | |] eqn:I; try discriminate. now apply build_indexes in I. }
  assert (H2 : two_ways g) by (destruct Hr as [Hr|[Hr|Hr]]; [apply twice_two_ways|apply itself_two_ways|]; auto).
  destruct (two_sentences g Hv Hn Hp H2) as (w & t & t' & P & P' & Hne). apply Hne. eapply unambiguous_f; eauto.
Qed.

Lemma redundant_error (g : grammar T L) : no_eos g -> eps_trailing g -> first_complete g -> productive g -> redundant g ->
  (forall r, nth_error g 0 = Some r -> ~ uses r (symbol r)) -> exists N, forall fuel, N < fuel -> exists e, parser_new fuel g = Err e.
Proof.
  intros Hn He Hc Hp Hr Hu. destruct (parser_new_terminates g) as (N & HN). exists N. intros fuel Hf. specialize (HN fuel Hf).
  destruct (parser_new fuel g) as [p|e|why|] eqn:E; eauto.
  - now destruct (redundant_rejected g fuel p Hn He Hc Hp Hr).
  - destruct (parser_new_panic fuel g why E) as (r & H1 & H2). now destruct (Hu r H1).
  - congruence.
Qed.
End Rejected.
