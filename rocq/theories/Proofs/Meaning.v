(** Meanings and parse trees (C63). *)
From Coq Require Import Arith Bool String List Lia.
From Verif Require Import Base.Prelude Spec.Grammar Spec.Observers Spec.Values Spec.EmittedCode Spec.Meaning.
From Verif Require Import Model.TokenTree Model.Terminal Model.Constructor Model.CodeGen Model.Runtime Model.Rust Model.Emit.
Import ListNotations.

Scheme means_mut := Minimality for means Sort Prop with all_mean_mut := Minimality for all_mean Sort Prop.
Combined Scheme means_ind2 from means_mut, all_mean_mut.

Section Meaning.
Variable R : rust.
Variable gi : grammar_info.
Notation g := (source (gi_rules gi)).

Definition good_leaves (ts : list (dtree R)) : Prop := forall s k, In (s, k) (flat_map leaves ts) -> sym_matches R gi s k = true.

Lemma source_nth i r : nth_error (gi_rules gi) i = Some r -> nth_error g i = Some (to_lr_production_rule r).
Proof. intros H. unfold source. now apply map_nth_error. Qed.

Lemma source_inv i r' : nth_error g i = Some r' -> exists r, nth_error (gi_rules gi) i = Some r /\ r' = to_lr_production_rule r.
Proof.
  unfold source. rewrite nth_error_map. destruct (nth_error (gi_rules gi) i) as [r|]; cbn [option_map]; [|discriminate]. intros H. injection H as <-. eauto.
Qed.


Lemma good_cons d ds : good_leaves [d] -> good_leaves ds -> good_leaves (d :: ds).
Proof.
  intros H1 H2 s k Hin. cbn [flat_map] in Hin. apply in_app_or in Hin. destruct Hin as [Hin|Hin]; [apply H1|now apply H2].
  cbn [flat_map]. rewrite app_nil_r. exact Hin.
Qed.

Lemma good_head d ds : good_leaves (d :: ds) -> good_leaves [d].
Proof. intros H s k Hin. apply H. cbn [flat_map] in *. rewrite app_nil_r in Hin. apply in_or_app. now left. Qed.

Lemma good_tail d ds : good_leaves (d :: ds) -> good_leaves ds.
Proof. intros H s k Hin. apply H. cbn [flat_map]. apply in_or_app. now right. Qed.

Lemma indices_eq i r : nth_error (gi_rules gi) i = Some r -> indices_of gi i = node_indices (pr_nodes r).
Proof. intros H. unfold indices_of. now rewrite H. Qed.

Lemma eval_node i ds vs : snd (in_order R (map (Values.eval R gi) ds)) = inl vs ->
  snd (Values.eval R gi (Node i ds)) = rule_value R gi i (combine (indices_of gi i) vs).
Proof.
  intros H. cbn [Values.eval]. destruct (in_order R (map (Values.eval R gi) ds)) as [log [vs'|e]]; cbn [snd] in H; [|discriminate].
  injection H as ->. reflexivity.
Qed.

Lemma eval_node_inv i ds v : snd (Values.eval R gi (Node i ds)) = inl v ->
  exists vs, snd (in_order R (map (Values.eval R gi) ds)) = inl vs /\ rule_value R gi i (combine (indices_of gi i) vs) = inl v.
Proof.
  intros H. cbn [Values.eval] in H. destruct (in_order R (map (Values.eval R gi) ds)) as [log [vs|e]]; cbn [snd] in *; [|discriminate]. eauto.
Qed.

Lemma in_order_cons {C A} (x : list C * (A + UErr R)) xs v vs : snd x = inl v -> snd (in_order R xs) = inl vs -> snd (in_order R (x :: xs)) = inl (v :: vs).
Proof.
  destruct x as [l [a|e]]; cbn [snd]; intros H; [|discriminate]. injection H as ->. cbn [in_order].
  destruct (in_order R xs) as [l' [a'|e']]; cbn [snd]; intros H; [|discriminate]. now injection H as ->.
Qed.

Lemma in_order_inv {C A} (x : list C * (A + UErr R)) xs vs : snd (in_order R (x :: xs)) = inl vs ->
  exists v vs', vs = v :: vs' /\ snd x = inl v /\ snd (in_order R xs) = inl vs'.
Proof.
  destruct x as [l [a|e]]; cbn [in_order snd]; [|discriminate].
  destruct (in_order R xs) as [l' [a'|e']]; cbn [snd]; intros H; [|discriminate]. injection H as <-. eauto.
Qed.

Lemma meaning_trees :
  (forall l ts v, means R gi l ts v -> exists i r ds, nth_error (gi_rules gi) i = Some r /\ pr_name r = l /\
     derives g (rhs (to_lr_production_rule r)) (map fst (flat_map leaves ds)) (map (tmap fst) ds) /\
     map snd (flat_map leaves ds) = ts /\ good_leaves ds /\ snd (Values.eval R gi (Node i ds)) = inl v) /\
  (forall ns ts vs, all_mean R gi ns ts vs -> exists ds,
     derives g (map to_lr_node ns) (map fst (flat_map leaves ds)) (map (tmap fst) ds) /\
     map snd (flat_map leaves ds) = ts /\ good_leaves ds /\ snd (in_order R (map (Values.eval R gi) ds)) = inl vs).
Proof.
  apply means_ind2.
  - intros i r ts vs v Hi _ (ds & Hd & Hl & Hg & Hv) Hr. exists i, r, ds. repeat split; auto.
    rewrite (eval_node i ds vs Hv), (indices_eq i r Hi). exact Hr.
  - exists []. cbn. repeat split; [apply derives_nil|intros s k []].
  - intros s k ns ts vs Hm _ (ds & Hd & Hl & Hg & Hv). exists (Leaf (s, k) :: ds). cbn [map flat_map leaves app tmap to_lr_node fst snd]. repeat split.
    + now apply derives_token.
    + now rewrite Hl.
    + apply good_cons; [|exact Hg]. intros s' k' [H|[]]. injection H as <- <-. exact Hm.
    + apply in_order_cons; [reflexivity|exact Hv].
  - intros l ts v ns ts' vs _ (i & r & ds1 & Hi & Hn & Hd1 & Hl1 & Hg1 & Hv1) _ (ds & Hd & Hl & Hg & Hv). subst l.
    exists (Node i ds1 :: ds). cbn [map flat_map leaves tmap to_lr_node]. rewrite !map_app. repeat split.
    + apply (derives_production g i (to_lr_production_rule r)); [now apply source_nth|exact Hd1|exact Hd].
    + now rewrite Hl1, Hl.
    + apply good_cons; [|exact Hg]. intros s k Hin. cbn [flat_map leaves] in Hin. rewrite app_nil_r in Hin. now apply Hg1.
    + apply in_order_cons; [exact Hv1|exact Hv].
  - intros ns ts vs _ (ds & Hd & Hl & Hg & Hv). exists ds. repeat split; auto. cbn [map to_lr_node]. now apply derives_epsilon.
Qed.

Lemma trees_mean ns w ts : derives g ns w ts -> forall pns ds vs, ns = map to_lr_node pns -> ts = map (tmap fst) ds ->
  good_leaves ds -> snd (in_order R (map (Values.eval R gi) ds)) = inl vs -> all_mean R gi pns (map snd (flat_map leaves ds)) vs.
Proof.
  induction 1 as [|s ns w ts Hd IH|ns w ts Hd IH|i r ts1 w1 ns w2 ts2 Hi Hd1 IH1 Hd2 IH2]; intros pns ds vs Hns Hts Hg Hv.
  - destruct pns; [|discriminate]. destruct ds; [|discriminate]. cbn in Hv. injection Hv as <-. apply am_nil.
  - destruct pns as [|n pns]; [discriminate|]. destruct ds as [|d ds]; [discriminate|].
    injection Hns as Hn Hns. injection Hts as Ht Hts. destruct n as [l|s'|]; try discriminate. injection Hn as <-.
    destruct d as [[s'' k]|]; [|discriminate]. cbn in Ht. injection Ht as <-.
    cbn [map] in Hv. apply in_order_inv in Hv. destruct Hv as (v & vs' & -> & H1 & H2). cbn in H1. injection H1 as <-.
    cbn [flat_map leaves map app snd]. apply am_symbol.
    + apply Hg. now left.
    + apply IH; auto. eapply good_tail; eauto.
  - destruct pns as [|n pns]; [discriminate|]. injection Hns as Hn Hns. destruct n; try discriminate. apply am_nothing. now apply IH.
  - destruct pns as [|n pns]; [discriminate|]. destruct ds as [|d ds]; [discriminate|].
    injection Hns as Hn Hns. injection Hts as Ht Hts. destruct n as [l|s'|]; try discriminate. injection Hn as <-.
    destruct d as [[s'' k]|j ds1]; [discriminate|]. cbn in Ht. injection Ht as <- Ht.
    cbn [map] in Hv. apply in_order_inv in Hv. destruct Hv as (v & vs' & -> & H1 & H2).
    apply source_inv in Hi. destruct Hi as (r0 & Hi & ->).
    apply eval_node_inv in H1. destruct H1 as (vs1 & H1 & H3). rewrite (indices_eq i r0 Hi) in H3.
    cbn [flat_map leaves]. rewrite map_app. cbn [symbol to_lr_production_rule]. apply am_label.
    + apply (means_rule R gi i r0 _ vs1 v Hi); [|exact H3]. apply IH1; auto.
      intros s k Hin. apply (good_head _ _ Hg). cbn [flat_map leaves]. now rewrite app_nil_r.
    + apply IH2; auto. eapply good_tail; eauto.
Qed.

Lemma tmap_node (t : dtree R) i ts : tmap fst t = Node i ts -> exists ds, t = Node i ds /\ ts = map (tmap fst) ds.
Proof. destruct t as [[s k]|j ds]; [discriminate|]. cbn. intros H. injection H as -> <-. eauto. Qed.

Lemma parses_begins ts rest t : parses_tokens R gi (ts ++ rest) t -> begins_sentence R gi ts.
Proof.
  intros (H1 & H2 & H3). exists (firstn (List.length ts) (map fst (leaves t))), (skipn (List.length ts) (map fst (leaves t))).
  rewrite firstn_skipn. split; [|eexists; exact H3].
  assert (Hl : forall (l : list (user_symbol * tok R)) ts rest, map snd l = ts ++ rest -> (forall s k, In (s, k) l -> sym_matches R gi s k = true) ->
    Forall2 (fun s k => sym_matches R gi s k = true) (firstn (List.length ts) (map fst l)) ts).
  { clear. intros l ts. revert l. induction ts as [|k ts IH]; intros [|[s k'] l] rest He Hm; cbn in *; try discriminate; [constructor|constructor|].
    injection He as <- He. constructor; [apply Hm; auto|]. eapply IH; eauto. }
  eapply Hl; eauto.
Qed.

Lemma meaning_iff ts v : input_means R gi ts v <-> exists t, parses_tokens R gi ts t /\ snd (Values.eval R gi t) = inl v.
Proof.
  split.
  - intros (r & vs & H0 & Hm & Hr). destruct (proj2 meaning_trees _ _ _ Hm) as (ds & Hd & Hl & Hg & Hv).
    exists (Node 0 ds). split.
    + repeat split; auto. exists (to_lr_production_rule r), (map (tmap fst) ds). repeat split; [now apply source_nth|exact Hd].
    + rewrite (eval_node 0 ds vs Hv), (indices_eq 0 r H0). exact Hr.
  - intros (t & (Hl & Hg & (r & tsd & Hr & Hd & Ht)) & Hv). apply tmap_node in Ht. destruct Ht as (ds & -> & ->).
    apply source_inv in Hr. destruct Hr as (r0 & Hr & ->). apply eval_node_inv in Hv. destruct Hv as (vs & Hv1 & Hv2).
    exists r0, vs. rewrite (indices_eq 0 r0 Hr) in Hv2. repeat split; auto. subst ts. cbn [leaves].
    eapply trees_mean; eauto.
Qed.
End Meaning.
