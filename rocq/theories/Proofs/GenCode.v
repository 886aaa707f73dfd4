(** What the generated program contains. *)
From Coq Require Import Arith Bool String NArith List Lia Permutation.
From Verif Require Import Base.Prelude Spec.Grammar Spec.Validity Spec.Nullable Spec.Observers Spec.States Model.Error.
From Verif Require Import Model.BitSet Model.FixedMap Model.Vocabulary Model.IndexedGrammar Model.FirstMap.
From Verif Require Import Model.Position Model.Closure Model.LRTable Model.StateMap.
From Verif Require Import Model.TokenTree Model.Terminal Model.Constructor Model.CodeGen Model.Runtime Spec.Values.
From Verif Require Import Proofs.WP Proofs.BitSetProofs Proofs.FixedMapProofs Proofs.VocabProofs.
From Verif Require Import Proofs.IndexedProofs Proofs.IndexedBuild Proofs.IndexedMain Proofs.FirstProofs.
From Verif Require Import Proofs.ClosureProofs Proofs.ItemSets Proofs.TableProofs Proofs.TableBuild.
From Verif Require Import Proofs.Fuel Proofs.Machine Proofs.ParserFinal Proofs.RecognitionFinal Proofs.IndexedFinal Proofs.LR1Proofs Proofs.LR1Final Proofs.StatesFinal Proofs.TableFinal Proofs.StateMapFinal Proofs.GenTable Proofs.ConstructorProofs.
Import ListNotations.

(** Grouping by key. *)
Section Group.
Context {K V : Type} `{EqDec K}.

Definition ungroup (m : hash_map K (list V)) : list (K * V) := flat_map (fun e => map (pair (fst e)) (snd e)) m.

Definition grouped (m : hash_map K (list V)) (l : list (K * V)) : Prop :=
  NoDup (map fst m) /\ Forall (fun e => snd e <> []) m /\ Permutation (ungroup m) l.

Lemma grouped_nil : grouped [] [].
Proof. split; [constructor|split; [constructor|reflexivity]]. Qed.

Lemma hm_push_keys k v (m : hash_map K (list V)) x : In x (map fst (hm_push k v m)) <-> In x (map fst m) \/ x = k.
Proof.
  induction m as [|[k' vs] m IH]; simpl; [intuition|].
  destruct (eq_dec k k') as [->|Hne]; simpl; [intuition|]. rewrite IH. intuition.
Qed.

Lemma grouped_push k v m l : grouped m l -> grouped (hm_push k v m) (l ++ [(k, v)]).
Proof.
  revert l. induction m as [|[k' vs] m IH]; intros l (Hn & Hf & Hp); simpl.
  - cbn in Hp. apply Permutation_nil in Hp. subst l. simpl. split; [repeat constructor; auto|]. split; [repeat constructor; discriminate|reflexivity].
  - inversion Hn as [|? ? Hn1 Hn2]; subst. inversion Hf as [|? ? Hf1 Hf2]; subst. destruct (eq_dec k k') as [->|Hne].
    + split; [simpl; auto|]. split; [constructor; auto; destruct vs; discriminate|].
      cbn [ungroup flat_map fst snd]. rewrite map_app, <- app_assoc. rewrite <- Hp. cbn [ungroup flat_map fst snd]. rewrite <- app_assoc.
      apply Permutation_app_head. apply Permutation_app_comm.
    + destruct (IH (ungroup m)) as (G1 & G2 & G3); [split; auto|]. split.
      * simpl. constructor; auto. rewrite hm_push_keys. intros [Hx| ->]; auto.
      * split; [constructor; auto|]. cbn [ungroup flat_map fst snd] in *. fold (ungroup (hm_push k v m)) in *. fold (ungroup m) in *.
        rewrite G3, app_assoc. apply Permutation_app_tail. auto.
Qed.

Lemma grouped_in m l k vs v : grouped m l -> In (k, vs) m -> (In v vs <-> In (k, v) l).
Proof.
  intros (Hn & Hf & Hp) Hin. split.
  - intros Hv. eapply Permutation_in; [exact Hp|]. apply in_flat_map. exists (k, vs). split; auto. simpl. apply in_map; auto.
  - intros Hv. apply (Permutation_in _ (Permutation_sym Hp)) in Hv. apply in_flat_map in Hv as ([k' vs'] & Hin' & Hx). simpl in Hx.
    apply in_map_iff in Hx as (v' & He & Hx). injection He as -> ->.
    apply (hm_get_nodup _ _ _ Hn) in Hin, Hin'. congruence.
Qed.

Lemma grouped_key m l k v : grouped m l -> In (k, v) l -> exists vs, In (k, vs) m /\ In v vs.
Proof.
  intros (Hn & Hf & Hp) Hv. apply (Permutation_in _ (Permutation_sym Hp)) in Hv. apply in_flat_map in Hv as ([k' vs'] & Hin' & Hx). simpl in Hx.
  apply in_map_iff in Hx as (v' & He & Hx). injection He as -> ->. eauto.
Qed.

Lemma grouped_perm m m' l : Permutation m m' -> grouped m l -> grouped m' l.
Proof.
  intros Hpm (Hn & Hf & Hp). split; [eapply Permutation_NoDup; [apply Permutation_map; eauto|auto]|].
  split; [eapply Permutation_Forall; eauto|]. rewrite <- Hp. apply Permutation_flat_map. symmetry; auto.
Qed.

Lemma ungroup_snd (m : hash_map K (list V)) : map snd (ungroup m) = concat (map snd m).
Proof.
  induction m as [|[k vs] m IH]; simpl; auto. rewrite map_app, map_map, IH. simpl. rewrite map_id. reflexivity.
Qed.
End Group.

Lemma combine_app {A B} (k1 k2 : list A) (l1 l2 : list B) : length k1 = length l1 -> combine (k1 ++ k2) (l1 ++ l2) = combine k1 l1 ++ combine k2 l2.
Proof. revert l1. induction k1 as [|k k1 IH]; intros [|x l1] Hl; simpl in *; try discriminate; auto. f_equal. auto. Qed.

Lemma enumerate_app {A} (l1 l2 : list A) : enumerate (l1 ++ l2) = enumerate l1 ++ combine (seq (length l1) (length l2)) l2.
Proof. unfold enumerate. rewrite app_length, seq_app. simpl. apply combine_app. apply seq_length. Qed.

Lemma hs_extend_in s xs x : In x (hs_extend s xs) <-> In x s \/ In x xs.
Proof.
  unfold hs_extend. revert s. induction xs as [|y xs IH]; intros s; simpl; [tauto|]. rewrite IH.
  destruct (in_dec Nat.eq_dec y s) as [Hy|Hy]; [|rewrite in_app_iff; simpl; tauto].
  split; [tauto|]. intros [|[->|]]; auto.
Qed.

Lemma hs_extend_nodup s xs : NoDup s -> NoDup (hs_extend s xs).
Proof.
  unfold hs_extend. revert s. induction xs as [|y xs IH]; intros s Hs; simpl; auto. apply IH.
  destruct (in_dec Nat.eq_dec y s) as [Hy|Hy]; auto.
  apply (Permutation_NoDup (Permutation_cons_append s y)). constructor; auto.
Qed.

Section Code.
Context {bm : BuildMode}.
Variable literal_ok : string -> bool.
Variable ho : hash_orders.
Variable gi : grammar_info.
Hypothesis Hho : orders_ok ho.
Let g := source (gi_rules gi).
Let ig := gi_grammar gi.
Let t := gi_table gi.
Hypothesis Hix : indexes g ig.
Hypothesis Heps : eps_trailing (igram ig).
Hypothesis Hvoc : forall s i, tok_rel ig s i -> terminal_in (gi_rules gi) s.
Hypothesis Htypes : forall r, In r (gi_rules gi) -> exists ty, hm_get (pr_name r) (gi_label_types gi) = Some ty.
Variable F : first_table.
Variable ks : list kernel.
Variable acts : nat -> aug nat -> option action.
Variable gts : nat -> nat -> option nat.
Hypothesis HF : FInv ig F.
Hypothesis Hok : table_ok ig F t ks acts gts.
Let Hwf := ix_wf g ig Hix.
Local Notation arel := (aug_rel (ivocab ig)).
Local Notation matcher_of := (token_matcher literal_ok (gi_terminal_type gi)).
Local Notation build_pattern := (try_build_pattern literal_ok (gi_terminal_type gi)).
Local Notation sitem := (sitem ig ks).
Local Notation iedge := (iedge acts gts).
Local Notation sbody := (sbody ig).
Local Notation n := (num_states t).

(** Panics are tolerated if [Pn]; otherwise names must be identifiers where the
    code needs them, and the root must not be used. *)
Variable Pn : Prop.
Definition ident_needed (s : user_symbol) : Prop :=
  match gi_terminal_type gi with TTEnum _ => True | TTRaw _ => sparen s <> PGNone end.
Hypothesis Hident : Pn \/ forall s, terminal_in (gi_rules gi) s -> ident_needed s -> string_is_identifier (sname s) = true.
Hypothesis Hroot : Pn \/ rootclean ig.

(** The errors that can be returned. *)
Definition gen_fail (e : gen_error) : Prop :=
  (exists i r, nth_error (gi_rules gi) i = Some r /\ build_constructor (gi_rules gi) i = Err e) \/
  (exists s ty, terminal_in (gi_rules gi) s /\ gi_terminal_type gi = TTRaw ty /\ as_literal literal_ok s = Err e).
Local Notation wpg m Q := (wp Pn False m Q gen_fail).

(** Indexed rules and their source. *)
Definition prel (nd : pnode) (X : inode) : Prop := inode_rel ig (to_lr_node nd) X.

Lemma prel_eps nd X : prel nd X -> is_epsilon X = pnode_is_epsilon nd.
Proof. clear Hident Hroot. unfold prel. destruct nd as [l|s|], X as [[a| |]|k]; simpl; tauto. Qed.

Lemma rule_source j r : nth_error (rules ig) j = Some r -> exists pr, nth_error (gi_rules gi) (original_index r) = Some pr /\
  Forall2 prel (pr_nodes pr) (irhs r) /\ ilabel ig (isymbol r) (pr_name pr).
Proof.
  intros Hj. destruct (ix_rule_bwd g ig Hix _ _ Hj) as (r0 & Hr0 & Hl & _ & Hf). simpl in *. unfold g, source in Hr0. rewrite nth_error_map in Hr0.
  destruct (nth_error (gi_rules gi) (original_index r)) as [pr|]; [|discriminate]. injection Hr0 as <-. exists pr. split; auto. split; auto.
  simpl in Hf. clear -Hf. unfold prel. remember (irhs r) as l. clear Heql. revert l Hf. induction (pr_nodes pr) as [|nd ns IH]; intros l Hf; inversion Hf; subst; constructor; auto.
Qed.

Lemma rnodes_rule j r : nth_error (rules ig) j = Some r -> rnodes ig j = irhs r.
Proof. unfold rnodes. intros ->. reflexivity. Qed.


(** The state map. *)
Variable sm : list (state_info user_symbol).
Hypothesis Hsm : forall s, s < n -> exists l ty, nth_error sm s = Some (mk_info l ty) /\ NoDup l /\
    (forall s0, In s0 l <-> (exists X, edge ig t s0 X s) \/ s0 = 0 /\ s = 0) /\
    (s = 0 -> ty = TyRoot) /\ (s <> 0 -> exists X, ty_symbol ig ty X /\ (exists s0, edge ig t s0 X s) /\ forall s0 X', edge ig t s0 X' s -> X' = X).


Lemma rnodes_prel i p X : nth_error (rnodes ig i) p = Some X -> exists r pr nd, nth_error (rules ig) i = Some r /\
  nth_error (gi_rules gi) (original_index r) = Some pr /\ nth_error (pr_nodes pr) p = Some nd /\ prel nd X.
Proof.
  intros Hp. unfold rnodes in Hp. destruct (nth_error (rules ig) i) as [r|] eqn:Hj; [|destruct p; discriminate].
  destruct (rule_source _ _ Hj) as (pr & Hpr & Hf & _). exists r, pr.
  assert (Hx : exists nd, nth_error (pr_nodes pr) p = Some nd /\ prel nd X).
  { clear -Hf Hp. revert p Hp. induction Hf as [|nd X' ns Xs Hn Hf IH]; intros [|p] Hp; simpl in *; try discriminate; [injection Hp as ->; eauto|auto]. }
  destruct Hx as (nd & Hnd & Hrel). eauto.
Qed.

Lemma sbody_nth i p X : nth_error (sbody i) p = Some X -> nth_error (rnodes ig i) p = Some X.
Proof.
  intros Hp. destruct (rnodes_split ig Heps i) as (es & -> & _). rewrite nth_error_app1; auto. apply nth_error_Some. congruence.
Qed.

Lemma nextn_rnodes i p X : nextn ig i p = Some X -> nth_error (rnodes ig i) p = Some X.
Proof. rewrite (nextn_sbody ig Heps). apply sbody_nth. Qed.

Lemma iedge_next s X s' : s < n -> iedge s X s' -> exists i p, nextn ig i p = Some X.
Proof.
  intros Hs He. apply (state_kernel ig F t ks acts gts Hok) in Hs as (K & HK).
  destruct X as [a'|k]; simpl in He; [destruct (to_shift _ _ _ _ _ _ Hok _ _ _ _ HK He) as (_ & i & p & _ & Hx)|destruct (to_goto _ _ _ _ _ _ Hok _ _ _ _ HK He) as (_ & i & p & _ & Hx)]; eauto.
Qed.

Lemma iedge_rel s X s' : s < n -> iedge s X s' -> exists nd, prel nd X /\ is_epsilon X = false.
Proof.
  intros Hs He. destruct (iedge_next _ _ _ Hs He) as (i & p & Hn). pose proof (nextn_rnodes _ _ _ Hn) as Hr.
  destruct (rnodes_prel _ _ _ Hr) as (_ & _ & nd & _ & _ & _ & Hrel). exists nd. split; auto.
  rewrite (nextn_sbody ig Heps) in Hn. apply nth_error_In, sbody_neps in Hn. auto.
Qed.

Lemma back_edges_ok s : s < n -> s <> 0 -> exists l, (forall E, back_edges (E := E) sm s = Ok l) /\ l <> [] /\
  forall s0, In s0 l <-> s0 < n /\ exists X, iedge s0 X s.
Proof.
  intros Hs H0. destruct (Hsm s Hs) as (l & ty & Hn & Hnd & Hin & _ & Hx). exists l.
  split; [intros E0; unfold back_edges; rewrite (index_ok _ _ _ Hn); reflexivity|].
  assert (Hl : forall s0, In s0 l <-> s0 < n /\ exists X, iedge s0 X s).
  { intros s0. rewrite Hin. split.
    - intros [(X & He)|(_ & Hz)]; [|congruence]. apply (edge_iff g ig Hix F t ks acts gts Hok) in He as (Hs0 & X' & _ & He). eauto.
    - intros (Hs0 & X & He). left. destruct (iedge_rel _ _ _ Hs0 He) as (nd & Hr & _). exists (to_lr_node nd).
      apply (edge_iff g ig Hix F t ks acts gts Hok). eauto. }
  split; auto. destruct (Hx H0) as (X & _ & (s0 & He) & _). assert (Hi : In s0 l) by (apply Hin; eauto). intros ->. destruct Hi.
Qed.

(** The type of a state, by the symbol of its edges. *)
Definition ty_rel (ty : state_ty user_symbol) (X : inode) : Prop :=
  match ty, X with
  | TyReduce k, Production k' => k = k'
  | TyTerminal a, Terminal a' => arel a a'
  | _, _ => False
  end.

Lemma state_type_ok s0 X s : s0 < n -> iedge s0 X s -> exists ty, (forall E, state_type (E := E) sm s = Ok ty) /\ ty_rel ty X.
Proof.
  intros Hs0 He. destruct (iedge_kernel ig F t ks acts gts Hok _ _ _ Hs0 He) as (Hs & H0 & _).
  destruct (Hsm s Hs) as (l & ty & Hn & _ & _ & _ & Hx). exists ty. split; [intros E0; unfold state_type; rewrite (index_ok _ _ _ Hn); reflexivity|].
  destruct (Hx H0) as (X0 & Hty & _ & Hu). destruct (iedge_rel _ _ _ Hs0 He) as (nd & Hr & _).
  assert (Hed : edge ig t s0 (to_lr_node nd) s) by (apply (edge_iff g ig Hix F t ks acts gts Hok); eauto).
  apply Hu in Hed. rewrite <- Hed in Hty. unfold prel in Hr.
  destruct Hty as [a|k l0 Hl]; destruct X as [a'|k']; simpl in *; try tauto.
  apply label_of in Hl. eapply (ilabel_inj g ig Hix); eauto.
Qed.

Lemma as_ident_wp s : terminal_in (gi_rules gi) s -> ident_needed s -> wpg (as_ident s) (fun x => x = sname s).
Proof.
  intros Hs Hn. unfold as_ident. destruct Hident as [HP|Hi]; [destruct (string_is_identifier _); simpl; auto|].
  rewrite (Hi s Hs Hn). reflexivity.
Qed.

Lemma arel_voc s a' : arel (Token s) a' -> terminal_in (gi_rules gi) s.
Proof. destruct a' as [i| |]; simpl; try tauto. apply Hvoc. Qed.

Lemma bind_node_wp p ty X nd iter : ty_rel ty X -> prel nd X -> is_epsilon X = false ->
  wpg (bind_production_node p ty iter) (fun b => b = mk_bind p iter (node_field nd)).
Proof.
  intros Hty Hr Hne. unfold bind_production_node, prel in *. destruct ty as [k|a|], X as [a'|k']; simpl in Hty; try tauto.
  - destruct nd as [l|s|]; simpl in *; tauto.
  - destruct nd as [l|s|]; cbn [to_lr_node inode_rel] in Hr; [destruct Hr| |destruct a'; simpl in *; try tauto; discriminate].
    assert (Hs := aug_rel_fun _ _ _ _ Hty Hr); subst a.
    cbn [node_field]. unfold is_pattern_symbol, is_wildcard_symbol. destruct (sparen s) eqn:Hp; simpl; auto;
      apply wp_bind; (eapply wp_conseq; [apply as_ident_wp; [eapply arel_voc; eauto|unfold ident_needed; destruct (gi_terminal_type gi); auto; congruence]|]); intros x ->; reflexivity.
Qed.

(** The bindings of a reduction: [bound pns p S bs fin] if [bs] pops the first
    [p] nodes of a rule with nodes [pns] when the top state is one of [S], after
    which the top state is one of [fin]. *)
Inductive bound (pns : list pnode) : nat -> list nat -> list bind_code -> list nat -> Prop :=
| bound_0 ss : bound pns 0 ss [] ss
| bound_S p ss arms nd bs ss' fin : nth_error pns p = Some nd -> pnode_is_epsilon nd = false ->
    (forall s, In s arms <-> In s ss) ->
    (forall s, In s ss -> s < n /\ s <> 0 /\ forall s0 X, s0 < n -> iedge s0 X s -> prel nd X /\ In s0 ss') ->
    bound pns p ss' bs fin -> bound pns (S p) ss (mk_bind p arms (node_field nd) :: bs) fin.

Lemma bind_nodes_eps key es : Forall (fun e : nat * inode => is_epsilon (snd e) = true) es ->
  forall nodes ss, bind_nodes ho key sm (es ++ nodes) ss = bind_nodes ho key sm nodes ss.
Proof. induction 1 as [|[i X] es He _ IH]; intros nodes ss; simpl in *; auto. rewrite He. apply IH. Qed.

Lemma bind_nodes_wp key i r pr : nth_error (rules ig) i = Some r -> nth_error (gi_rules gi) (original_index r) = Some pr ->
  forall p ss, p <= length (sbody i) -> ss <> [] -> NoDup ss -> (forall s, In s ss -> sitem s i p) ->
  wpg (bind_nodes ho key sm (rev (enumerate (firstn p (sbody i)))) ss)
    (fun x => bound (pr_nodes pr) p ss (fst x) (snd x) /\ snd x <> [] /\ NoDup (snd x) /\ forall s, In s (snd x) -> sitem s i 0).
Proof.
  intros Hi Hpr. induction p as [|p IH]; intros ss Hp Hne Hnd Hit.
  - simpl. split; [constructor|]. auto.
  - destruct (nth_error (sbody i) p) as [X|] eqn:HX; [|apply nth_error_None in HX; lia].
    assert (Hf : firstn (S p) (sbody i) = firstn p (sbody i) ++ [X]).
    { clear -HX. revert p HX. induction (sbody i) as [|y l IHl]; intros [|p] HX; simpl in *; try discriminate; [congruence|]. f_equal. auto. }
    assert (Hlen : length (firstn p (sbody i)) = p) by (rewrite firstn_length; lia).
    rewrite Hf, enumerate_app, rev_app_distr. rewrite Hlen. cbn [combine seq length rev app]. cbn [bind_nodes].
    rewrite (sbody_neps ig i X) by (eapply nth_error_In; eauto).
    pose proof (oo_set _ Hho (key ++ [p]) ss) as Hperm. set (iter := ho_set ho (key ++ [p]) ss) in *.
    assert (Hin : forall s, In s iter <-> In s ss) by (intros s; split; apply Permutation_in; auto; symmetry; auto).
    destruct iter as [|s1 iter'] eqn:Hiter; [apply Permutation_nil in Hperm; congruence|]. cbn [hd_error expect bind].
    (* facts about the states of the set *)
    assert (Hst : forall s, In s ss -> s < n /\ s <> 0 /\ forall s0 X', s0 < n -> iedge s0 X' s -> X' = X /\ sitem s0 i p).
    { intros s Hs. pose proof (Hit s Hs) as Hsi. assert (Hn0 : s <> 0) by (intros ->; apply (sitem_root ig F t ks acts gts Hok) in Hsi; lia).
      split; [eapply sitem_state; eauto|]. split; auto. intros s0 X' Hs0 He. replace (S p) with (p + 1) in Hsi by lia.
      destruct (sitem_back ig F t ks acts gts Hok _ _ _ _ _ Hs0 He Hsi) as (Hnx & Hs0i). split; auto. rewrite (nextn_sbody ig Heps) in Hnx. congruence. }
    destruct (rnodes_prel _ _ _ (sbody_nth _ _ _ HX)) as (r' & pr' & nd & Hr' & Hpr' & Hnd' & Hrel). rewrite Hi in Hr'. injection Hr' as <-.
    rewrite Hpr in Hpr'. injection Hpr' as <-.
    assert (Heps' : is_epsilon X = false) by (eapply sbody_neps, nth_error_In; eauto).
    destruct (Hst s1) as (Hs1 & Hs10 & Hs1e); [apply Hin; simpl; auto|].
    destruct (back_edges_ok _ Hs1 Hs10) as (l1 & Hb1 & Hl1 & Hin1). destruct l1 as [|s0 l1]; [congruence|].
    destruct (proj1 (Hin1 s0) (or_introl eq_refl)) as (Hs0 & X0 & He0). destruct (Hs1e _ _ Hs0 He0) as (-> & Hi0).
    destruct (state_type_ok _ _ _ Hs0 He0) as (ty & Hty & Htr). rewrite Hty. cbn [bind].
    apply wp_bind. eapply wp_conseq; [apply (bind_node_wp p ty X nd); auto|]. intros b ->.
    apply wp_bind. eapply wp_conseq.
    { apply wp_foldM_pre with (I := fun pre next => NoDup next /\ forall s', In s' next <-> s' < n /\ exists s, In s pre /\ exists X, iedge s' X s).
      - split; [constructor|]. intros s'. simpl. split; [tauto|]. intros (_ & s & [] & _).
      - intros pre s suf next Hsp (Hn1 & Hn2). assert (Hs : In s ss) by (apply Hin; rewrite Hsp; apply in_or_app; simpl; auto).
        destruct (Hst s Hs) as (Hsn & Hsz & _). destruct (back_edges_ok _ Hsn Hsz) as (l & Hb & _ & Hl). rewrite Hb. simpl.
        split; [apply hs_extend_nodup; auto|]. intros s'. rewrite hs_extend_in, Hn2, Hl. split.
        + intros [(Hx & s2 & Hs2 & Hy)|(Hx & Hy)]; split; auto; [exists s2; split; auto; apply in_or_app; auto|exists s; split; auto; apply in_or_app; simpl; auto].
        + intros (Hx & s2 & Hs2 & Hy). apply in_app_iff in Hs2 as [Hs2|[->|[]]]; [left|right]; split; eauto. }
    cbv beta. intros next (Hnd2 & Hnext).
    assert (Hnn : forall s', In s' next -> sitem s' i p).
    { intros s' Hs'. apply Hnext in Hs' as (Hlt & s & Hs & X' & He). apply Hin in Hs. destruct (Hst s Hs) as (_ & _ & Hx). apply (Hx _ _ Hlt He). }
    assert (Hin0 : In s0 next) by (apply Hnext; split; auto; exists s1; split; [simpl; auto|eauto]).
    apply wp_bind. eapply wp_conseq; [apply (IH next); auto; [lia|intros ->; destruct Hin0]|]. intros [bs fin] (Hbd & Hfne & Hfnd & Hfi). simpl in *.
    split; [|auto]. econstructor; eauto.
    + rewrite <- (prel_eps _ _ Hrel). auto.
    + intros s Hs. destruct (Hst s Hs) as (Hx1 & Hx2 & Hx3). split; auto. split; auto. intros s2 X' Hs2 He2.
      destruct (Hx3 _ _ Hs2 He2) as (-> & _). split; auto. apply Hnext. split; auto. exists s. split; eauto. apply Hin. auto.
Qed.

Lemma bind_production_nodes_wp key i r pr s : nth_error (rules ig) i = Some r -> nth_error (gi_rules gi) (original_index r) = Some pr ->
  sitem s i (length (sbody i)) ->
  wpg (bind_production_nodes_to_locals ho key s r sm)
    (fun x => bound (pr_nodes pr) (length (sbody i)) [s] (fst x) (snd x) /\ snd x <> [] /\ NoDup (snd x) /\ forall s, In s (snd x) -> sitem s i 0).
Proof.
  intros Hi Hpr Hs. unfold bind_production_nodes_to_locals. rewrite <- (rnodes_rule _ _ Hi).
  destruct (rnodes_split ig Heps i) as (es & -> & Hes). rewrite enumerate_app, rev_app_distr.
  rewrite bind_nodes_eps.
  - rewrite <- (firstn_all (sbody i)) at 1. apply (bind_nodes_wp key i r pr Hi Hpr); auto; try discriminate; [repeat constructor; auto|].
    intros s' [->|[]]. auto.
  - apply Forall_rev. apply Forall_forall. intros [k X] Hin. apply in_combine_r in Hin. rewrite Forall_forall in Hes. rewrite (Hes _ Hin). reflexivity.
Qed.

Lemma build_ctor_wp i r : nth_error (gi_rules gi) i = Some r ->
  wpg (build_constructor (gi_rules gi) i) (fun c => build_constructor (gi_rules gi) i = Ok c).
Proof.
  intros Hr. pose proof (build_constructor_fine _ _ _ Hr) as Hf. destruct (build_constructor (gi_rules gi) i) as [c|e|w|] eqn:Hc; simpl in *; auto; [|tauto].
  left. eauto.
Qed.

(** Gotos. *)
Definition goto_ok (fin : list nat) (l : nat) (gc : goto_code) : Prop :=
  (fin <> [] /\ forall s, In s fin -> s < n /\ exists s', gts s l = Some s') /\
  match gc with
  | GotoOne s' => forall s, In s fin -> gts s l = Some s'
  | GotoMatch arms => (forall s s', In s fin -> gts s l = Some s' -> goto_arm arms s = Some s') /\
      forall ss s', In (ss, s') arms -> ss <> [] /\ forall s, In s ss -> In s fin /\ gts s l = Some s'
  end.

Lemma goto_arm_ok arms s s' l : (forall ss s1, In (ss, s1) arms -> forall s, In s ss -> gts s l = Some s1) ->
  gts s l = Some s' -> (exists ss, In (ss, s') arms /\ In s ss) -> goto_arm arms s = Some s'.
Proof.
  intros Ha Hs (ss & Hin & Hss). induction arms as [|[ss1 s1] arms IH]; [destruct Hin|]. simpl.
  destruct (in_dec Nat.eq_dec s ss1) as [Hi|Hn].
  - rewrite <- Hs. symmetry. eapply Ha; simpl; eauto.
  - destruct Hin as [He|Hin]; [injection He as -> ->; tauto|]. apply IH; auto. intros; eapply Ha; simpl; eauto.
Qed.

Lemma apply_goto_wp key i r pr fin : nth_error (rules ig) i = Some r -> nth_error (gi_rules gi) (original_index r) = Some pr ->
  fin <> [] -> (forall s, In s fin -> s < n /\ exists s', gts s (isymbol r) = Some s') ->
  wpg (apply_goto ho gi key (original_index r) (isymbol r) fin)
    (fun x => build_constructor (gi_rules gi) (original_index r) = Ok (fst x) /\ goto_ok fin (isymbol r) (snd x)).
Proof.
  intros Hi Hpr Hne Hg. unfold apply_goto. pose proof (oo_set _ Hho key fin) as Hperm.
  assert (Hin : forall s, In s (ho_set ho key fin) <-> In s fin) by (intros s; split; apply Permutation_in; auto; symmetry; auto).
  set (iter := ho_set ho key fin) in *. set (l := isymbol r) in *.
  assert (Hl : l < labels_count ig) by (apply (wf_sym _ Hwf); eapply nth_error_In; eauto).
  pose (tgt := fun s => match gts s l with Some s' => s' | None => 0 end).
  apply wp_bind. eapply wp_conseq.
  { apply wp_foldM_pre with (I := fun pre m => grouped m (map (fun s => (tgt s, s)) pre)).
    - apply grouped_nil.
    - intros pre s suf m Hsp Hm. assert (Hs : In s fin) by (apply Hin; rewrite Hsp; apply in_or_app; simpl; auto).
      destruct (Hg s Hs) as (Hlt & s' & Hs'). fold t. rewrite (get_goto_ok ig F t ks acts gts Hok) by auto. cbn [bind]. rewrite Hs'. cbn [expect bind].
      simpl. rewrite map_app. simpl. replace (tgt s) with s' by (unfold tgt; rewrite Hs'; reflexivity). apply grouped_push. auto. }
  cbv beta. intros m Hm. apply wp_bind. eapply wp_conseq; [apply (build_ctor_wp _ _ Hpr)|]. intros c Hc. cbv beta.
  pose proof (oo_goto _ Hho key m) as Hpm. assert (Hm' : grouped (ho_goto ho key m) (map (fun s => (tgt s, s)) iter)) by (eapply grouped_perm; [symmetry|]; eauto).
  assert (Hkey : forall s, In s fin -> exists vs, In (tgt s, vs) (ho_goto ho key m) /\ In s vs).
  { intros s Hs. eapply grouped_key; eauto. apply in_map_iff. exists s. split; auto. apply Hin. auto. }
  assert (Htgt : forall s, In s fin -> gts s l = Some (tgt s)) by (intros s Hs; destruct (Hg s Hs) as (_ & s' & Hx); unfold tgt; rewrite Hx; reflexivity).
  destruct (Datatypes.length m =? 1) eqn:Hlen.
  - apply Nat.eqb_eq in Hlen. rewrite <- (Permutation_length Hpm) in Hlen. destruct (ho_goto ho key m) as [|[k vs] [|]] eqn:Hgm; try discriminate.
    simpl. split; auto. split; auto. intros s Hs. rewrite (Htgt s Hs). f_equal. destruct (Hkey s Hs) as (vs' & [He|[]] & _). congruence.
  - assert (Harms : forall ss s1, In (ss, s1) (map (fun e => (snd e, fst e)) (ho_goto ho key m)) -> ss <> [] /\ forall s, In s ss -> In s fin /\ gts s l = Some s1).
    { intros ss s1 Hi1. apply in_map_iff in Hi1 as ([k vs] & He & Hi1). simpl in He. injection He as <- <-. split.
      - destruct Hm' as (_ & Hne' & _). rewrite Forall_forall in Hne'. exact (Hne' _ Hi1).
      - intros s2 Hs2. apply (grouped_in _ _ _ _ _ Hm' Hi1) in Hs2. apply in_map_iff in Hs2 as (s3 & He & Hs3). injection He as <- <-. apply Hin in Hs3. auto. }
    simpl. split; auto. split; auto. split; auto. intros s s' Hs Hs'. apply (goto_arm_ok _ _ _ l); auto.
    + intros ss s1 Hi1 s2 Hs2. apply (Harms _ _ Hi1). auto.
    + destruct (Hkey s Hs) as (vs & Hv & Hsv). exists vs. split; auto. apply in_map_iff. exists (tgt s, vs). split; auto. simpl. f_equal.
      rewrite (Htgt s Hs) in Hs'. congruence.
Qed.

(** Actions of a state, sorted. *)
Definition reduces_of (e : aug user_symbol * action) : list (nat * aug user_symbol) :=
  match snd e with Reduce j => [(j, fst e)] | _ => [] end.
Definition shifts_of (e : aug user_symbol * action) : list (aug user_symbol * nat) :=
  match snd e with Shift s => [(fst e, s)] | _ => [] end.
Definition accepts_of (e : aug user_symbol * action) : list (aug user_symbol) :=
  match snd e with Accept => [fst e] | _ => [] end.

Definition opt_list {A} (o : option A) : list A := match o with Some a => [a] | None => [] end.

Lemma build_for_state_wp s : s < n -> exists al, NoDup (map fst al) /\
  (forall a act, In (a, act) al <-> exists a', arel a a' /\ acts s a' = Some act) /\
  wpg (build_for_state gi s) (fun m => grouped (reduce_map m) (flat_map reduces_of al) /\ shift_map m = flat_map shifts_of al /\
    opt_list (accept m) = flat_map accepts_of al).
Proof.
  intros Hs. destruct (state_actions_ok g ig Hix F t ks acts gts Hok gen_error s Hs) as (al & Hal & Hnd & Hin). exists al. split; auto. split; auto.
  unfold build_for_state. fold t ig. rewrite Hal. cbn [bind].
  apply wp_foldM_pre with (I := fun pre m => grouped (reduce_map m) (flat_map reduces_of pre) /\ shift_map m = flat_map shifts_of pre /\
    opt_list (accept m) = flat_map accepts_of pre).
  - split; [apply grouped_nil|]. auto.
  - intros pre [a act] suf m Hsp (H1 & H2 & H3). rewrite !flat_map_app. cbn [flat_map]. destruct act as [s'|j|]; simpl.
    + rewrite !app_nil_r. cbn [reduces_of shifts_of accepts_of snd fst]. rewrite H2. auto.
    + cbn [reduces_of shifts_of accepts_of snd fst]. rewrite !app_nil_r. split; auto. apply grouped_push. auto.
    + cbn [reduces_of shifts_of accepts_of snd fst]. rewrite !app_nil_r. unfold debug_assert.
      assert (Hno : accept m = None).
      { destruct (accept m) as [b|] eqn:Hb; auto. exfalso. simpl in H3. assert (Hb' : In b (flat_map accepts_of pre)) by (rewrite <- H3; simpl; auto).
        apply in_flat_map in Hb' as ([b' act'] & Hb1 & Hb2). unfold accepts_of in Hb2. simpl in Hb2. destruct act'; try (destruct Hb2; fail). destruct Hb2 as [->|[]].
        assert (Ha1 : In (b, Accept) al) by (rewrite Hsp; apply in_or_app; auto). assert (Ha2 : In (a, Accept) al) by (rewrite Hsp; apply in_or_app; simpl; auto).
        apply Hin in Ha1 as (b1 & Hr1 & Hb1'), Ha2 as (a1 & Hr2 & Ha2'). pose proof Hs as Hs'. apply (state_kernel ig F t ks acts gts Hok) in Hs' as (K & HK).
        destruct (to_accept _ _ _ _ _ _ Hok _ _ _ HK Hb1') as (-> & _). destruct (to_accept _ _ _ _ _ _ Hok _ _ _ HK Ha2') as (-> & _).
        assert (a = b) by (eapply aug_rel_fun; eauto). subst b. rewrite Hsp, map_app in Hnd. simpl in Hnd. apply NoDup_remove_2 in Hnd. apply Hnd.
        apply in_or_app. left. apply in_map_iff. exists (a, Accept). auto. }
      rewrite Hno in *. simpl in H3. destruct debug_assertions; simpl; rewrite <- H3; auto.
Qed.

Lemma all_tokens_perm s m al : grouped (reduce_map m) (flat_map reduces_of al) -> shift_map m = flat_map shifts_of al ->
  opt_list (accept m) = flat_map accepts_of al -> Permutation (all_lookahead_tokens ho s m) (map fst al).
Proof.
  intros H1 H2 H3. unfold all_lookahead_tokens. change (match accept m with Some t0 => [t0] | None => [] end) with (opt_list (accept m)). rewrite H2, H3.
  assert (Hr : Permutation (concat (map snd (ho_reduce ho [s] (reduce_map m)))) (map snd (flat_map reduces_of al))).
  { rewrite <- ungroup_snd. apply Permutation_map. destruct H1 as (_ & _ & H1). rewrite <- H1. apply Permutation_flat_map. apply (oo_reduce _ Hho). }
  rewrite Hr. clear. induction al as [|[a [s'|j|]] al IH]; simpl; auto.
  - rewrite <- IH. symmetry. apply Permutation_middle.
  - rewrite <- IH. rewrite app_assoc. rewrite (Permutation_app_comm _ (a :: flat_map accepts_of al)). simpl. constructor. rewrite Permutation_app_comm, app_assoc. reflexivity.
Qed.

Lemma prel_no_eos nd : ~ prel nd (Terminal EndOfStream).
Proof. clear Hident Hroot. unfold prel. destruct nd as [l|s|]; simpl; tauto. Qed.

Lemma gen_no_eos : no_eos (igram ig).
Proof.
  intros r Hr Hin. unfold igram in Hr. apply in_map_iff in Hr as (ir & <- & Hr). apply In_nth_error in Hr as (j & Hj).
  change (rhs (irule ir)) with (irhs ir) in Hin. rewrite <- (rnodes_rule _ _ Hj) in Hin. apply In_nth_error in Hin as (p & Hp).
  destruct (rnodes_prel _ _ _ Hp) as (_ & _ & nd & _ & _ & _ & Hr). eapply prel_no_eos; eauto.
Qed.

Lemma act_neps s a act : s < n -> acts s a = Some act -> a <> Epsilon.
Proof.
  intros Hs Ha. pose proof Hs as Hk. apply (state_kernel ig F t ks acts gts Hok) in Hk as (K & HK). destruct act as [s'|j|].
  - destruct (iedge_rel s (Terminal a) s' Hs Ha) as (_ & _ & He). intros ->. discriminate.
  - destruct (to_reduce _ _ _ _ _ _ Hok _ _ _ _ HK Ha) as (_ & p & Hl & _).
    destruct (ki_rep _ _ _ (to_kinv _ _ _ _ _ _ Hok _ _ HK)) as (γ & HR). apply (proj2 HR), look_not_eps in Hl. auto.
  - destruct (to_accept _ _ _ _ _ _ Hok _ _ _ HK Ha) as (-> & _). discriminate.
Qed.

Lemma act_shift_token s a s' : s < n -> acts s a = Some (Shift s') -> exists i, a = Token i.
Proof.
  intros Hs Ha. destruct (iedge_rel s (Terminal a) s' Hs Ha) as (nd & Hr & He). destruct a as [i| |]; [eauto|discriminate|].
  apply prel_no_eos in Hr. destruct Hr.
Qed.

Lemma pattern_wp sy mode : terminal_in (gi_rules gi) sy -> wpg (build_pattern sy mode) (fun p => build_pattern sy mode = Ok p).
Proof.
  intros Hs. unfold try_build_pattern. destruct (gi_terminal_type gi) as [ty|ty] eqn:Htt.
  - destruct (as_literal literal_ok sy) as [l|e|w|] eqn:Hl; simpl; auto.
    + right. exists sy, ty. auto.
    + unfold as_literal in Hl. destruct (sparen sy); try discriminate. destruct (literal_ok (sname sy)); discriminate.
    + unfold as_literal in Hl. destruct (sparen sy); try discriminate. destruct (literal_ok (sname sy)); discriminate.
  - unfold as_pattern. destruct Hident as [HP|Hi].
    + unfold as_ident. destruct (string_is_identifier (sname sy)); simpl; auto.
    + unfold as_ident. rewrite Hi; auto; [reflexivity|]. unfold ident_needed. rewrite Htt. exact I.
Qed.

Lemma matcher_wp a a' mode : arel a a' -> a' <> Epsilon -> wpg (matcher_of a mode) (fun m => matcher_of a mode = Ok m).
Proof.
  intros Ha Hne. destruct a as [sy| |].
  - unfold token_matcher, try_build_matcher. apply wp_bind. eapply wp_conseq; [apply pattern_wp; eapply arel_voc; eauto|]. intros p ->. reflexivity.
  - destruct a'; simpl in Ha; tauto.
  - reflexivity.
Qed.

Record reduce_ok (s j : nat) (rc : reduce_code) : Prop := mk_reduce_ok {
  ro_rule : exists r pr fin, nth_error (rules ig) j = Some r /\ nth_error (gi_rules gi) (original_index r) = Some pr /\
    r_rule rc = original_index r /\ build_constructor (gi_rules gi) (original_index r) = Ok (r_ctor rc) /\
    bound (pr_nodes pr) (length (sbody j)) [s] (r_binds rc) fin /\ goto_ok fin (isymbol r) (r_goto rc);
}.

Record accept_ok (s : nat) (ac : accept_code) : Prop := mk_accept_ok {
  ao_rule : exists r pr fin, nth_error (rules ig) 0 = Some r /\ nth_error (gi_rules gi) 0 = Some pr /\ original_index r = 0 /\
    a_rule ac = 0 /\ build_constructor (gi_rules gi) 0 = Ok (a_ctor ac) /\
    bound (pr_nodes pr) (length (sbody 0)) [s] (a_binds ac) fin;
}.

(** What the function of a state consists of. *)
Record code_ok (s : nat) (c : state_code) : Prop := mk_code_ok {
  co_shift : forall m s' rhs, In (m, s', rhs) (sc_shift c) -> exists sy i p, tok_rel ig sy i /\ acts s (Token i) = Some (Shift s') /\
    build_pattern sy Named = Ok p /\ m = MSome p /\ build_pattern sy Rhs = Ok rhs;
  co_shift_c : forall sy i s', tok_rel ig sy i -> acts s (Token i) = Some (Shift s') -> exists p rhs, In (MSome p, s', rhs) (sc_shift c) /\
    build_pattern sy Named = Ok p /\ build_pattern sy Rhs = Ok rhs;
  co_reduce : forall ms rc, In (ms, rc) (sc_reduce c) -> exists j, j <> 0 /\ reduce_ok s j rc /\
    forall m, In m ms -> exists a a', arel a a' /\ acts s a' = Some (Reduce j) /\ matcher_of a Unnamed = Ok m;
  co_reduce_c : forall j a a', arel a a' -> acts s a' = Some (Reduce j) -> exists ms rc m, In (ms, rc) (sc_reduce c) /\ reduce_ok s j rc /\
    In m ms /\ matcher_of a Unnamed = Ok m;
  co_accept : forall m ac, sc_accept c = Some (m, ac) -> acts s EndOfStream = Some Accept /\ m = MNone /\ accept_ok s ac;
  co_accept_c : acts s EndOfStream = Some Accept -> exists ac, sc_accept c = Some (MNone, ac) /\ accept_ok s ac;
  co_check : forall ms, sc_check c = Some ms -> (exists ty, gi_terminal_type gi = TTEnum ty) /\ exists toks, NoDup toks /\
    (forall sy, In sy toks <-> exists i act, tok_rel ig sy i /\ acts s (Token i) = Some act) /\
    Forall2 (fun sy m => matcher_of (Token sy) Unnamed = Ok m) toks ms;
  co_nocheck : sc_check c = None -> (exists ty, gi_terminal_type gi = TTRaw ty) \/ forall sy i act, tok_rel ig sy i -> acts s (Token i) <> Some act;
}.

Lemma Forall2_in_left {A B} (P : A -> B -> Prop) l l' a : Forall2 P l l' -> In a l -> exists b, In b l' /\ P a b.
Proof. induction 1 as [|x y l l' Hx _ IH]; [intros []|]. intros [->|Hin]; [exists y; simpl; auto|]. destruct (IH Hin) as (b & Hb & Hp). exists b. simpl; auto. Qed.

Lemma Forall2_in_right {A B} (P : A -> B -> Prop) l l' b : Forall2 P l l' -> In b l' -> exists a, In a l /\ P a b.
Proof. induction 1 as [|x y l l' Hx _ IH]; [intros []|]. intros [->|Hin]; [exists x; simpl; auto|]. destruct (IH Hin) as (c & Hb & Hp). exists c. simpl; auto. Qed.

Lemma state_code_wp s : s < n -> wpg (generate_state_action_function literal_ok ho gi sm s) (code_ok s).
Proof.
  intros Hs. unfold generate_state_action_function. destruct (build_for_state_wp s Hs) as (al & Hnd & Hal & Hb).
  apply wp_bind. eapply wp_conseq; [exact Hb|]. clear Hb. intros m (Hred & Hsh & Hacc).
  assert (Hal' : forall a act, In (a, act) al -> exists a', arel a a' /\ a' <> Epsilon /\ acts s a' = Some act).
  { intros a act Hin. apply Hal in Hin as (a' & Hr & Ha). exists a'. split; auto. split; auto. eapply act_neps; eauto. }
  pose proof (all_tokens_perm s m al Hred Hsh Hacc) as Hperm.
  (* the check *)
  apply wp_bind. apply wp_conseq with (Q := fun check =>
    (forall ms, check = Some ms -> (exists ty, gi_terminal_type gi = TTEnum ty) /\ exists toks, NoDup toks /\
      (forall sy, In sy toks <-> exists i act, tok_rel ig sy i /\ acts s (Token i) = Some act) /\
      Forall2 (fun sy m => matcher_of (Token sy) Unnamed = Ok m) toks ms) /\
    (check = None -> (exists ty, gi_terminal_type gi = TTRaw ty) \/ forall sy i act, tok_rel ig sy i -> acts s (Token i) <> Some act)).
  { unfold debug_check_token_conflict. destruct (gi_terminal_type gi) as [ty|ty] eqn:Htt; [simpl; split; [discriminate|eauto]|]. rewrite <- Htt.
    set (all := filter _ _). pose (strip_tok := fun a : aug user_symbol => match a with Token sy => [sy] | _ => [] end).
    assert (Hall : forall a, In a all <-> exists sy i act, a = Token sy /\ tok_rel ig sy i /\ acts s (Token i) = Some act).
    { intros a. unfold all. rewrite filter_In. split.
      - intros (Hin & Ht). destruct a as [sy| |]; try discriminate. apply (Permutation_in _ Hperm) in Hin. apply in_map_iff in Hin as ([a act] & He & Hin).
        simpl in He. subst a. apply Hal in Hin as (a' & Hr & Ha). destruct a' as [i| |]; simpl in Hr; try tauto. eauto 6.
      - intros (sy & i & act & -> & Hr & Ha). split; auto. apply (Permutation_in _ (Permutation_sym Hperm)). apply in_map_iff. exists (Token sy, act). split; auto.
        apply Hal. exists (Token i). auto. }
    assert (Hnda : NoDup all) by (apply NoDup_filter; eapply Permutation_NoDup; [symmetry; exact Hperm|auto]).
    assert (Hw : wpg (mapM (fun token => matcher_of token Unnamed) all) (fun ms => Forall2 (fun a m => matcher_of a Unnamed = Ok m) all ms)).
    { apply wp_mapM. intros a Ha. apply Hall in Ha as (sy & i & act & -> & Hr & Ha). apply (matcher_wp (Token sy) (Token i)); auto; discriminate. }
    destruct all as [|a0 all'] eqn:Hae.
    - simpl. split; [discriminate|]. intros _. right. intros sy i act Hr Ha. apply (Hall (Token sy)). eauto 6.
    - apply wp_bind. eapply wp_conseq; [exact Hw|]. intros ms Hms. simpl. split; [|discriminate]. intros ms' He. injection He as <-. split; [eauto|].
      exists (flat_map strip_tok (a0 :: all')). clear Hw Hae.
      assert (Hgen : forall l, (forall a, In a l -> exists sy, a = Token sy) -> NoDup l -> NoDup (flat_map strip_tok l) /\ (forall sy, In sy (flat_map strip_tok l) <-> In (Token sy) l) /\
        forall ms, Forall2 (fun a m => matcher_of a Unnamed = Ok m) l ms -> Forall2 (fun sy m => matcher_of (Token sy) Unnamed = Ok m) (flat_map strip_tok l) ms).
      { clear. induction l as [|a l IH]; intros Hl Hn; [simpl; split; [constructor|split; [tauto|]]; intros ms Hms; inversion Hms; constructor|].
        destruct (Hl a (or_introl eq_refl)) as (sy & ->). inversion Hn as [|? ? Hn1 Hn2]; subst. destruct IH as (I1 & I2 & I3); auto; [intros; apply Hl; simpl; auto|].
        simpl. split; [constructor; auto; rewrite I2; auto|]. split.
        - intros sy'. rewrite I2. split; (intros [He|]; [left; congruence|auto]).
        - intros ms Hms. inversion Hms; subst. constructor; auto. }
      destruct (Hgen (a0 :: all')) as (G1 & G2 & G3); auto; [intros a Ha; apply Hall in Ha as (sy & _ & _ & -> & _); eauto|].
      split; auto. split; auto. intros sy. rewrite G2. rewrite Hall. split; [intros (sy' & i & act & He & Hx); injection He as <-; eauto|].
      intros (i & act & Hx & Hy). eauto 6. }
  intros check (Hck1 & Hck2).
  (* the reductions *)
  apply wp_bind. apply wp_conseq with (Q := Forall2 (fun e x => fst e <> 0 /\ reduce_ok s (fst e) (snd x) /\
      Forall2 (fun a m => matcher_of a Unnamed = Ok m) (snd e) (fst x)) (ho_reduce ho [s] (reduce_map m))).
  { unfold reduce_match_and_return. apply wp_mapM. intros [j toks] Hin. cbn [fst snd].
    apply (Permutation_in _ (oo_reduce _ Hho _ _)) in Hin.
    assert (Htok : forall a, In a toks <-> In (a, Reduce j) al).
    { intros a. rewrite (grouped_in _ _ _ _ _ Hred Hin). rewrite in_flat_map. split.
      - intros ([a1 act1] & Hx & Hy). unfold reduces_of in Hy. simpl in Hy. destruct act1; try (destruct Hy; fail). destruct Hy as [Hy|[]]. injection Hy as -> ->. auto.
      - intros Hx. exists (a, Reduce j). split; auto. simpl. auto. }
    assert (Hne : toks <> []).
    { destruct Hred as (_ & Hf & _). rewrite Forall_forall in Hf. apply (Hf _ Hin). }
    destruct toks as [|a0 toks']; [congruence|]. destruct (Hal' a0 (Reduce j)) as (a0' & _ & _ & Ha0); [apply Htok; simpl; auto|].
    set (toks := a0 :: toks') in *.
    apply wp_bind. eapply wp_conseq.
    { apply wp_mapM with (P := fun a m => matcher_of a Unnamed = Ok m). intros a Ha. apply Htok, Hal' in Ha as (a' & Hr & Hne' & _). eapply matcher_wp; eauto. }
    intros ms Hms. destruct (reduce_sitem ig Heps F t ks acts gts Hok s _ j Hs Ha0) as (Hj & Hsi).
    assert (Hr : exists r, nth_error (rules ig) j = Some r).
    { pose proof Hs as Hk. apply (state_kernel ig F t ks acts gts Hok) in Hk as (K & HK). destruct (to_reduce _ _ _ _ _ _ Hok _ _ _ _ HK Ha0) as (_ & p & Hl & _).
      destruct (ki_rep _ _ _ (to_kinv _ _ _ _ _ _ Hok _ _ HK)) as (γ & HR). apply (proj2 HR), look_core in Hl. apply (core_bound ig Hwf) in Hl as (Hl & _).
      apply nth_error_Some in Hl. destruct (nth_error (rules ig) j); [eauto|congruence]. }
    destruct Hr as (r & Hr). destruct (rule_source _ _ Hr) as (pr & Hpr & _ & _).
    unfold production_rule. fold ig. rewrite (index_ok _ _ _ Hr). cbn [bind].
    apply wp_bind. eapply wp_conseq; [apply (bind_production_nodes_wp _ j r pr s Hr Hpr Hsi)|]. intros [binds fin] (Hbd & Hfne & Hfnd & Hfi). cbn [fst snd] in *.
    apply wp_bind. eapply wp_conseq; [apply (apply_goto_wp _ j r pr fin Hr Hpr Hfne)|].
    { intros s0 Hs0. pose proof (Hfi _ Hs0) as Hs0i. split; [eapply sitem_state; eauto|].
      destruct (sitem_start ig Heps F t ks acts gts Hok _ _ Hs0i Hj) as (r' & s' & Hr' & Hg). rewrite Hr in Hr'. injection Hr' as <-. eauto. }
    intros [c gc] (Hc & Hg). cbn [fst snd] in *. simpl. split; auto. split; auto. constructor. exists r, pr, fin. simpl. auto 8. }
  intros reduces Hreds.
  (* acceptance *)
  apply wp_bind. apply wp_conseq with (Q := fun acc => (forall m ac, acc = Some (m, ac) -> acts s EndOfStream = Some Accept /\ m = MNone /\ accept_ok s ac) /\
    (acts s EndOfStream = Some Accept -> exists ac, acc = Some (MNone, ac) /\ accept_ok s ac)).
  { assert (Hacc2 : forall a, In a (opt_list (accept m)) <-> In (a, Accept) al).
    { intros a. rewrite Hacc, in_flat_map. split.
      - intros ([a1 act1] & Hx & Hy). unfold accepts_of in Hy. simpl in Hy. destruct act1; try (destruct Hy; fail). destruct Hy as [->|[]]. auto.
      - intros Hx. exists (a, Accept). split; auto. simpl. auto. }
    unfold accept_match_and_return. destruct (accept m) as [a|] eqn:Ham.
    - assert (Hin : In (a, Accept) al) by (apply Hacc2; simpl; auto). apply Hal' in Hin as (a' & Hr & _ & Ha).
      destruct (accept_sitem ig Heps F t ks acts gts Hok s a' Hs Ha) as (-> & Hsi).
      destruct a as [sy| |]; simpl in Hr; try tauto. cbn [token_matcher bind].
      destruct (ix_root_rule g ig Hix) as (r0 & r & _ & Hr0 & _ & Ho & _). simpl in Ho.
      destruct (rule_source _ _ Hr0) as (pr & Hpr & _ & _).
      unfold production_rule, root_production_rule. fold ig. rewrite (index_ok _ _ _ Hr0). cbn [bind].
      apply wp_bind. eapply wp_conseq; [apply (bind_production_nodes_wp _ 0 r pr s Hr0 Hpr Hsi)|]. intros [binds fin] (Hbd & Hfne & Hfnd & Hfi). cbn [fst snd] in *.
      rewrite Ho in Hpr.
      apply wp_bind. apply wp_conseq with (Q := fun _ => True).
      { unfold debug_assert. destruct debug_assertions; [|simpl; auto]. destruct Hroot as [HP|Hrc]; [destruct (eqb _ _); simpl; auto|].
        assert (Hfin : fin = [0]).
        { assert (Hz : forall s, In s fin -> s = 0) by (intros s0 Hs0; eapply (sitem_zero g ig Hix F t ks acts gts Hok); eauto).
          destruct fin as [|f0 [|f1 fin]]; [congruence| |].
          - rewrite (Hz f0) by (simpl; auto). reflexivity.
          - exfalso. inversion Hfnd as [|? ? Hx _]; subst. apply Hx. rewrite (Hz f0), (Hz f1) by (simpl; auto). simpl; auto. }
        subst fin. pose proof (oo_set _ Hho [s] [0]) as Hp0. apply Permutation_sym, Permutation_length_1_inv in Hp0. rewrite Hp0. unfold root_state. rewrite eqb_refl. simpl. auto. }
      intros _ _. apply wp_bind. eapply wp_conseq; [apply (build_ctor_wp _ _ Hpr)|]. intros c Hc. simpl.
      assert (Hao : accept_ok s (mk_accept binds 0 c)) by (constructor; exists r, pr, fin; simpl; auto 8).
      split; [intros m0 ac He; injection He as <- <-; auto|]. intros _. eauto.
    - simpl. split; [discriminate|]. intros Ha. exfalso. apply (Hacc2 EndOfStream). apply Hal. exists EndOfStream. split; auto. reflexivity. }
  intros acc (Hac1 & Hac2).
  (* shifts *)
  assert (Hsh2 : forall a s', In (a, s') (shift_map m) <-> In (a, Shift s') al).
  { intros a s'. rewrite Hsh, in_flat_map. split.
    - intros ([a1 act1] & Hx & Hy). unfold shifts_of in Hy. simpl in Hy. destruct act1; try (destruct Hy; fail). destruct Hy as [Hy|[]]. injection Hy as -> ->. auto.
    - intros Hx. exists (a, Shift s'). split; auto. simpl. auto. }
  apply wp_bind. apply wp_conseq with (Q := Forall2 (fun e x => exists sy p rhs, fst e = Token sy /\ x = (MSome p, snd e, rhs) /\
      build_pattern sy Named = Ok p /\ build_pattern sy Rhs = Ok rhs) (shift_map m)).
  { unfold shift_match_and_yield. apply wp_mapM. intros [a s'] Hin. cbn [fst snd]. apply Hsh2, Hal' in Hin as (a' & Hr & _ & Ha).
    destruct (act_shift_token s a' s' Hs Ha) as (i & ->). destruct a as [sy| |]; simpl in Hr; try tauto.
    pose proof (Hvoc _ _ Hr) as Hv. unfold token_matcher, try_build_matcher.
    apply wp_bind. apply wp_bind. eapply wp_conseq; [apply (pattern_wp sy Named Hv)|]. intros p Hp. simpl.
    apply wp_bind. eapply wp_conseq; [apply (pattern_wp sy Rhs Hv)|]. intros rhs Hrhs. simpl. eauto 8. }
  intros shifts Hshs. simpl. constructor; cbn [sc_shift sc_reduce sc_accept sc_check].
  - intros mt s' rhs Hin. destruct (Forall2_in_right _ _ _ _ Hshs Hin) as ([a s1] & Hi1 & sy & p & rhs1 & Ha & He & Hp & Hrhs). simpl in Ha. subst a.
    injection He as -> -> ->. apply Hsh2, Hal' in Hi1 as (a' & Hr & _ & Ha). destruct a' as [i| |]; simpl in Hr; try tauto. exists sy, i, p. auto.
  - intros sy i s' Hr Ha. assert (Hin : In (Token sy, s') (shift_map m)) by (apply Hsh2, Hal; exists (Token i); auto).
    destruct (Forall2_in_left _ _ _ _ Hshs Hin) as (x & Hx & sy' & p & rhs & He & -> & Hp & Hrhs). simpl in He. injection He as <-. eauto.
  - intros ms rc Hin. destruct (Forall2_in_right _ _ _ _ Hreds Hin) as ([j toks] & Hi1 & Hj & Hro & Hms). simpl in *. exists j. split; auto. split; auto.
    intros mt Hm. destruct (Forall2_in_right _ _ _ _ Hms Hm) as (a & Ha & Hma). apply (Permutation_in _ (oo_reduce _ Hho _ _)) in Hi1.
    apply (grouped_in _ _ _ _ _ Hred Hi1) in Ha. apply in_flat_map in Ha as ([a1 act1] & Hx & Hy). unfold reduces_of in Hy. simpl in Hy.
    destruct act1; try (destruct Hy; fail). destruct Hy as [Hy|[]]. injection Hy as -> ->. apply Hal' in Hx as (a' & Hr & _ & Ha'). eauto.
  - intros j a a' Hr Ha. assert (Hin : In (j, a) (flat_map reduces_of al)).
    { apply in_flat_map. exists (a, Reduce j). split; [apply Hal; eauto|simpl; auto]. }
    destruct (grouped_key _ _ _ _ Hred Hin) as (toks & Hi1 & Ht). apply (Permutation_in _ (Permutation_sym (oo_reduce _ Hho [s] _))) in Hi1.
    destruct (Forall2_in_left _ _ _ _ Hreds Hi1) as ([ms rc] & Hx & _ & Hro & Hms). simpl in *. destruct (Forall2_in_left _ _ _ _ Hms Ht) as (mt & Hmt & He).
    exists ms, rc, mt. auto.
  - auto.
  - auto.
  - auto.
  - auto.
Qed.
End Code.

Section Program.
Context {bm : BuildMode}.
Variable literal_ok : string -> bool.
Variable ho : hash_orders.
Variable gi : grammar_info.
Hypothesis Hho : orders_ok ho.
Local Notation g := (source (gi_rules gi)).
Local Notation ig := (gi_grammar gi).
Local Notation t := (gi_table gi).
Local Notation n := (num_states t).

(** Everything known about an accepted grammar and its table. *)
Record setup (F : first_table) (ks : list kernel) (acts : nat -> aug nat -> option action) (gts : nat -> nat -> option nat) : Prop := mk_setup {
  su_ix : indexes g ig;
  su_eps : eps_trailing (igram ig);
  su_geps : eps_trailing g;
  su_eos : no_eos (igram ig);
  su_first : FInv ig F;
  su_ok : table_ok ig F t ks acts gts;
  su_voc : forall s i, tok_rel ig s i -> terminal_in (gi_rules gi) s;
  su_types : forall r, In r (gi_rules gi) -> exists ty, hm_get (pr_name r) (gi_label_types gi) = Some ty;
}.

Lemma source_eps : accepted gi -> eps_trailing g.
Proof.
  intros [_ _ He _] r Hr ns1 ns2 nd Hns Hin. unfold source in Hr. apply in_map_iff in Hr as (pr & <- & Hpr). simpl in Hns.
  assert (Hx : In PNEpsilon (pr_nodes pr)).
  { assert (Hy : In (Terminal Epsilon) (map to_lr_node (pr_nodes pr))) by (rewrite Hns; apply in_or_app; simpl; auto).
    apply in_map_iff in Hy as ([l|s|] & Hy & Hz); try discriminate. auto. }
  rewrite (He _ Hpr Hx) in Hns. simpl in Hns. destruct ns1 as [|? [|? ?]]; simpl in Hns; try discriminate. injection Hns as <-. destruct Hin.
Qed.

Lemma accepted_setup : accepted gi -> exists F ks acts gts, setup F ks acts gts.
Proof.
  intros Hacc. pose proof (source_eps Hacc) as Hge. destruct Hacc as [(f1 & H1) (f2 & H2) He Hty].
  destruct (table_built g ig t f1 f2 H1 H2) as (Hix & F & ks & acts & gts & HF & _ & Hok).
  assert (Hei : eps_trailing (igram ig)) by (eapply eps_trailing_ig; eauto).
  exists F, ks, acts, gts. constructor; auto.
  - eapply gen_no_eos; eauto.
  - intros s i Hr. destruct (indexing_lossless _ _ _ H1) as (_ & _ & _ & _ & _ & _ & Hv).
    assert (Hx : exists r, In r g /\ In (Terminal (Token s)) (rhs r)).
    { apply Hv. exists i. pose proof (augmented_token_to_id_spec (ivocab ig) (Token s) (Token i) (wf_voc _ (ix_wf _ _ Hix))) as Hs.
      apply Hs in Hr. simpl in Hr. destruct (token_to_id (ivocab ig) s); simpl in Hr; congruence. }
    destruct Hx as (r & Hr1 & Hr2). unfold source in Hr1. apply in_map_iff in Hr1 as (pr & <- & Hpr). simpl in Hr2.
    apply in_map_iff in Hr2 as ([l|s'|] & Hy & Hz); try discriminate. injection Hy as ->. exists pr. auto.
Qed.

Definition ptype_ok (acts : nat -> aug nat -> option action) (gts : nat -> nat -> option nat) (s : nat) (ty : option (list ttree)) : Prop :=
  (s = 0 -> ty = None) /\
  forall s0 X nd, s0 < n -> iedge acts gts s0 X s -> prel gi nd X -> node_type gi nd = Some ty.

Record program_ok acts gts (p : program) : Prop := mk_program_ok {
  po_types : length (p_types p) = n /\ forall s ty, nth_error (p_types p) s = Some ty -> ptype_ok acts gts s ty;
  po_states : length (p_states p) = n /\ forall s c, nth_error (p_states p) s = Some c -> code_ok literal_ok gi acts gts s c;
  po_root : p_root p = 0;
}.

Variable Pn : Prop.
Hypothesis Hident : Pn \/ forall s, terminal_in (gi_rules gi) s -> ident_needed gi s -> string_is_identifier (sname s) = true.
Hypothesis Hroot : Pn \/ rootclean ig.
Local Notation wpg m Q := (wp Pn False m Q (gen_fail literal_ok gi)).

Lemma Forall2_seq {B} (P : nat -> B -> Prop) k : forall a l, Forall2 P (seq a k) l -> length l = k /\ forall i b, nth_error l i = Some b -> P (a + i) b.
Proof.
  induction k as [|k IH]; intros a l Hf; simpl in Hf; inversion Hf as [|? b ? l' Hb Hl]; subst; simpl.
  - split; auto. intros [|i] b Hb; discriminate.
  - destruct (IH _ _ Hl) as (H1 & H2). split; [lia|]. intros [|i] b' Hb'; simpl in Hb'; [injection Hb' as <-; rewrite Nat.add_0_r; auto|].
    rewrite Nat.add_succ_r. apply (H2 i b' Hb').
Qed.

Lemma generate_wp F ks acts gts : setup F ks acts gts -> wpg (generate_parser literal_ok ho gi) (program_ok acts gts).
Proof.
  intros [Hix Hei Hge Heos HF Hok Hvoc Hty]. unfold generate_parser, build_lr_state_map.
  destruct (state_map_ok g ig Hix F t ks acts gts Hok (ho_states ho) (oo_states _ Hho)) as (sm & Hsm & Hlen & Hs). rewrite Hsm. cbn [map_err bind].
  assert (Hlt : forall E k, k < labels_count ig -> exists l ty, orig_production_label (E := E) ig k = Ok l /\ ilabel ig k l /\ label_type gi l = Ok ty /\ hm_get l (gi_label_types gi) = Some ty).
  { intros E k Hk. destruct (ilabel_total ig k Hk) as (l & Hl). exists l. destruct (proj2 (defined_ilabel g ig Hix l) (ex_intro _ k Hl)) as (r & Hr & <-).
    unfold source in Hr. apply in_map_iff in Hr as (pr & <- & Hpr). destruct (Hty _ Hpr) as (ty & Hg). exists ty. simpl in *.
    split; [destruct Hl as (m & Hm & He); unfold orig_production_label; rewrite (index_ok _ _ _ Hm); simpl; congruence|]. split; auto.
    unfold label_type. rewrite Hg. auto. }
  assert (Hl0 : 0 < labels_count ig).
  { destruct (wf_root _ (ix_wf _ _ Hix)) as (r & m & Hr & H0 & _). rewrite <- H0. apply (wf_sym _ (ix_wf _ _ Hix)). eapply nth_error_In; eauto. }
  unfold root_production_type, root_production_label. destruct (Hlt gen_error 0 Hl0) as (l0 & ty0 & -> & _ & Ht0 & _). cbn [bind]. rewrite Ht0. cbn [bind].
  apply wp_bind. eapply wp_conseq.
  { apply wp_mapM with (P := ptype_ok acts gts). intros s Hin. apply in_seq in Hin. assert (Hsn : s < n) by lia. clear Hin.
    unfold state_payload_type. destruct (Hs s Hsn) as (l & ty & Hn & _ & _ & Hz & Hnz). unfold state_type. rewrite (index_ok _ _ _ Hn). cbn [bind prev_state_return_type].
    destruct (Nat.eq_dec s 0) as [->|Hs0].
    - rewrite (Hz eq_refl). simpl. split; auto. intros s0 X nd Hs0 He. exfalso. destruct (iedge_kernel ig F t ks acts gts Hok _ _ _ Hs0 He) as (_ & Hx & _). congruence.
    - destruct (Hnz Hs0) as (X & Htx & (s0 & He0) & _). apply (edge_iff g ig Hix F t ks acts gts Hok) in He0 as (Hs0n & X' & Hr' & He').
      assert (Huniq : forall s1 X1, s1 < n -> iedge acts gts s1 X1 s -> X1 = X') by (intros s1 X1 Hs1 He1; exact (iedge_unique ig F t ks acts gts Hok s1 X1 s0 X' s Hs1 Hs0n He1 He')).
      destruct Htx as [a|k lb Hlb].
      + simpl. split; [congruence|]. intros s1 X1 nd Hs1 He1 Hnd. rewrite (Huniq _ _ Hs1 He1) in Hnd. unfold prel in Hnd.
        destruct X' as [a'|k']; simpl in Hr'; [|tauto]. destruct nd as [lb|sy|]; simpl in Hnd; try tauto.
        exfalso. destruct (iedge_rel gi Hix Hei F ks acts gts Hok _ _ _ Hs1 He1) as (_ & _ & Hx). rewrite (Huniq _ _ Hs1 He1) in Hx. destruct a'; simpl in *; tauto || discriminate.
      + apply label_of in Hlb. assert (Hk : k < labels_count ig) by (eapply ilabel_bound; eauto). destruct (Hlt gen_error k Hk) as (l1 & ty1 & -> & Hl1 & Ht1 & Hg1). cbn [bind].
        rewrite Ht1. simpl. split; [congruence|]. intros s1 X1 nd Hs1 He1 Hnd. rewrite (Huniq _ _ Hs1 He1) in Hnd. unfold prel in Hnd.
        destruct X' as [a'|k']; simpl in Hr'; [tauto|]. destruct nd as [lb'|sy|]; simpl in Hnd; try tauto. simpl.
        assert (k = k') as -> by (exact (ilabel_inj g ig Hix k k' lb Hlb Hr')).
        rewrite (ilabel_fun _ _ _ _ Hnd Hl1). auto. }
  intros types Htypes. apply wp_bind. eapply wp_conseq.
  { apply wp_mapM with (P := code_ok literal_ok gi acts gts). intros s Hin. apply in_seq in Hin. eapply state_code_wp; eauto. lia. }
  intros states Hstates. simpl. apply Forall2_seq in Htypes as (Ht1 & Ht2), Hstates as (Hs1 & Hs2).
  constructor; simpl; auto.
Qed.
End Program.
