(** The state map. *)
From Coq Require Import Arith Bool String NArith List Lia Permutation.
From Verif Require Import Base.Prelude Spec.Grammar Spec.Validity Spec.Nullable Spec.Observers Spec.States Model.Error.
From Verif Require Import Model.BitSet Model.FixedMap Model.Vocabulary Model.IndexedGrammar Model.FirstMap.
From Verif Require Import Model.Position Model.Closure Model.LRTable Model.StateMap.
From Verif Require Import Proofs.WP Proofs.BitSetProofs Proofs.FixedMapProofs Proofs.VocabProofs.
From Verif Require Import Proofs.IndexedProofs Proofs.IndexedBuild Proofs.IndexedMain Proofs.FirstProofs.
From Verif Require Import Proofs.ClosureProofs Proofs.ItemSets Proofs.TableProofs Proofs.TableBuild.
From Verif Require Import Proofs.Fuel Proofs.Machine Proofs.ParserFinal Proofs.RecognitionFinal Proofs.IndexedFinal Proofs.LR1Proofs Proofs.LR1Final Proofs.StatesFinal Proofs.TableFinal.
Import ListNotations.

Lemma foldM_flat {E S A B} (f : S -> A -> outcome E S) (h : S -> B -> outcome E S) (k : A -> list B) l :
  (forall s a, In a l -> f s a = foldM h s (k a)) -> forall s, foldM f s l = foldM h s (flat_map k l).
Proof.
  induction l as [|a l IH]; intros Hf s; simpl; auto. rewrite foldM_app, Hf by (simpl; auto).
  destruct (foldM h s (k a)); simpl; auto. apply IH. intros; apply Hf; simpl; auto.
Qed.

Section Map.
Context {T L : Type} `{EqDec T}.
Local Notation E := (lr_error T L).
Local Notation sty := (state_ty T).

Lemma verify_same (ty : sty) : verify_compatible (L := L) ty ty = Ok tt.
Proof. destruct ty; simpl; try rewrite eqb_refl; auto. Qed.

(** Inserting a list of edges (source, type, target). *)
Definition put (maps : list (hash_map nat sty)) (e : nat * sty * nat) : outcome E (list (hash_map nat sty)) :=
  insert_at maps (snd e) (fst (fst e)) (snd (fst e)).

Definition has (n : nat) (maps : list (hash_map nat sty)) (es : list (nat * sty * nat)) : Prop :=
  length maps = n /\ forall i m, nth_error maps i = Some m ->
    NoDup (map fst m) /\ forall s ty, In (s, ty) m <-> (i = 0 /\ s = 0 /\ ty = TyRoot) \/ In (s, ty, i) es.

Lemma put_ok n maps es s ty i : has n maps es -> i < n -> i <> 0 -> (forall s' ty', In (s', ty', i) es -> ty' = ty) ->
  exists maps', put maps (s, ty, i) = Ok maps' /\ has n maps' (es ++ [(s, ty, i)]).
Proof.
  intros (Hl & Hm) Hi H0 Hty. unfold put, insert_at. cbn [fst snd].
  destruct (nth_error maps i) as [m|] eqn:Hn; [|apply nth_error_None in Hn; lia].
  rewrite (index_ok _ _ _ Hn). simpl. destruct (Hm i m Hn) as (Hnd & Hin). unfold insert_state_and_type.
  destruct (hm_get s m) as [ty'|] eqn:Hg.
  - apply hm_get_in in Hg. apply Hin in Hg as [(-> & _)|Hg]; [lia|]. pose proof (Hty _ _ Hg) as ->. rewrite verify_same. simpl.
    rewrite store_ok by lia. eexists. split; [reflexivity|]. split; [rewrite list_set_length; auto|]. intros j m' Hj.
    assert (Hj' : nth_error maps j = Some m').
    { destruct (Nat.eq_dec i j) as [->|Hne]; [rewrite nth_error_list_set_eq in Hj by lia; congruence|rewrite nth_error_list_set_neq in Hj; auto]. }
    destruct (Hm j m' Hj') as (Hnd' & Hin'). split; auto. intros s' ty'. rewrite Hin', in_app_iff. simpl.
    split; [tauto|]. intros [|[|[Hx|[]]]]; auto. injection Hx as <- <- <-. auto.
  - apply hm_get_none in Hg. simpl. rewrite store_ok by lia. eexists. split; [reflexivity|]. split; [rewrite list_set_length; auto|].
    intros j m' Hj. destruct (Nat.eq_dec i j) as [<-|Hne].
    + rewrite nth_error_list_set_eq in Hj by lia. injection Hj as <-. unfold hm_insert_vacant. split.
      * rewrite map_app. simpl. apply (Permutation_NoDup (Permutation_cons_append _ _)). constructor; auto.
      * intros s' ty'. rewrite !in_app_iff, Hin. simpl. split.
        -- intros [[|]|[Hx|[]]]; auto. injection Hx as <- <-. auto.
        -- intros [|[|[Hx|[]]]]; auto. injection Hx as <- <-. auto.
    + rewrite nth_error_list_set_neq in Hj by auto. destruct (Hm j m' Hj) as (Hnd' & Hin'). split; auto.
      intros s' ty'. rewrite Hin', in_app_iff. simpl. split; [tauto|]. intros [|[|[Hx|[]]]]; auto. congruence.
Qed.

Lemma puts_ok n es2 : forall es1 maps, has n maps es1 -> (forall s ty i, In (s, ty, i) (es1 ++ es2) -> i < n /\ i <> 0) ->
  (forall s ty s' ty' i, In (s, ty, i) (es1 ++ es2) -> In (s', ty', i) (es1 ++ es2) -> ty = ty') ->
  exists maps', foldM put maps es2 = Ok maps' /\ has n maps' (es1 ++ es2).
Proof.
  induction es2 as [|[[s ty] i] es2 IH]; intros es1 maps Hh Hb Hc; simpl.
  - rewrite app_nil_r. eauto.
  - destruct (Hb s ty i) as (Hi & H0); [rewrite in_app_iff; simpl; auto|].
    destruct (put_ok n maps es1 s ty i Hh Hi H0) as (maps1 & Hp & Hh1).
    { intros s' ty' Hx. eapply Hc; rewrite in_app_iff; simpl; eauto. }
    rewrite Hp. simpl. assert (He : es1 ++ (s, ty, i) :: es2 = (es1 ++ [(s, ty, i)]) ++ es2) by (rewrite <- app_assoc; auto).
    rewrite He in *. apply IH; auto.
Qed.

Lemma build_info order (m : hash_map nat sty) ty : (forall m, Permutation (order m) m) -> m <> [] -> (forall s ty', In (s, ty') m -> ty' = ty) ->
  exists l, build_from_state_map (L := L) order m = Ok (mk_info l ty) /\ Permutation l (map fst m).
Proof.
  intros Ho Hne Hty. unfold build_from_state_map. pose proof (Ho m) as Hp. destruct (order m) as [|[s1 ty1] l]; [apply Permutation_nil in Hp; congruence|].
  assert (Hl : forall s ty', In (s, ty') ((s1, ty1) :: l) -> ty' = ty) by (intros s ty' Hx; apply (Hty s); eapply Permutation_in; eauto).
  pose proof (Hl s1 ty1 (or_introl eq_refl)) as ->.
  assert (Hf : forall l acc, (forall s ty', In (s, ty') l -> ty' = ty) ->
    foldM (fun (prev_states : list nat) (e : nat * sty) => _ <- verify_compatible (L := L) ty (snd e) ;; Ok (prev_states ++ [fst e])) acc l =
      Ok (acc ++ map fst l)).
  { clear. induction l as [|[s ty'] l IH]; intros acc Hl; simpl; [rewrite app_nil_r; auto|].
    rewrite (Hl s ty' (or_introl eq_refl)), verify_same. simpl. rewrite IH by (intros; eapply Hl; simpl; eauto). rewrite <- app_assoc. auto. }
  rewrite Hf by (intros; eapply Hl; simpl; eauto). simpl. eexists. split; [reflexivity|].
  change (s1 :: map fst l) with (map fst ((s1, ty) :: l)). apply Permutation_map. auto.
Qed.

End Map.

Section Table.
Context {bm : BuildMode} {T L : Type} `{EqDec T} `{EqDec L}.
Variable g : grammar T L.
Variable ig : indexed_grammar T L.
Hypothesis Hix : indexes g ig.
Variable F : first_table.
Variable t : lr_table.
Variable ks : list kernel.
Variable acts : nat -> aug nat -> option action.
Variable gts : nat -> nat -> option nat.
Hypothesis Hok : table_ok ig F t ks acts gts.
Local Notation E := (lr_error T L).
Local Notation sty := (state_ty T).
Let Hwf := ix_wf g ig Hix.

Definition iedge (s : nat) (X : inode) (s' : nat) : Prop :=
  match X with
  | Terminal a' => acts s a' = Some (Shift s')
  | Production k => gts s k = Some s'
  end.

Lemma edge_iff s X s' : edge ig t s X s' <-> s < num_states t /\ exists X', inode_rel ig X X' /\ iedge s X' s'.
Proof.
  split.
  - intros He. destruct (Nat.lt_ge_cases s (num_states t)) as [Hs|Hge].
    + split; auto. destruct He as [a a' s' Ha Hx|l k s' Ha Hx].
      * apply (augmented_token_to_id_spec _ _ _ (wf_voc _ Hwf)) in Ha. rewrite (get_action_ok ig _ _ _ _ _ Hok) in Hx by (auto; eapply aug_rel_bound; eauto).
        exists (Terminal a'). split; auto. simpl. congruence.
      * apply label_of in Ha. rewrite (get_goto_ok ig _ _ _ _ _ Hok) in Hx by (auto; eapply ilabel_bound; eauto).
        exists (Production k). split; auto. simpl. congruence.
    + exfalso. destruct He as [a a' s' Ha Hx|l k s' Ha Hx].
      * unfold get_action in Hx. rewrite (table_vocab_size_ok ig _ _ _ _ _ Hok) in Hx. simpl in Hx. apply index_inv in Hx.
        assert (Hlt : vocab_size (ivocab ig) * s + label_id a' < length (action_table t)) by (apply nth_error_Some; congruence).
        rewrite (to_len_a _ _ _ _ _ _ Hok) in Hlt. nia.
      * unfold get_goto in Hx. rewrite (num_production_labels_ok ig _ _ _ _ _ Hok) in Hx. simpl in Hx. apply index_inv in Hx.
        assert (Hlt : labels_count ig * s + k < length (goto_table t)) by (apply nth_error_Some; congruence).
        rewrite (to_len_g _ _ _ _ _ _ Hok) in Hlt. nia.
  - intros (Hs & [a'|k] & Hr & He); destruct X as [a|l]; simpl in Hr; try tauto.
    + eapply edge_shift; [apply (augmented_token_to_id_spec _ _ _ (wf_voc _ Hwf)); eauto|].
      rewrite (get_action_ok ig _ _ _ _ _ Hok) by (auto; eapply aug_rel_bound; eauto). simpl in He. congruence.
    + eapply edge_goto; [apply label_of; eauto|]. rewrite (get_goto_ok ig _ _ _ _ _ Hok) by (auto; eapply ilabel_bound; eauto). simpl in He. congruence.
Qed.

(** An edge carries the symbol before the kernel positions of its target. *)
Lemma iedge_kernel s X s' : s < num_states t -> iedge s X s' -> s' < num_states t /\ s' <> 0 /\
  exists K, nth_error ks s' = Some K /\ K <> [] /\ forall q, In q K -> exists p, pos q = p + 1 /\ nextn ig (production_id q) p = Some X.
Proof.
  intros Hs He. apply (state_kernel ig F t ks acts gts Hok) in Hs as (K0 & HK0).
  assert (Hg : exists K, nth_error ks s' = Some K /\ goto_of ig F K0 X K).
  { destruct X as [a'|k]; simpl in He; [destruct (to_shift _ _ _ _ _ _ Hok _ _ _ _ HK0 He) as (Hx & _)|destruct (to_goto _ _ _ _ _ _ Hok _ _ _ _ HK0 He) as (Hx & _)]; auto. }
  destruct Hg as (K & HK & Hg & _).
  assert (Hq : forall q, In q K -> exists p, pos q = p + 1 /\ nextn ig (production_id q) p = Some X).
  { intros q Hq. destruct (proj1 (Hg (production_id q) (pos q))) as (p & Hp & _ & Hn); eauto. }
  pose proof (ki_nonempty _ _ _ (to_kinv _ _ _ _ _ _ Hok _ _ HK)) as Hne.
  split; [apply (state_kernel ig F t ks acts gts Hok); eauto|]. split; [|eauto]. intros ->.
  destruct (to_root _ _ _ _ _ _ Hok) as (K1 & HK1 & HR & _). rewrite HK in HK1. injection HK1 as <-.
  destruct K as [|q K]; [congruence|]. destruct (Hq q (or_introl eq_refl)) as (p & Hp & _).
  assert (Hc : core ig [] (production_id q) (pos q)) by (apply HR; left; exists q; simpl; auto).
  assert (Hz : forall γ i p, core ig γ i p -> γ = [] -> p = 0) by (induction 1; auto; discriminate).
  apply Hz in Hc; auto. lia.
Qed.

Lemma iedge_unique s X s0 X0 s' : s < num_states t -> s0 < num_states t -> iedge s X s' -> iedge s0 X0 s' -> X = X0.
Proof.
  intros Hs Hs0 He He0. destruct (iedge_kernel _ _ _ Hs He) as (_ & _ & K & HK & Hne & Hq).
  destruct (iedge_kernel _ _ _ Hs0 He0) as (_ & _ & K0 & HK0 & _ & Hq0). rewrite HK in HK0. injection HK0 as <-.
  destruct K as [|q K]; [congruence|]. destruct (Hq q (or_introl eq_refl)) as (p & Hp & Hn). destruct (Hq0 q (or_introl eq_refl)) as (p0 & Hp0 & Hn0).
  assert (p = p0) by lia. congruence.
Qed.

Lemma edge_into s' : s' < num_states t -> s' <> 0 -> exists s X, edge ig t s X s'.
Proof.
  intros Hs H0'. destruct (to_reach _ _ _ _ _ _ Hok s' Hs) as [->|(s & Hlt & Hx)]; [congruence|]. exists s.
  destruct Hx as [(a' & Ha & Hx)|(k & Hk & Hx)].
  - destruct (@id_to_token_spec T unit (ivocab ig) a' Ha) as (a & _ & Har). exists (Terminal a). apply edge_iff. split; [lia|]. exists (Terminal a'). auto.
  - destruct (ilabel_total ig k Hk) as (l & Hl). exists (Production l). apply edge_iff. split; [lia|]. exists (Production k). auto.
Qed.

(** The list of edges the code goes through. *)
Definition acts_of (s : nat) : list (aug T * action) := match state_actions (E := E) t ig s with Ok l => l | _ => [] end.
Definition gts_of (s : nat) : list (nat * nat) := match goto_actions (E := E) t ig s with Ok l => l | _ => [] end.
Definition shift_edges (s : nat) (e : aug T * action) : list (nat * sty * nat) :=
  match snd e with Shift s' => [(s, TyTerminal (fst e), s')] | _ => [] end.
Definition goto_edge (s : nat) (e : nat * nat) : list (nat * sty * nat) := [(s, TyReduce (fst e), snd e)].
Definition edges_of (s : nat) : list (nat * sty * nat) := flat_map (shift_edges s) (acts_of s) ++ flat_map (goto_edge s) (gts_of s).

Lemma map_state_edges maps s : s < num_states t -> map_state ig t maps s = foldM put maps (edges_of s).
Proof.
  intros Hs. unfold map_state, edges_of, acts_of, gts_of.
  destruct (state_actions_ok g ig Hix F t ks acts gts Hok E s Hs) as (al & -> & _). simpl.
  destruct (goto_actions_ok ig F t ks acts gts Hok E s Hs) as (gl & -> & _). simpl. rewrite foldM_app.
  rewrite (foldM_flat _ put (shift_edges s)).
  - destruct (foldM put maps (flat_map (shift_edges s) al)); simpl; auto. apply foldM_flat. intros ms e _. simpl. unfold put. simpl.
    destruct (insert_at ms (snd e) s (TyReduce (fst e))); auto.
  - intros ms [a act] _. unfold shift_edges. cbn [fst snd]. destruct act; simpl; auto. unfold put. simpl. destruct (insert_at ms next_state s (TyTerminal a)); auto.
Qed.

Lemma edges_of_in s s0 ty s' : s < num_states t -> (In (s0, ty, s') (edges_of s) <-> s0 = s /\ exists X, ty_symbol ig ty X /\ edge ig t s X s').
Proof.
  intros Hs. unfold edges_of, acts_of, gts_of.
  destruct (state_actions_ok g ig Hix F t ks acts gts Hok E s Hs) as (al & -> & _ & Hal).
  destruct (goto_actions_ok ig F t ks acts gts Hok E s Hs) as (gl & -> & _ & Hgl). rewrite in_app_iff, !in_flat_map. split.
  - intros [([a act] & Hin & Hx)|([k s1] & Hin & Hx)].
    + apply Hal in Hin as (a' & Ha & Hact). unfold shift_edges in Hx. cbn [fst snd] in Hx. destruct act; simpl in Hx; try tauto. destruct Hx as [Hx|[]].
      injection Hx as <- <- <-. split; auto. exists (Terminal a). split; [constructor|]. apply edge_iff. split; auto. exists (Terminal a'). auto.
    + apply Hgl in Hin as (Hk & Hact). simpl in Hx. destruct Hx as [Hx|[]]. injection Hx as <- <- <-. split; auto.
      destruct (ilabel_total ig k Hk) as (l & Hl). exists (Production l). split; [constructor; apply label_of; auto|]. apply edge_iff. split; auto. exists (Production k). auto.
  - intros (-> & X & Hty & He). apply edge_iff in He as (_ & X' & Hr & He). destruct Hty as [a|k l Hk].
    + left. destruct X' as [a'|]; simpl in Hr; try tauto. exists (a, Shift s'). split; [apply Hal; exists a'; auto|]. simpl. auto.
    + right. destruct X' as [|k']; simpl in Hr; try tauto. apply label_of in Hk. pose proof (ilabel_inj g ig Hix _ _ _ Hk Hr) as <-.
      exists (k, s'). split; [apply Hgl; split; [eapply ilabel_bound; eauto|auto]|]. simpl. auto.
Qed.

Lemma ty_symbol_fun ty X X' : ty_symbol ig ty X -> ty_symbol ig ty X' -> X = X'.
Proof. intros H1 H2. destruct H1; inversion H2; subst; auto; congruence. Qed.

Lemma ty_symbol_inj ty ty' X : ty_symbol ig ty X -> ty_symbol ig ty' X -> ty = ty'.
Proof.
  intros H1 H2. destruct H1 as [|k l Hk]; inversion H2 as [|k' l' Hk']; subst; auto. apply label_of in Hk, Hk'.
  f_equal. eapply (ilabel_inj g ig Hix); eauto.
Qed.

Lemma edge_ty s X s' : edge ig t s X s' -> exists ty, ty_symbol ig ty X.
Proof. destruct 1 as [a|l k s' Hk]; [exists (TyTerminal a); constructor|exists (TyReduce k); constructor; auto]. Qed.

Lemma edge_unique s X s0 X0 s' : edge ig t s X s' -> edge ig t s0 X0 s' -> X = X0.
Proof.
  intros He He0. apply edge_iff in He as (Hs & X' & Hr & He). apply edge_iff in He0 as (Hs0 & X0' & Hr0 & He0).
  pose proof (iedge_unique _ _ _ _ _ Hs Hs0 He He0) as <-. destruct X, X0, X'; simpl in *; try tauto; f_equal; [eapply aug_rel_fun|eapply ilabel_fun]; eauto.
Qed.

Lemma state_map_ok order : (forall m, Permutation (order m) m) -> exists sm, build_from_lr_table order ig t = Ok sm /\ length sm = num_states t /\
  forall s, s < num_states t -> exists l ty, nth_error sm s = Some (mk_info l ty) /\ NoDup l /\
    (forall s0, In s0 l <-> (exists X, edge ig t s0 X s) \/ s0 = 0 /\ s = 0) /\
    (s = 0 -> ty = TyRoot) /\ (s <> 0 -> exists X, ty_symbol ig ty X /\ (exists s0, edge ig t s0 X s) /\ forall s0 X', edge ig t s0 X' s -> X' = X).
Proof.
  intros Ho. set (n := num_states t). pose proof (num_states_pos ig F t ks acts gts Hok) as Hn. fold n in Hn.
  unfold build_from_lr_table. fold n.
  assert (Hn0 : nth_error (map (fun _ : nat => @nil (nat * sty)) (seq 0 n)) 0 = Some []) by (destruct n; [lia|reflexivity]).
  rewrite (index_ok _ _ _ Hn0). cbn [bind]. rewrite store_ok by (rewrite map_length, seq_length; auto). cbn [bind].
  change (hm_insert_vacant root_state TyRoot []) with [(root_state, @TyRoot T)]. unfold table_states. fold n.
  set (es := flat_map edges_of (seq 0 n)).
  assert (Hes : forall s ty s', In (s, ty, s') es <-> exists X, ty_symbol ig ty X /\ edge ig t s X s').
  { intros s ty s'. unfold es. rewrite in_flat_map. split.
    - intros (s1 & Hs1 & Hin). apply in_seq in Hs1. apply edges_of_in in Hin as (-> & Hx); auto. fold n. lia.
    - intros (X & Hty & He). pose proof (proj1 (proj1 (edge_iff _ _ _) He)) as Hs. exists s. split; [apply in_seq; fold n in Hs; lia|].
      apply edges_of_in; auto. split; eauto. }
  rewrite (foldM_flat _ put edges_of) by (intros ms s Hs; apply map_state_edges; apply in_seq in Hs; fold n; lia). fold es.
  destruct (puts_ok (L := L) n es [] (list_set (map (fun _ : nat => @nil (nat * sty)) (seq 0 n)) 0 [(root_state, TyRoot)])) as (maps & Hf & Hl & Hm).
  - split; [rewrite list_set_length, map_length, seq_length; auto|]. intros i m Hi. destruct i as [|i].
    + rewrite nth_error_list_set_eq in Hi by (rewrite map_length, seq_length; auto). injection Hi as <-. simpl. split; [constructor; [auto|constructor]|].
      intros s ty. unfold root_state. split; [intros [Hx|[]]; injection Hx as <- <-; auto|intros [(_ & -> & ->)|[]]; auto].
    + rewrite nth_error_list_set_neq in Hi by auto. apply nth_error_In, in_map_iff in Hi as (_ & <- & _). simpl. split; [constructor|]. intros s ty.
      split; [tauto|]. intros [(Hx & _)|[]]. discriminate.
  - simpl. intros s ty i Hin. apply Hes in Hin as (X & _ & He). apply edge_iff in He as (Hs & X' & _ & He). destruct (iedge_kernel _ _ _ Hs He) as (H1 & H2 & _). auto.
  - simpl. intros s ty s' ty' i H1 H2. apply Hes in H1 as (X & Ht1 & He1). apply Hes in H2 as (X' & Ht2 & He2).
    pose proof (edge_unique _ _ _ _ _ He1 He2) as <-. eapply ty_symbol_inj; eauto.
  - cbn [app] in Hf, Hm. rewrite Hf. cbn [bind]. rewrite Hl, Nat.eqb_refl, debug_assert_true. simpl.
    assert (Hall : forall i m, nth_error maps i = Some m -> exists ty l, build_from_state_map (L := L) order m = Ok (mk_info l ty) /\ Permutation l (map fst m) /\
      forall s ty', In (s, ty') m -> ty' = ty).
    { intros i m Hi. destruct (Hm i m Hi) as (Hnd & Hin). assert (Hilt : i < n) by (rewrite <- Hl; apply nth_error_Some; congruence).
      assert (Hty : exists s ty, In (s, ty) m /\ forall s' ty', In (s', ty') m -> ty' = ty).
      { destruct (Nat.eq_dec i 0) as [->|Hi0].
        - exists 0, TyRoot. split; [apply Hin; auto|]. intros s' ty' Hx. apply Hin in Hx as [(_ & _ & ->)|Hx]; auto.
          apply Hes in Hx as (X & _ & He). apply edge_iff in He as (Hs & X' & _ & He). destruct (iedge_kernel _ _ _ Hs He) as (_ & H2 & _). congruence.
        - destruct (edge_into i Hilt Hi0) as (s & X & He). destruct (edge_ty _ _ _ He) as (ty & Hty). exists s, ty. split; [apply Hin; right; apply Hes; eauto|].
          intros s' ty' Hx. apply Hin in Hx as [(-> & _)|Hx]; [congruence|]. apply Hes in Hx as (X' & Ht2 & He2).
          pose proof (edge_unique _ _ _ _ _ He He2) as <-. eapply ty_symbol_inj; eauto. }
      destruct Hty as (s & ty & Hx & Hty). destruct (build_info (L := L) order m ty Ho) as (l & Hb & Hp); [intros ->; destruct Hx|eauto|eauto 6]. }
    destruct (mapM (build_from_state_map order) maps) as [sm|e|w|] eqn:Hsm.
    2-4: exfalso; clear -Hall Hsm; assert (Hx : wp False False (mapM (build_from_state_map (L := L) order) maps) (fun _ => True) (fun _ => False));
      [eapply wp_conseq; [apply (wp_mapM (fun _ _ => True)); intros m Hm; apply In_nth_error in Hm as (i & Hi); destruct (Hall i m Hi) as (ty & l & -> & _); simpl; auto|auto]|rewrite Hsm in Hx; exact Hx].
    exists sm. split; auto.
    assert (HF2 : Forall2 (fun m info => build_from_state_map (L := L) order m = Ok info) maps sm).
    { clear -Hsm. revert sm Hsm. induction maps as [|m maps IH]; intros sm Hsm; simpl in Hsm; [injection Hsm as <-; constructor|].
      destruct (build_from_state_map order m) as [b| | |] eqn:Hb; try discriminate. simpl in Hsm. destruct (mapM (build_from_state_map order) maps); try discriminate.
      injection Hsm as <-. constructor; auto. }
    split; [rewrite <- (Forall2_len _ _ _ HF2); auto|]. intros s Hs. fold n in Hs.
    destruct (nth_error maps s) as [m|] eqn:Hms; [|apply nth_error_None in Hms; lia].
    destruct (Forall2_nth_l _ _ _ _ _ HF2 Hms) as (info & Hi & Hb). destruct (Hall _ _ Hms) as (ty & l & Hb' & Hp & Hty).
    rewrite Hb in Hb'. injection Hb' as ->. destruct (Hm _ _ Hms) as (Hnd & Hin). exists l, ty. split; auto.
    split; [apply (Permutation_NoDup (Permutation_sym Hp)); auto|].
    assert (Hml : forall s0, In s0 l <-> exists ty, In (s0, ty) m).
    { intros s0. split.
      - intros Hx. apply (Permutation_in _ Hp), in_map_iff in Hx as ([a b] & <- & Hx). eauto.
      - intros (ty0 & Hx). apply (Permutation_in _ (Permutation_sym Hp)). apply in_map_iff. exists (s0, ty0). auto. }
    split.
    { intros s0. rewrite Hml. split.
      - intros (ty0 & Hx). apply Hin in Hx as [(-> & -> & _)|Hx]; auto. apply Hes in Hx as (X & _ & He). eauto.
      - intros [(X & He)|(-> & ->)]; [|exists TyRoot; apply Hin; auto]. destruct (edge_ty _ _ _ He) as (ty0 & Ht0). exists ty0. apply Hin. right. apply Hes. eauto. }
    split.
    { intros ->. symmetry. apply (Hty 0). apply Hin. auto. }
    intros Hs0. destruct (edge_into s Hs Hs0) as (s0 & X & He). destruct (edge_ty _ _ _ He) as (ty0 & Ht0). exists X.
    assert (ty0 = ty) as <- by (apply (Hty s0); apply Hin; right; apply Hes; eauto). split; auto. split; [eauto|].
    intros s1 X' He'. eapply edge_unique; eauto.
Qed.

End Table.

Section Final.
Context {bm : BuildMode} {T L : Type} `{EqDec T} `{EqDec L}.
Variable g : grammar T L.
Variable ig : indexed_grammar T L.
Variable t : lr_table.
Variables fuel fuel' : nat.
Hypothesis Hig : indexed_build fuel g = Ok ig.
Hypothesis Ht : table_build ig fuel' = Ok t.

Theorem state_map_types order : (forall m, Permutation (order m) m) ->
  exists sm, build_from_lr_table order ig t = Ok sm /\ state_type (E := unit) sm root_state = Ok TyRoot /\
  (forall s X, ~ edge ig t s X root_state) /\
  forall s, s < num_states t -> s <> root_state -> exists ty X, state_type (E := unit) sm s = Ok ty /\ ty_symbol ig ty X /\
    (exists s0, edge ig t s0 X s) /\ forall s0 X', edge ig t s0 X' s -> X' = X.
Proof.
  intros Ho. destruct (table_built g ig t _ _ Hig Ht) as (Hix & F & ks & acts & gts & HF & HFb & Hok).
  destruct (state_map_ok g ig Hix F t ks acts gts Hok order Ho) as (sm & Hsm & Hl & Hs). exists sm. split; auto.
  pose proof (num_states_pos ig F t ks acts gts Hok) as Hn. split.
  - destruct (Hs 0 Hn) as (l & ty & Hi & _ & _ & Hty & _). unfold state_type, root_state. rewrite (index_ok _ _ _ Hi). simpl. rewrite Hty; auto.
  - split.
    + intros s X He. apply (edge_iff g ig Hix F t ks acts gts Hok) in He as (Hs' & X' & _ & He).
      destruct (iedge_kernel ig F t ks acts gts Hok _ _ _ Hs' He) as (_ & Hne & _). apply Hne. reflexivity.
    + intros s Hlt Hne. destruct (Hs s Hlt) as (l & ty & Hi & _ & _ & _ & Hty). destruct (Hty Hne) as (X & Hx). exists ty, X. split; auto.
      unfold state_type. rewrite (index_ok _ _ _ Hi). reflexivity.
Qed.

Theorem state_map_back_edges order sm s : (forall m, Permutation (order m) m) -> build_from_lr_table order ig t = Ok sm -> s < num_states t ->
  exists l, back_edges (E := unit) sm s = Ok l /\ NoDup l /\ forall s0, In s0 l <-> (exists X, edge ig t s0 X s) \/ s0 = root_state /\ s = root_state.
Proof.
  intros Ho Hb Hlt. destruct (table_built g ig t _ _ Hig Ht) as (Hix & F & ks & acts & gts & HF & HFb & Hok).
  destruct (state_map_ok g ig Hix F t ks acts gts Hok order Ho) as (sm' & Hsm & Hl & Hs). rewrite Hb in Hsm. injection Hsm as <-.
  destruct (Hs s Hlt) as (l & ty & Hi & Hnd & Hin & _). exists l. unfold back_edges. rewrite (index_ok _ _ _ Hi). auto.
Qed.
End Final.
