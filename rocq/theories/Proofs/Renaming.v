(** What is built for a grammar does not depend on the names in it. *)
From Coq Require Import Arith Bool String NArith List Lia.
From Verif Require Import Base.Prelude Spec.Grammar Spec.Renaming Model.Error.
From Verif Require Import Model.BitSet Model.FixedMap Model.Vocabulary Model.IndexedGrammar Model.FirstMap Model.Position Model.Closure Model.LRTable Model.ParseSimulator.
Import ListNotations.

(** ** Results that agree *)
Inductive orel {E E' A A'} (RE : E -> E' -> Prop) (RA : A -> A' -> Prop) : outcome E A -> outcome E' A' -> Prop :=
| orel_ok a a' : RA a a' -> orel RE RA (Ok a) (Ok a')
| orel_err e e' : RE e e' -> orel RE RA (Err e) (Err e')
| orel_panic w : orel RE RA (Panic w) (Panic w)
| orel_diverge : orel RE RA Diverge Diverge.

Section Lift.
Context {E E' : Type}.
Variable RE : E -> E' -> Prop.

Lemma orel_bind {A A' B B'} (RA : A -> A' -> Prop) (RB : B -> B' -> Prop) m m' k k' :
  orel RE RA m m' -> (forall a a', RA a a' -> orel RE RB (k a) (k' a')) -> orel RE RB (bind m k) (bind m' k').
Proof. intros [a a' H|e e' H|w|] Hk; cbn [bind]; [apply Hk; auto|constructor; auto|constructor|constructor]. Qed.

(** Results with equal values. *)
Lemma orel_bind_eq {A B B'} (RB : B -> B' -> Prop) (m : outcome E A) (m' : outcome E' A) k k' :
  orel RE eq m m' -> (forall a, orel RE RB (k a) (k' a)) -> orel RE RB (bind m k) (bind m' k').
Proof. intros H Hk. eapply orel_bind; [exact H|]. intros a _ <-. apply Hk. Qed.

Lemma orel_foldM {S S' A A'} (RS : S -> S' -> Prop) (RA : A -> A' -> Prop) f f' l l' : Forall2 RA l l' ->
  (forall s s' a a', RS s s' -> RA a a' -> orel RE RS (f s a) (f' s' a')) -> forall s s', RS s s' -> orel RE RS (foldM f s l) (foldM f' s' l').
Proof.
  intros Hl Hf. induction Hl as [|a a' l l' Ha _ IH]; intros s s' Hs; cbn [foldM]; [constructor; auto|].
  eapply orel_bind; [apply Hf; eauto|]. intros; apply IH; auto.
Qed.
Lemma orel_foldM_eq {S A} (f : S -> A -> outcome E S) (f' : S -> A -> outcome E' S) l :
  (forall s a, orel RE eq (f s a) (f' s a)) -> forall s, orel RE eq (foldM f s l) (foldM f' s l).
Proof. intros Hf. induction l as [|a l IH]; intros s; cbn [foldM]; [constructor; auto|]. apply orel_bind_eq; auto. Qed.

Lemma orel_mapM_eq {A B} (f : A -> outcome E B) (f' : A -> outcome E' B) l :
  (forall a, orel RE eq (f a) (f' a)) -> orel RE eq (mapM f l) (mapM f' l).
Proof.
  intros Hf. induction l as [|a l IH]; cbn [mapM]; [constructor; auto|]. apply orel_bind_eq; auto. intros b. apply orel_bind_eq; auto.
  intros bs. constructor. auto.
Qed.

Lemma orel_accumM {S S' A A' B B'} (RS : S -> S' -> Prop) (RA : A -> A' -> Prop) (RB : B -> B' -> Prop) f f' l l' : Forall2 RA l l' ->
  (forall s s' a a', RS s s' -> RA a a' -> orel RE (fun p p' => RS (fst p) (fst p') /\ RB (snd p) (snd p')) (f s a) (f' s' a')) ->
  forall s s', RS s s' -> orel RE (fun p p' => RS (fst p) (fst p') /\ Forall2 RB (snd p) (snd p')) (map_accumM f s l) (map_accumM f' s' l').
Proof.
  intros Hl Hf. induction Hl as [|a a' l l' Ha _ IH]; intros s s' Hs; cbn [map_accumM]; [constructor; split; [exact Hs|constructor]|].
  eapply orel_bind; [apply Hf; eauto|]. intros (s1 & b) (s1' & b') (H1 & H2). cbn [fst snd] in *.
  eapply orel_bind; [apply IH; eauto|]. intros (s2 & bs) (s2' & bs') (H3 & H4). constructor. cbn [fst snd] in *. auto.
Qed.

Lemma orel_allM_eq {A} (f : A -> outcome E bool) (f' : A -> outcome E' bool) l :
  (forall a, orel RE eq (f a) (f' a)) -> orel RE eq (allM f l) (allM f' l).
Proof.
  intros Hf. induction l as [|a l IH]; cbn [allM]; [constructor; auto|]. apply orel_bind_eq; auto. intros [|]; auto. constructor. auto.
Qed.

Lemma orel_while_eq {S R} (f : S -> outcome E (S + R)) (f' : S -> outcome E' (S + R)) fuel :
  (forall s, orel RE eq (f s) (f' s)) -> forall s, orel RE eq (while_loop fuel f s) (while_loop fuel f' s).
Proof.
  intros Hf. induction fuel as [|fuel IH]; intros s; cbn [while_loop]; [constructor|]. apply orel_bind_eq; auto. intros [s'|r]; auto. constructor. auto.
Qed.

Lemma orel_same {A} (a : A) : orel RE eq (Ok a) (Ok a).
Proof. constructor. auto. Qed.
Lemma orel_index {A} (l : list A) i : orel RE eq (index l i) (index l i).
Proof. unfold index. destruct (nth_error l i); constructor; auto. Qed.
Lemma orel_store {A} (l : list A) i a : orel RE eq (store l i a) (store l i a).
Proof. unfold store. destruct (i <? List.length l); constructor; auto. Qed.
Lemma orel_slice_from {A} (l : list A) i : orel RE eq (slice_from l i) (slice_from l i).
Proof. unfold slice_from. destruct (i <=? List.length l); constructor; auto. Qed.
Lemma orel_expect {A} (o : option A) w : orel RE eq (expect o w) (expect o w).
Proof. destruct o; constructor; auto. Qed.
Context {bm : BuildMode}.
Lemma orel_assert b w : orel RE eq (debug_assert b w) (debug_assert b w).
Proof. unfold debug_assert. destruct debug_assertions, b; constructor; auto. Qed.
Lemma orel_assertM m m' w : orel RE eq m m' -> orel RE eq (debug_assertM m w) (debug_assertM m' w).
Proof.
  intros H. unfold debug_assertM. destruct debug_assertions; [|constructor; auto]. apply orel_bind_eq; auto. intros [|]; constructor; auto.
Qed.
End Lift.

(** Going through code that does not look at names. *)
Create HintDb same.
#[local] Hint Resolve orel_same orel_index orel_store orel_slice_from orel_expect orel_assert : same.
#[local] Hint Constructors orel : same.
Ltac go := repeat first
  [ progress intros | progress cbn [fst snd]
  | solve [eauto 2 with same nocore]
  | apply orel_bind_eq | apply orel_foldM_eq | apply orel_mapM_eq | apply orel_allM_eq | apply orel_while_eq | apply orel_assertM
  | match goal with
    | |- orel _ _ (match ?x with _ => _ end) (match ?x with _ => _ end) => destruct x
    | |- orel _ _ (let '(_, _) := ?x in _) _ => destruct x
    | |- orel _ eq (Ok _) (Ok _) => apply orel_same
    end ].

Section Sets.
Context {bm : BuildMode} {E E' : Type}.
Variable RE : E -> E' -> Prop.
Lemma same_bs_has s b : orel RE eq (bs_has s b) (bs_has s b).
Proof. unfold bs_has. go. Qed.
Lemma same_bs_set s b : orel RE eq (bs_set s b) (bs_set s b).
Proof. unfold bs_set. go. Qed.
Lemma same_bs_clear s b : orel RE eq (bs_clear s b) (bs_clear s b).
Proof. unfold bs_clear. go. Qed.
Lemma same_bs_full s : orel RE eq (bs_full s) (bs_full s).
Proof. unfold bs_full. go. Qed.
Lemma same_vs_has s b : orel RE eq (vs_has s b) (vs_has s b).
Proof. apply same_bs_has. Qed.
Lemma same_vs_set s b : orel RE eq (vs_set s b) (vs_set s b).
Proof. apply same_bs_set. Qed.
Lemma same_vs_clear s b : orel RE eq (vs_clear s b) (vs_clear s b).
Proof. apply same_bs_clear. Qed.

Context {K V : Type} `{Label K}.
Lemma same_deref (m : sparse_map K V) i : orel RE eq (sm_deref m i) (sm_deref m i).
Proof. unfold sm_deref. go. Qed.
Lemma same_assign (m : sparse_map K V) i v : orel RE eq (sm_assign m i v) (sm_assign m i v).
Proof. unfold sm_assign. go. Qed.
Lemma same_maybe (m : sparse_map K V) k : orel RE eq (sm_maybe_index m k) (sm_maybe_index m k).
Proof. unfold sm_maybe_index. go. Qed.
Hint Resolve same_deref same_assign same_maybe : same.
Lemma same_get (m : sparse_map K V) k : orel RE eq (sm_get m k) (sm_get m k).
Proof. unfold sm_get. go. Qed.
Lemma same_get_mut (m : sparse_map K V) k : orel RE eq (sm_get_mut m k) (sm_get_mut m k).
Proof. unfold sm_get_mut. go. Qed.
Lemma same_insert (m : sparse_map K V) k v : orel RE eq (sm_insert m k v) (sm_insert m k v).
Proof. unfold sm_insert. go. Qed.
Hint Resolve same_insert : same.
Lemma same_try_insert (m : sparse_map K V) k v : orel RE eq (sm_try_insert m k v) (sm_try_insert m k v).
Proof. unfold sm_try_insert. go. Qed.
Lemma same_get_or_insert (m : sparse_map K V) k v : orel RE eq (sm_get_mut_or_insert_with m k v) (sm_get_mut_or_insert_with m k v).
Proof. unfold sm_get_mut_or_insert_with. go. Qed.
End Sets.
#[local] Hint Resolve same_bs_has same_bs_set same_bs_clear same_bs_full same_vs_has same_vs_set same_vs_clear same_deref same_assign same_maybe same_get same_get_mut
  same_insert same_try_insert same_get_or_insert : same.

(** ** Grammars that differ in names only *)
Definition ranges {L} (ms : list (rule_meta L)) : list (nat * nat) := map (fun m => (start_index m, end_index m)) ms.
Definition alike {T L T' L'} (g : indexed_grammar T L) (g' : indexed_grammar T' L') : Prop :=
  rules g' = rules g /\ ranges (rule_metadata g') = ranges (rule_metadata g) /\ vocab_size (ivocab g') = vocab_size (ivocab g).

Section Alike.
Context {bm : BuildMode} {T L T' L' : Type}.
Variable g : indexed_grammar T L.
Variable g' : indexed_grammar T' L'.
Hypothesis Hg : alike g g'.

Lemma count_alike : labels_count g' = labels_count g.
Proof. unfold labels_count. destruct Hg as (_ & Hr & _). apply (f_equal (@List.length _)) in Hr. unfold ranges in Hr. now rewrite !map_length in Hr. Qed.
Lemma labels_alike : all_production_labels g' = all_production_labels g.
Proof. unfold all_production_labels. now rewrite count_alike. Qed.
Lemma vs_new_alike : vs_new (ivocab g') = vs_new (ivocab g).
Proof. unfold vs_new. destruct Hg as (_ & _ & Hv). now rewrite Hv. Qed.

Section Any.
Context {E E' : Type}.
Variable RE : E -> E' -> Prop.

Lemma same_rule i : orel RE eq (production_rule g i) (production_rule g' i).
Proof. unfold production_rule. rewrite (proj1 Hg). go. Qed.
Hint Resolve same_rule : same.
Lemma same_ids l : orel RE eq (production_rule_ids_for_label g l) (production_rule_ids_for_label g' l).
Proof.
  unfold production_rule_ids_for_label, index. destruct Hg as (_ & Hr & _). unfold ranges in Hr.
  pose proof (f_equal (fun x => nth_error x l) Hr) as Hn. cbn in Hn. rewrite !nth_error_map in Hn.
  destruct (nth_error (rule_metadata g') l) as [m'|], (nth_error (rule_metadata g) l) as [m|]; cbn in Hn; try discriminate; cbn [bind]; [|constructor].
  injection Hn as -> ->. apply orel_same.
Qed.
Hint Resolve same_ids : same.
Lemma same_rules l : orel RE eq (production_rules_for_label g l) (production_rules_for_label g' l).
Proof. unfold production_rules_for_label. go. Qed.
Hint Resolve same_rules : same.

Lemma same_nodes l ns : forall m c, orel RE eq (propagate_nodes l ns m c) (propagate_nodes l ns m c).
Proof. induction ns as [|[[t| |]|x] ns IH]; intros m c; cbn [propagate_nodes]; go; try apply IH. Qed.
Hint Resolve same_nodes : same.
Lemma same_propagate l st r : orel RE eq (propagate_rule l st r) (propagate_rule l st r).
Proof. unfold propagate_rule. go. Qed.
Hint Resolve same_propagate : same.
Lemma same_first fuel : orel RE eq (first_build fuel g) (first_build fuel g').
Proof. unfold first_build, propagate_map. rewrite labels_alike, vs_new_alike, count_alike. go. Qed.

Lemma same_follow_loop ns f : forall s, orel RE eq (follow_loop ns f s) (follow_loop ns f s).
Proof. induction ns as [|[[t| |]|x] ns IH]; intros s; cbn [follow_loop]; unfold first_set; go; try apply IH. Qed.
Hint Resolve same_follow_loop : same.
Lemma same_follow ns s f : orel RE eq (follow_set_for_rule ns s f (ivocab g)) (follow_set_for_rule ns s f (ivocab g')).
Proof. unfold follow_set_for_rule. rewrite vs_new_alike. go. Qed.
Hint Resolve same_follow : same.
Lemma same_next p : orel RE eq (next_node g p) (next_node g' p).
Proof. unfold next_node. go. Qed.
Hint Resolve same_next : same.
Lemma same_end p : orel RE eq (at_end_of_rule g p) (at_end_of_rule g' p).
Proof. unfold at_end_of_rule. go. Qed.
Hint Resolve same_end : same.
Lemma same_advance ps : orel RE eq (advance_all g ps) (advance_all g' ps).
Proof. unfold advance_all, advance. go. Qed.
Lemma same_top i : orel RE eq (new_top_level i (ivocab g)) (new_top_level i (ivocab g')).
Proof. unfold new_top_level. rewrite vs_new_alike. go. Qed.
Lemma same_next_label f p : orel RE eq (next_production_label g f p) (next_production_label g' f p).
Proof. unfold next_production_label. go. Qed.
Hint Resolve same_next_label : same.

Lemma same_closure f fuel k : orel RE eq (closure_follow_sets g f fuel k) (closure_follow_sets g' f fuel k).
Proof.
  unfold closure_follow_sets, seed_position, explore_step, explore_rule, propagate_follow, propagate_follow_rule. rewrite vs_new_alike, count_alike. go.
Qed.
Hint Resolve same_closure : same.
Lemma same_partitions f fuel k : orel RE eq (partition_closure_by_next_node g f fuel k) (partition_closure_by_next_node g' f fuel k).
Proof.
  unfold partition_closure_by_next_node, positions_of_label, add_to_partition. rewrite count_alike, (proj2 (proj2 Hg)). go.
Qed.
End Any.
End Alike.

#[local] Hint Resolve same_rule same_ids same_rules same_first same_follow same_next same_end same_advance same_top same_next_label same_closure same_partitions : same.

Section Names.
Context {bm : BuildMode} {T L T' L' : Type} `{EqDec T} `{EqDec L} `{EqDec T'} `{EqDec L'}.
Variable t : T -> T'.
Variable l : L -> L'.
Hypothesis Ht : injective t.
Hypothesis Hl : injective l.
Local Notation RE := (fun (e : lr_error T L) (e' : lr_error T' L') => e' = rename_error t l e).

Section Table.
Variable g : indexed_grammar T L.
Variable g' : indexed_grammar T' L'.
Hypothesis Hg : alike g g'.
Hypothesis Hv : id_map (ivocab g') = map t (id_map (ivocab g)).

Lemma named_token i : orel RE (fun a a' => a' = rename_aug t a) (id_to_token (ivocab g) i) (id_to_token (ivocab g') i).
Proof.
  destruct i as [i| |]; cbn [id_to_token]; [|constructor; auto..]. unfold index. rewrite Hv, nth_error_map.
  destruct (nth_error (id_map (ivocab g)) i); cbn; constructor; auto.
Qed.

Lemma named_action b a x : orel RE eq (add_action b a x) (add_action b a x).
Proof. unfold add_action. go. Qed.
Hint Resolve named_action : same.

Lemma named_reduce i b a : orel RE eq (add_reduce_action g i b a) (add_reduce_action g' i b a).
Proof.
  unfold add_reduce_action. apply orel_bind_eq; [go|]. intros [b'|ex]; [go|]. eapply orel_bind; [apply named_token|]. intros x x' ->.
  destruct ex; constructor; reflexivity.
Qed.
Hint Resolve named_reduce : same.

Lemma named_goto b a x : orel RE eq (add_goto_action b a x) (add_goto_action b a x).
Proof. unfold add_goto_action. go. Qed.
Hint Resolve named_goto : same.

Lemma named_completed b p : orel RE eq (add_completed g b p) (add_completed g' b p).
Proof. unfold add_completed. go. Qed.
Hint Resolve named_completed : same.

Lemma named_partition st p : orel RE eq (add_partition g st p) (add_partition g' st p).
Proof.
  destruct st as (b & kt), p as (c & ps). cbn [add_partition]. rewrite (proj2 (proj2 Hg)). destruct (static_from_id c (vocab_size (ivocab g))) as [[a|x]|].
  - apply orel_bind_eq; [go|]. intros _. apply orel_bind_eq; [go|]. intros ps'. destruct (get_or_insert kt (kernel_new ps')) as (kt' & id).
    apply orel_bind_eq; [go|]. intros [b'|ex]; [go|]. eapply orel_bind; [apply named_token|]. intros x x' ->. destruct ex; constructor; reflexivity.
  - go.
  - go.
Qed.
Hint Resolve named_partition : same.

Lemma named_row fuel f st : orel RE eq (build_row g fuel f st) (build_row g' fuel f st).
Proof.
  unfold build_row, try_build_from_partitions, entry_new, into_vecs. unfold for_each_id. rewrite (labels_alike g g' Hg), (count_alike g g' Hg), (proj2 (proj2 Hg)). go.
Qed.
Hint Resolve named_row : same.

Lemma named_table fuel : orel RE eq (table_build g fuel) (table_build g' fuel).
Proof. unfold table_build, initial_kernel. go. Qed.
End Table.

(** ** The index of a grammar *)
Definition rename_labels (m : hash_map L nat) : hash_map L' nat := map (fun p => (l (fst p), snd p)) m.
Definition rename_group (gr : label_group T L) : label_group T' L' := (l (fst gr), map (fun p => (rename_rule t l (fst p), snd p)) (snd gr)).
Definition rename_vocab (v : vocab T) : vocab T' := mk_vocab (map (fun p => (t (fst p), snd p)) (token_map v)) (map t (id_map v)).

Lemma get_renamed {A B V} `{EqDec A} `{EqDec B} (f : A -> B) (Hf : injective f) k (m : hash_map A V) : hm_get (f k) (map (fun p => (f (fst p), snd p)) m) = hm_get k m.
Proof.
  induction m as [|(a & v) m IH]; [reflexivity|]. cbn. rewrite IH. destruct (eq_dec (f k) (f a)) as [He|He], (eq_dec k a) as [Hk|Hk]; auto.
  - now apply Hf in He.
  - now subst.
Qed.

Lemma references_renamed root r : references (l root) (rename_rule t l r) = references root r.
Proof.
  unfold references. cbn [rhs rename_rule]. induction (rhs r) as [|[a|x] ns IH]; [reflexivity|exact IH|]. cbn [map existsb rename_node]. rewrite IH. f_equal.
  unfold eqb. destruct (eq_dec (l x) (l root)) as [He|He], (eq_dec x root) as [Hk|Hk]; auto; [now apply Hl in He|now subst].
Qed.

Lemma nth_groups (gs : list (label_group T L)) i : orel RE (fun a a' => a' = rename_group a) (index gs i) (index (map rename_group gs) i).
Proof. unfold index. rewrite nth_error_map. destruct (nth_error gs i); constructor; auto. Qed.
Lemma set_map {A B} (f : A -> B) xs : forall i a, list_set (map f xs) i (f a) = map f (list_set xs i a).
Proof. induction xs as [|x xs IH]; intros [|i] a; cbn; auto. now rewrite IH. Qed.

Lemma production_renamed root st p : 
  orel RE (fun s s' => s' = (rename_labels (fst s), map rename_group (snd s))) (add_production root st p)
    (add_production (rename_rule t l root) (rename_labels (fst st), map rename_group (snd st)) (rename_rule t l (fst p), snd p)).
Proof.
  destruct st as (lm & gs), p as (r & i). cbn [add_production fst snd].
  change (symbol (rename_rule t l r)) with (l (symbol r)). change (symbol (rename_rule t l root)) with (l (symbol root)).
  assert (Hq : eqb (l (symbol r)) (l (symbol root)) = eqb (symbol r) (symbol root)).
  { unfold eqb. destruct (eq_dec (l (symbol r)) (l (symbol root))) as [He|He], (eq_dec (symbol r) (symbol root)) as [Hk|Hk]; auto; [now apply Hl in He|now rewrite Hk in He]. }
  rewrite Hq. destruct (eqb (symbol r) (symbol root)); [constructor; reflexivity|].
  rewrite references_renamed. destruct (references (symbol root) r); [constructor; reflexivity|].
  assert (Hg : hm_get (l (symbol r)) (rename_labels lm) = hm_get (symbol r) lm) by apply (get_renamed l Hl).
  assert (Hc : List.length (rename_labels lm) = List.length lm) by apply map_length.
  rewrite Hg, !Hc. destruct (hm_get (symbol r) lm) as [x|].
  - rewrite Hc, Nat.eqb_refl. cbn [negb]. eapply orel_bind; [apply nth_groups|]. intros gr gr' ->.
    eapply orel_bind with (RA := fun a a' => a' = map rename_group a).
    + unfold store. rewrite map_length. destruct (x <? List.length gs); constructor. rewrite <- set_map. f_equal. unfold rename_group. cbn [fst snd]. now rewrite map_app.
    + intros a a' ->. constructor. reflexivity.
  - assert (Hn : forall X (k : X) m, List.length (hm_insert_vacant k (List.length lm) m) = S (List.length m)).
    { intros. unfold hm_insert_vacant. rewrite app_length. cbn. lia. }
    rewrite !Hn, Hc, map_length. destruct (S (List.length lm) =? List.length lm) eqn:Hx; [apply Nat.eqb_eq in Hx; lia|]. cbn [negb].
    apply orel_bind_eq; [go|]. intros _. constructor. cbn [fst snd]. unfold hm_insert_vacant, rename_labels. now rewrite !map_app.
Qed.

Lemma id_renamed (v : vocab T) a : get_id_or_insert (rename_vocab v) (rename_aug t a) = (rename_vocab (fst (get_id_or_insert v a)), snd (get_id_or_insert v a)).
Proof.
  destruct a as [x| |]; [|reflexivity..]. destruct v as [tm im]. unfold rename_vocab at 1. cbn [get_id_or_insert rename_aug token_map id_map].
  rewrite (get_renamed t Ht), map_length. destruct (hm_get x tm); [reflexivity|]. cbn [fst snd]. unfold rename_vocab, hm_insert_vacant. cbn [token_map id_map].
  rewrite !map_app. reflexivity.
Qed.

Lemma node_renamed lm v n : orel RE (fun p p' => fst p' = rename_vocab (fst p) /\ snd p = snd p') (index_node lm v n) (index_node (rename_labels lm) (rename_vocab v) (rename_node t l n)).
Proof.
  destruct n as [a|x]; cbn [index_node rename_node].
  - rewrite id_renamed. destruct (get_id_or_insert v a) as (v' & id). constructor. auto.
  - unfold rename_labels. rewrite (get_renamed l Hl). destruct (hm_get x lm); constructor; auto.
Qed.

Lemma Forall2_eq_list {A} (xs ys : list A) : Forall2 eq xs ys -> xs = ys.
Proof. induction 1; congruence. Qed.
Lemma Forall2_renamed {A B} (f : A -> B) xs : Forall2 (fun a a' => a' = f a) xs (map f xs).
Proof. induction xs; constructor; auto. Qed.

Lemma rule_renamed lm lb v p : orel RE (fun p p' => fst p' = rename_vocab (fst p) /\ snd p = snd p') (index_rule lm lb v p)
  (index_rule (rename_labels lm) lb (rename_vocab v) (rename_rule t l (fst p), snd p)).
Proof.
  destruct p as (r & i). cbn [index_rule fst snd rename_rule rhs].
  eapply orel_bind; [eapply orel_accumM with (RS := fun v v' => v' = rename_vocab v) (RA := fun a a' => a' = rename_node t l a) (RB := eq)|].
  - apply Forall2_renamed.
  - intros s s' a a' -> ->. apply node_renamed.
  - reflexivity.
  - intros (v1 & ns) (v1' & ns') (A1 & A2). cbn [fst snd] in *. apply Forall2_eq_list in A2. subst. constructor. auto.
Qed.

Lemma group_renamed lm v p : orel RE (fun p p' => fst p' = rename_vocab (fst p) /\ snd p = snd p') (index_group lm v p)
  (index_group (rename_labels lm) (rename_vocab v) (fst p, rename_group (snd p))).
Proof.
  destruct p as (lb & (x & rs)). cbn [index_group fst snd rename_group].
  pose proof (orel_accumM RE (fun v v' => v' = rename_vocab v) (fun a a' => a' = (rename_rule t l (fst a), snd a)) eq (index_rule lm lb) (index_rule (rename_labels lm) lb) rs _
    (Forall2_renamed (fun a => (rename_rule t l (fst a), snd a)) rs)) as HH.
  assert (HH' := HH (fun s s' a a' (Hs : s' = rename_vocab s) (Ha : a' = _) => eq_ind_r (fun x => orel RE _ _ (index_rule (rename_labels lm) lb x _))
    (eq_ind_r (fun y => orel RE _ _ (index_rule (rename_labels lm) lb _ y)) (rule_renamed lm lb s a) Ha) Hs) v (rename_vocab v) eq_refl).
  destruct HH' as [a a' (A1 & A2)|e e' He|w|]; constructor; auto. apply Forall2_eq_list in A2. auto.
Qed.

Lemma scan_renamed gs : forall n, scan_metadata n (map rename_group gs) = map (fun m => mk_meta (start_index m) (end_index m) (l (original_label m))) (scan_metadata n gs).
Proof. induction gs as [|(x & rs) gs IH]; intros n; [reflexivity|]. cbn [map scan_metadata rename_group fst snd start_index end_index original_label]. now rewrite map_length, IH. Qed.

Lemma ranges_renamed (ms : list (rule_meta L)) : ranges (map (fun m => mk_meta (start_index m) (end_index m) (l (original_label m))) ms) = ranges ms.
Proof. unfold ranges. rewrite map_map. reflexivity. Qed.

Definition rename_ig (g : indexed_grammar T L) : indexed_grammar T' L' :=
  mk_indexed (rules g) (map (fun m => mk_meta (start_index m) (end_index m) (l (original_label m))) (rule_metadata g)) (rename_vocab (ivocab g)).

Lemma ig_alike g : alike g (rename_ig g).
Proof. split; [reflexivity|]. split; [apply ranges_renamed|]. unfold vocab_size. cbn. now rewrite map_length. Qed.

Lemma connected_renamed fuel g lm : orel RE eq (verify_connected fuel g lm) (verify_connected fuel (rename_ig g) (rename_labels lm)).
Proof.
  pose proof (ig_alike g) as Ha. unfold verify_connected, visit_label, visit_node. rewrite (count_alike _ _ Ha).
  apply orel_bind_eq; [go|]. intros rs0. apply orel_bind_eq; [go|]. intros rs. apply orel_bind_eq; [go|]. intros [|]; [go|].
  eapply orel_bind; [eapply orel_foldM with (RS := fun a a' => a' = map l a) (RA := fun p p' => p' = (l (fst p), snd p))|].
  - apply Forall2_renamed.
  - intros s s' a a' -> ->. cbn [fst snd]. apply orel_bind_eq; [go|]. intros [|]; constructor; auto. now rewrite map_app.
  - reflexivity.
  - intros a a' ->. constructor. reflexivity.
Qed.

Lemma build_renamed fuel g : orel RE (fun p p' => p' = (rename_ig (fst p), rename_labels (snd p))) (build_from_grammar fuel g) (build_from_grammar fuel (rename_grammar t l g)).
Proof.
  unfold build_from_grammar, rename_grammar. rewrite map_length.
  assert (Hc : combine (map (rename_rule t l) g) (seq 0 (List.length g)) = map (fun p => (rename_rule t l (fst p), snd p)) (combine g (seq 0 (List.length g)))).
  { generalize (seq 0 (List.length g)). induction g as [|r g IH]; intros [|i is]; cbn; auto. now rewrite IH. }
  rewrite Hc. destruct (combine g (seq 0 (List.length g))) as [|(root & i) ps]; cbn [map fst snd]; [constructor; reflexivity|].
  eapply orel_bind; [eapply orel_foldM with (RS := fun s s' => s' = (rename_labels (fst s), map rename_group (snd s))) (RA := fun p p' => p' = (rename_rule t l (fst p), snd p))|].
  - apply Forall2_renamed.
  - intros s s' a a' -> ->. apply production_renamed.
  - reflexivity.
  - intros (lm & gs) ? ->. cbn [fst snd].
    eapply orel_bind; [eapply orel_accumM with (RS := fun v v' => v' = rename_vocab v) (RA := fun p p' => p' = (fst p, rename_group (snd p))) (RB := eq)|].
    + assert (He : enumerate (map rename_group gs) = map (fun p => (fst p, rename_group (snd p))) (enumerate gs)).
      { unfold enumerate. rewrite map_length. generalize (seq 0 (List.length gs)). induction gs as [|x gs IH]; intros [|j js]; cbn; auto. now rewrite IH. }
      rewrite He. apply Forall2_renamed.
    + intros s s' a a' -> ->. apply group_renamed.
    + reflexivity.
    + intros (v & rss) (v' & rss') (A1 & A2). cbn [fst snd] in *. apply Forall2_eq_list in A2. subst.
      rewrite scan_renamed. eapply orel_bind_eq; [apply (connected_renamed fuel (mk_indexed (concat rss') (scan_metadata 0 gs) v) lm)|].
      intros _. constructor. reflexivity.
Qed.

Theorem renamed_parser fuel g : orel RE (fun p p' => p' = mk_parser (rename_ig (pgrammar p)) (plr_table p)) (parser_new fuel g) (parser_new fuel (rename_grammar t l g)).
Proof.
  unfold parser_new, indexed_build. eapply orel_bind with (RA := fun a a' => a' = rename_ig a).
  - eapply orel_bind; [apply build_renamed|]. intros (ig & lm) ? ->. constructor. reflexivity.
  - intros ig ? ->. apply orel_bind_eq; [apply named_table; [apply ig_alike|reflexivity]|]. intros tb. constructor. reflexivity.
Qed.

(** ** Parsing *)
Lemma token_renamed (v : vocab T) a : augmented_token_to_id (rename_vocab v) (rename_aug t a) = augmented_token_to_id v a.
Proof. destruct a as [x| |]; [|reflexivity..]. cbn. unfold token_to_id. cbn [rename_vocab token_map]. now rewrite (get_renamed t Ht). Qed.

Theorem renamed_parse {E} (p : parser T L) : forall fuel w,
  parse_stream (E := E) fuel (mk_parser (rename_ig (pgrammar p)) (plr_table p)) (map t w) = parse_stream (E := E) fuel p w.
Proof.
  unfold parse_stream. intros fuel w. generalize (@nil inode) as ns. generalize [root_state] as ss. revert w.
  induction fuel as [|fuel IH]; intros w ss ns; [reflexivity|]. cbn [while_loop parse_step]. destruct ss as [|s ss]; [destruct debug_assertions eqn:Hd; unfold debug_assert; rewrite Hd; reflexivity|].
  assert (Hk : match map t w with x :: _ => Token x | [] => EndOfStream end = rename_aug t (match w with x :: _ => Token x | [] => EndOfStream end)) by (destruct w; reflexivity).
  rewrite Hk. cbn [pgrammar ivocab rename_ig plr_table]. rewrite token_renamed. destruct (augmented_token_to_id _ _) as [k|]; [|reflexivity].
  destruct (get_action (plr_table p) s k) as [[[n|i|]|]| | |]; cbn [bind]; auto.
  - rewrite <- IH. destruct w; reflexivity.
  - unfold production_rule. cbn [rules rename_ig]. destruct (index (rules (pgrammar p)) i) as [r| | |]; cbn [bind]; auto.
    repeat match goal with |- context [debug_assert ?b ?x] => destruct (debug_assert b x) as [| | |]; cbn [bind]; auto end.
    destruct (expect _ _) as [top| | |]; cbn [bind]; auto. destruct (get_goto (plr_table p) top (isymbol r)) as [[n|]| | |]; cbn [bind]; auto.
Qed.

Theorem renamed_label g k : orig_production_label (E := unit) (rename_ig g) k = (x <- orig_production_label g k ;; Ok (l x)).
Proof. unfold orig_production_label, index. cbn [rule_metadata rename_ig]. rewrite nth_error_map. destruct (nth_error (rule_metadata g) k); reflexivity. Qed.

Theorem renaming fuel (g : grammar T L) :
  match parser_new fuel g, parser_new fuel (rename_grammar t l g) with
  | Ok p, Ok p' =>
      plr_table p' = plr_table p /\ rules (pgrammar p') = rules (pgrammar p) /\
      (forall k, orig_production_label (E := unit) (pgrammar p') k = bind (orig_production_label (pgrammar p) k) (fun x => Ok (l x))) /\
      (forall (E : Type) fuel' w, parse_stream (E := E) fuel' p' (map t w) = parse_stream fuel' p w)
  | Err e, Err e' => e' = rename_error t l e
  | Panic w, Panic w' => w' = w
  | Diverge, Diverge => True
  | _, _ => False
  end.
Proof.
  destruct (renamed_parser fuel g) as [p p' ->|e e' ->|w|]; auto. split; [reflexivity|]. split; [reflexivity|]. split; [intros k; apply renamed_label|].
  intros E fuel' w. apply renamed_parse.
Qed.
End Names.
