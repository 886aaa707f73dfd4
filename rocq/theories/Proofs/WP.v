(** Reasoning about outcomes.  [wp Pn Dv m Q R]: if [m] returns [Ok a] then
    [Q a]; if it returns [Err e] then [R e]; if it panics then [Pn]; if it runs
    out of budget then [Dv].  With [Pn] and [Dv] instantiated by [False] this is
    total correctness. *)
From Coq Require Import Arith Bool String NArith List Lia.
From Verif Require Import Base.Prelude.
Import ListNotations.

#[global] Arguments Nat.div : simpl never.
#[global] Arguments Nat.modulo : simpl never.
#[global] Arguments Nat.divmod : simpl never.

Definition wp (Pn Dv : Prop) {E A} (m : outcome E A) (Q : A -> Prop) (R : E -> Prop) : Prop :=
  match m with
  | Ok a => Q a
  | Err e => R e
  | Panic _ => Pn
  | Diverge => Dv
  end.

Section WP.
Context {Pn Dv : Prop} {E : Type}.
Local Notation wp := (wp Pn Dv).

Lemma wp_ok {A} (a : A) (Q : A -> Prop) (R : E -> Prop) : Q a -> wp (Ok a) Q R.
Proof. auto. Qed.

Lemma wp_bind {A B} (m : outcome E A) (k : A -> outcome E B) Q R :
  wp m (fun a => wp (k a) Q R) R -> wp (bind m k) Q R.
Proof. destruct m; simpl; auto. Qed.

Lemma wp_mono {A} (m : outcome E A) (Q Q' : A -> Prop) (R R' : E -> Prop) :
  wp m Q R -> (forall a, Q a -> Q' a) -> (forall e, R e -> R' e) -> wp m Q' R'.
Proof. destruct m; simpl; auto. Qed.

Lemma wp_conseq {A} (m : outcome E A) (Q Q' : A -> Prop) (R : E -> Prop) :
  wp m Q R -> (forall a, Q a -> Q' a) -> wp m Q' R.
Proof. destruct m; simpl; auto. Qed.

Lemma wp_foldM_pre {S A} (I : list A -> S -> Prop) (f : S -> A -> outcome E S) l s R :
  I [] s ->
  (forall pre a suf s, l = pre ++ a :: suf -> I pre s -> wp (f s a) (I (pre ++ [a])) R) ->
  wp (foldM f s l) (I l) R.
Proof.
  intros H0 Hs.
  assert (G : forall suf pre s, l = pre ++ suf -> I pre s -> wp (foldM f s suf) (I l) R).
  { clear s H0. induction suf as [|a suf IH]; intros pre s Hl Hi; simpl.
    - rewrite app_nil_r in Hl. subst. auto.
    - apply wp_bind. eapply wp_conseq; [eapply Hs; eauto|].
      intros s' Hs'. apply (IH (pre ++ [a])); auto. rewrite <- app_assoc. auto. }
  apply (G l []); auto.
Qed.

Lemma wp_foldM_inv {S A} (I : S -> Prop) (f : S -> A -> outcome E S) l s R :
  I s ->
  (forall s a, In a l -> I s -> wp (f s a) I R) ->
  wp (foldM f s l) I R.
Proof.
  intros H0 Hs. apply (wp_foldM_pre (fun _ => I)); auto.
  intros pre a suf s' -> Hi. apply Hs; auto. apply in_or_app; simpl; auto.
Qed.

Lemma wp_mapM {A B} (P : A -> B -> Prop) (f : A -> outcome E B) l R :
  (forall a, In a l -> wp (f a) (P a) R) ->
  wp (mapM f l) (Forall2 P l) R.
Proof.
  induction l as [|a l IH]; simpl; intros H.
  - constructor.
  - apply wp_bind. eapply wp_conseq; [apply H; auto|]. intros b Hb.
    apply wp_bind. eapply wp_conseq; [apply IH; auto|]. intros bs Hbs.
    apply wp_ok. constructor; auto.
Qed.

Lemma wp_while {S X} (I : S -> Prop) (meas : S -> nat) (body : S -> outcome E (S + X))
    (Q : X -> Prop) R fuel s :
  (Dv \/ meas s < fuel) ->
  I s ->
  (forall s, I s ->
     wp (body s) (fun r => match r with
                           | inl s' => I s' /\ (Dv \/ meas s' < meas s)
                           | inr x => Q x
                           end) R) ->
  wp (while_loop fuel body s) Q R.
Proof.
  intros Hm Hi Hb. revert s Hm Hi. induction fuel as [|fuel IH]; intros s Hm Hi; simpl.
  - destruct Hm; [auto|lia].
  - apply wp_bind. eapply wp_conseq; [apply Hb; auto|].
    intros [s'|x]; simpl; auto. intros [Hi' Hm']. apply IH; auto.
    destruct Hm; [auto|]. destruct Hm'; [auto|]. right. lia.
Qed.

Lemma wp_allM {A} (P : A -> bool) (f : A -> outcome E bool) l R :
  (forall a, In a l -> wp (f a) (fun b => b = P a) R) ->
  wp (allM f l) (fun b => b = forallb P l) R.
Proof.
  induction l as [|a l IH]; simpl; intros H; auto.
  apply wp_bind. eapply wp_conseq; [apply H; auto|]. intros b ->.
  destruct (P a); simpl; auto.
Qed.

End WP.

(** Exact results of pure loops. *)
Lemma mapM_ok {E A B} (f : A -> outcome E B) (h : A -> B) l :
  (forall a, In a l -> f a = Ok (h a)) -> mapM f l = Ok (map h l).
Proof.
  induction l as [|a l IH]; simpl; intros H; auto.
  rewrite H by auto. simpl. rewrite IH by auto. reflexivity.
Qed.

Lemma foldM_ok {E S A} (f : S -> A -> outcome E S) (h : S -> A -> S) l s :
  (forall s a, In a l -> f s a = Ok (h s a)) -> foldM f s l = Ok (fold_left h l s).
Proof.
  revert s. induction l as [|a l IH]; simpl; intros s H; auto.
  rewrite H by auto. simpl. apply IH; auto.
Qed.

Lemma foldM_app {E S A} (f : S -> A -> outcome E S) l1 l2 s :
  foldM f s (l1 ++ l2) = (s' <- foldM f s l1 ;; foldM f s' l2).
Proof.
  revert s. induction l1 as [|a l1 IH]; simpl; intros s; auto.
  destruct (f s a); simpl; auto.
Qed.

Lemma wp_elim_ok {E A} (m : outcome E A) a (Q : A -> Prop) R (Pn Dv : Prop) :
  wp Pn Dv m Q R -> m = Ok a -> Q a.
Proof. intros H ->. exact H. Qed.

(** Lists. *)
Lemma list_set_length {A} (l : list A) i a : length (list_set l i a) = length l.
Proof. revert i. induction l; destruct i; simpl; auto. Qed.

Lemma nth_error_list_set_eq {A} (l : list A) i a :
  i < length l -> nth_error (list_set l i a) i = Some a.
Proof. revert i. induction l; destruct i; simpl; intros; auto; try lia. apply IHl; lia. Qed.

Lemma nth_error_list_set_neq {A} (l : list A) i j a :
  i <> j -> nth_error (list_set l i a) j = nth_error l j.
Proof.
  revert i j. induction l; intros i j H; destruct i, j; simpl; auto; try lia.
Qed.

Lemma index_ok {E A} (l : list A) i a : nth_error l i = Some a -> @index E A l i = Ok a.
Proof. unfold index. intros ->. reflexivity. Qed.

Lemma index_inv {E A} (l : list A) i a : @index E A l i = Ok a -> nth_error l i = Some a.
Proof. unfold index. destruct (nth_error l i); congruence. Qed.

Lemma store_ok {E A} (l : list A) i a : i < length l -> @store E A l i a = Ok (list_set l i a).
Proof. unfold store. intros H. apply Nat.ltb_lt in H. rewrite H. reflexivity. Qed.

Lemma slice_from_ok {E A} (l : list A) i :
  i <= length l -> @slice_from E A l i = Ok (skipn i l).
Proof. unfold slice_from. intros H. apply Nat.leb_le in H. rewrite H. reflexivity. Qed.

Lemma eqb_true_iff {A} `{EqDec A} (x y : A) : eqb x y = true <-> x = y.
Proof. unfold eqb. destruct (eq_dec x y); split; congruence. Qed.

Lemma eqb_false_iff {A} `{EqDec A} (x y : A) : eqb x y = false <-> x <> y.
Proof. unfold eqb. destruct (eq_dec x y); split; congruence. Qed.

Lemma eqb_refl {A} `{EqDec A} (x : A) : eqb x x = true.
Proof. apply eqb_true_iff. reflexivity. Qed.

Lemma hm_get_in {K V} `{EqDec K} k (v : V) m : hm_get k m = Some v -> In (k, v) m.
Proof.
  induction m as [|[k' v'] m IH]; simpl; [discriminate|].
  destruct (eq_dec k k'); intros E; [inversion E; subst; auto|auto].
Qed.

Lemma hm_get_none {K V} `{EqDec K} k (m : hash_map K V) :
  hm_get k m = None <-> ~ In k (map fst m).
Proof.
  induction m as [|[k' v'] m IH]; simpl; [tauto|].
  destruct (eq_dec k k'); [subst; intuition congruence|].
  rewrite IH. intuition congruence.
Qed.

Lemma hm_get_app {K V} `{EqDec K} k (m1 m2 : hash_map K V) :
  hm_get k (m1 ++ m2) = match hm_get k m1 with Some v => Some v | None => hm_get k m2 end.
Proof.
  induction m1 as [|[k' v'] m1 IH]; simpl; auto. destruct (eq_dec k k'); auto.
Qed.

Lemma hm_get_nodup {K V} `{EqDec K} k (v : V) m :
  NoDup (map fst m) -> In (k, v) m -> hm_get k m = Some v.
Proof.
  induction m as [|[k' v'] m IH]; simpl; [tauto|].
  intros Hn [Hi|Hi].
  - inversion Hi; subst. destruct (eq_dec k k); congruence.
  - inversion Hn; subst. destruct (eq_dec k k'); [subst|auto].
    exfalso. apply H2. change k' with (fst (k', v)). apply in_map. auto.
Qed.

Lemma eqb_eq {A} `{EqDec A} (x y : A) : eqb x y = true -> x = y.
Proof. apply eqb_true_iff. Qed.

Lemma eqb_neq {A} `{EqDec A} (x y : A) : eqb x y = false -> x <> y.
Proof. apply eqb_false_iff. Qed.

Lemma debug_assertM_true {bm : BuildMode} {E} (m : outcome E bool) why :
  m = Ok true -> debug_assertM m why = Ok tt.
Proof. intros ->. unfold debug_assertM. destruct debug_assertions; reflexivity. Qed.

Lemma foldM_cons {E S A} (f : S -> A -> outcome E S) s a l :
  foldM f s (a :: l) = (s' <- f s a ;; foldM f s' l).
Proof. reflexivity. Qed.

Lemma Forall2_len {A B} (P : A -> B -> Prop) l l' : Forall2 P l l' -> length l = length l'.
Proof. induction 1; simpl; auto. Qed.
