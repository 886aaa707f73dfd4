(** Constructors: the references of a rule's code to its nodes. *)
From Coq Require Import Arith Bool String Ascii NArith List Lia.
From Verif Require Import Base.Prelude Spec.Grammar Model.Error Model.TokenTree Model.Terminal Model.Constructor Proofs.WP.
Import ListNotations.

Section Ind.
Variable P : ttree -> Prop.
Hypothesis Hg : forall d ts, Forall P ts -> P (TGroup d ts).
Hypothesis Hp : forall c sp, P (TPunct c sp).
Hypothesis Hi : forall name, P (TIdent name).
Hypothesis Hl : forall text, P (TLiteral text).
Fixpoint ttree_ind2 (t : ttree) : P t :=
  match t with
  | TGroup d ts => Hg d ts ((fix go ts : Forall P ts := match ts with [] => Forall_nil _ | t :: ts' => Forall_cons _ (ttree_ind2 t) (go ts') end) ts)
  | TPunct c sp => Hp c sp
  | TIdent name => Hi name
  | TLiteral text => Hl text
  end.
End Ind.

(** Lists, by the number of elements. *)
Lemma list_ind_le {A} (P : list A -> Prop) : (forall l, (forall l', length l' < length l -> P l') -> P l) -> forall l, P l.
Proof.
  intros IH l. assert (Hk : forall k l, length l < k -> P l); [|apply (Hk (S (length l))); lia].
  induction k as [|k IHk]; intros l0 Hl; [lia|]. apply IH. intros l' Hl'. apply IHk. lia.
Qed.

(** The recursion inside groups is the one on lists. *)
Lemma substitute_group m rule d ts : substitute_tree m rule (TGroup d ts) = (body <- substitute_vars m rule ts ;; Ok (CGroup d body)).
Proof.
  cbn [substitute_tree]. f_equal. induction ts as [ts IH] using list_ind_le. destruct ts as [|t ts]; [reflexivity|].
  cbn [substitute_vars]. destruct (is_punct t "#" Alone).
  - destruct (substitute_at m rule (hd_error ts)); simpl; auto. destruct ts as [|t' ts]; auto. rewrite IH by (simpl; lia). reflexivity.
  - destruct (substitute_tree m rule t); simpl; auto. rewrite IH by (simpl; lia). reflexivity.
Qed.

Section NoPanic.
Variable rule : list pnode.
Let m := subst_build rule.
Local Notation fine x := (wp False False x (fun _ => True) (fun _ => True)).

Lemma substitute_at_fine o : fine (substitute_at m rule o).
Proof.
  destruct o as [[d ts|c sp|name|text]|]; try exact I; cbn [substitute_at].
  - unfold lookup_label. destruct (hm_get name (production_label_map m)) as [[i|]|]; simpl; auto.
  - unfold literal_to_index. destruct (parse_usize text) as [i|]; [|exact I].
    destruct (N.of_nat (num_nodes m) <=? i)%N eqn:Hi; [simpl; auto|]. apply N.leb_gt in Hi. unfold m, subst_build in Hi. cbn [num_nodes] in Hi.
    unfold index. destruct (nth_error rule (N.to_nat i)) as [nd|] eqn:Hn; [|apply nth_error_None in Hn; lia].
    simpl. destruct (pnode_is_epsilon nd); simpl; auto.
Qed.

Lemma substitute_vars_fine ts : Forall (fun t => fine (substitute_tree m rule t)) ts -> fine (substitute_vars m rule ts).
Proof.
  induction ts as [ts IH] using list_ind_le. intros Hf. destruct ts as [|t ts]; [simpl; auto|]. cbn [substitute_vars].
  inversion Hf as [|? ? Hf1 Hf2]; subst. destruct (is_punct t "#" Alone).
  - apply wp_bind. eapply wp_conseq; [apply substitute_at_fine|]. intros i _. destruct ts as [|t' ts]; [simpl; auto|].
    inversion Hf2; subst. apply wp_bind. eapply wp_conseq; [apply IH; simpl; auto|]. simpl; auto.
  - apply wp_bind. eapply wp_conseq; [exact Hf1|]. intros c _. apply wp_bind. eapply wp_conseq; [apply IH; simpl; auto|]. simpl; auto.
Qed.

Lemma substitute_tree_fine t : fine (substitute_tree m rule t).
Proof.
  induction t as [d ts IH| | |] using ttree_ind2; try (simpl; auto; fail). rewrite substitute_group. apply wp_bind.
  eapply wp_conseq; [apply substitute_vars_fine; auto|]. simpl; auto.
Qed.
End NoPanic.

Lemma build_constructor_fine rules i r : nth_error rules i = Some r ->
  wp False False (build_constructor rules i) (fun _ => True) (fun _ => True).
Proof.
  intros Hr. unfold build_constructor. rewrite (index_ok _ _ _ Hr). cbn [bind]. destruct (pr_block r) as [[d ts]|].
  - unfold rewrite_provided_constructor. destruct (negb (eqb d Brace)); simpl; auto. apply wp_bind.
    eapply wp_conseq; [apply substitute_vars_fine|simpl; auto]. apply Forall_forall. intros t _. apply substitute_tree_fine.
  - destruct (pr_type r); simpl; auto. unfold generate_default_constructor. destruct (negb _); simpl; auto.
Qed.
