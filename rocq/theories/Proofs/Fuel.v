(** More budget never changes a result. *)
From Coq Require Import Arith Bool String NArith List Lia.
From Verif Require Import Base.Prelude Spec.Grammar Model.Error.
From Verif Require Import Model.BitSet Model.FixedMap Model.Vocabulary Model.IndexedGrammar Model.FirstMap.
From Verif Require Import Model.Position Model.Closure Model.LRTable Model.ParseSimulator.
Import ListNotations.

Definition le_out {E A} (m m' : outcome E A) : Prop := m = Diverge \/ m = m'.

Lemma le_refl {E A} (m : outcome E A) : le_out m m.
Proof. right. reflexivity. Qed.

Lemma le_bind {E A B} (m m' : outcome E A) (k k' : A -> outcome E B) :
  le_out m m' -> (forall a, le_out (k a) (k' a)) -> le_out (bind m k) (bind m' k').
Proof.
  intros [->| ->] Hk; [left; reflexivity|]. destruct m'; simpl; auto; right; reflexivity.
Qed.

Lemma le_while {E S R} fuel fuel' (b b' : S -> outcome E (S + R)) s :
  fuel <= fuel' -> (forall s, le_out (b s) (b' s)) -> le_out (while_loop fuel b s) (while_loop fuel' b' s).
Proof.
  intros Hf Hb. revert fuel' Hf s. induction fuel as [|fuel IH]; intros fuel' Hf s; [left; reflexivity|].
  destruct fuel' as [|fuel']; [lia|]. simpl. apply le_bind; auto. intros [s'|r]; [apply IH; lia|apply le_refl].
Qed.

Lemma le_ok {E A} (m m' : outcome E A) a : le_out m m' -> m = Ok a -> m' = Ok a.
Proof. intros [->| ->] Ha; [discriminate|auto]. Qed.

Section Fuel.
Context {bm : BuildMode} {T L : Type} `{EqDec T} `{EqDec L}.
Variables (f f' : nat).
Hypothesis Hf : f <= f'.

Lemma indexed_build_le (g : grammar T L) : le_out (indexed_build f g) (indexed_build f' g).
Proof.
  unfold indexed_build. apply le_bind; [|intros []; apply le_refl]. unfold build_from_grammar.
  destruct (combine g _) as [|[root i] rest]; [apply le_refl|]. apply le_bind; [apply le_refl|]. intros [lm gs].
  apply le_bind; [apply le_refl|]. intros [v rss]. apply le_bind; [|intros; apply le_refl].
  unfold verify_connected. apply le_bind; [apply le_refl|]. intros s. apply le_bind; [|intros; apply le_refl].
  apply le_while; auto. intros; apply le_refl.
Qed.

Lemma first_build_le E (g : indexed_grammar T L) : le_out (first_build (E := E) f g) (first_build f' g).
Proof. apply le_while; auto. intros; apply le_refl. Qed.

Lemma table_build_le (g : indexed_grammar T L) : le_out (table_build g f) (table_build g f').
Proof.
  unfold table_build. apply le_bind.
  { apply le_while; auto. intros; apply le_refl. }
  intros F. apply le_bind; [apply le_refl|]. intros k0. destruct (get_or_insert _ _) as [kt id].
  apply le_bind; [apply le_refl|]. intros _. apply le_while; auto. intros [[sid kt'] t].
  unfold build_row. destruct (get_state kt' sid); [|apply le_refl]. apply le_bind; [|intros; apply le_refl].
  unfold partition_closure_by_next_node. apply le_bind; [|intros; apply le_refl].
  unfold closure_follow_sets. apply le_bind; [apply le_refl|]. intros st. apply le_bind.
  { apply le_while; auto. intros; apply le_refl. }
  intros sets. apply le_while; auto. intros; apply le_refl.
Qed.

Lemma parser_new_le (g : grammar T L) : le_out (parser_new f g) (parser_new f' g).
Proof.
  unfold parser_new. apply le_bind; [apply indexed_build_le|]. intros ig.
  apply le_bind; [apply table_build_le|]. intros; apply le_refl.
Qed.

Lemma parse_stream_le {E} (p : parser T L) w : le_out (@parse_stream bm T L _ E f p w) (parse_stream f' p w).
Proof. apply le_while; auto. intros; apply le_refl. Qed.

End Fuel.

Lemma indexed_build_fun {bm : BuildMode} {T L} `{EqDec T} `{EqDec L} f f' (g : grammar T L) ig ig' :
  indexed_build f g = Ok ig -> indexed_build f' g = Ok ig' -> ig = ig'.
Proof.
  intros H1 H2. destruct (Nat.le_ge_cases f f') as [Hle|Hle].
  - pose proof (le_ok _ _ _ (indexed_build_le _ _ Hle g) H1). congruence.
  - pose proof (le_ok _ _ _ (indexed_build_le _ _ Hle g) H2). congruence.
Qed.

Lemma parser_new_fun {bm : BuildMode} {T L} `{EqDec T} `{EqDec L} f f' (g : grammar T L) p p' :
  parser_new f g = Ok p -> parser_new f' g = Ok p' -> p = p'.
Proof.
  intros H1 H2. destruct (Nat.le_ge_cases f f') as [Hle|Hle].
  - pose proof (le_ok _ _ _ (parser_new_le _ _ Hle g) H1). congruence.
  - pose proof (le_ok _ _ _ (parser_new_le _ _ Hle g) H2). congruence.
Qed.
