(** The texts of the errors of generated parsers. *)
From Coq Require Import Arith String List.
From Verif Require Import Base.Prelude Spec.Grammar Spec.Values Spec.Causes Model.Error.
From Verif Require Import Model.Terminal Model.Constructor Model.CodeGen Model.Runtime Model.ParserErrorText.
From Verif Require Import Proofs.TextLayout Proofs.TableText Proofs.Causes.
Import ListNotations.
Open Scope string_scope.

Lemma app_inj_l s s1 s2 : s ++ s1 = s ++ s2 -> s1 = s2.
Proof. induction s; simpl; auto. intros Hx. injection Hx. auto. Qed.

Lemma debug_option_inj {A} (debug : A -> string) : (forall a b, debug a = debug b -> a = b) ->
  forall o o', debug_option debug o = debug_option debug o' -> o = o'.
Proof.
  intros Hd [a|] [b|] Hx; auto; try discriminate. unfold debug_option in Hx. apply app_inj_l in Hx. apply app_inj_r in Hx. f_equal; auto.
Qed.

Theorem texts_differ (R : rust) (debug_token : tok R -> string) (show : UErr R -> string) :
  (forall t t', debug_token t = debug_token t' -> t = t') -> (forall e e', show e = show e' -> e = e') ->
  (forall e s, show e <> "Failed to parse: unexpected " ++ s) ->
  (forall e s, show e <> "Token " ++ s ++ " matches multiple rules. Disambiguate matchers for tokens of this type.") ->
  forall e e', error_text R debug_token show e = error_text R debug_token show e' -> e = e'.
Proof.
  intros Ht Hs Hf Ho [o|k|u] [o'|k'|u'] Hx; unfold error_text in Hx; try discriminate.
  - apply app_inj_l in Hx. apply debug_option_inj in Hx; auto. congruence.
  - symmetry in Hx. apply Hf in Hx. tauto.
  - apply app_inj_l, app_inj_r in Hx. apply debug_option_inj in Hx; auto. congruence.
  - symmetry in Hx. apply Ho in Hx. tauto.
  - apply Hf in Hx. tauto.
  - apply Ho in Hx. tauto.
  - f_equal. auto.
Qed.

Theorem text_of_run (bmg : BuildMode) literal_ok gi p : generated (bm := bmg) literal_ok gi p ->
  forall (bm : BuildMode) (E : Type) (R : rust) (SErr : Type) (into : SErr -> UErr R) input fuel st err debug_token show,
  parse_fallible (E := E) R into input fuel p = Ok (st, inr err) ->
  let text := error_text R debug_token show err in
  match input (Nat.pred (s_calls R (st_stream R st))) with
  | None =>
      text = "Failed to parse: unexpected None" \/ exists e, err = UserError R e /\ text = show e
  | Some (inl k) =>
      text = "Failed to parse: unexpected Some(" ++ debug_token k ++ ")" \/
      text = "Token Some(" ++ debug_token k ++ ") matches multiple rules. Disambiguate matchers for tokens of this type." \/
      exists e, err = UserError R e /\ text = show e
  | Some (inr e) => text = show (into e)
  end.
Proof.
  intros Hg bm E R SErr into input fuel st err debug_token show Hr.
  destruct (generated_causes bmg literal_ok gi p Hg bm E R SErr into input fuel st err Hr) as (ds & _ & _ & Hc & _ & Hx).
  rewrite Hc. simpl Nat.pred. destruct Hx as [[k|] _|k s s' ty _ _ _ _ _ _ _ _|e _|[k|] ds' i cs vs e _ _ _ _]; simpl.
  - left. reflexivity.
  - left. reflexivity.
  - right. left. rewrite TextLayout.app_assoc. reflexivity.
  - reflexivity.
  - right. right. eauto.
  - right. eauto.
Qed.
