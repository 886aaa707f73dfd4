(** The derive macro [ParserUserError]. *)
From Coq Require Import String Ascii List.
From Verif Require Import Base.Prelude Model.TokenTree Model.DeriveUserError Spec.Derive.
Import ListNotations.
Open Scope string_scope.

Lemma derive_plain d : di_params d = [] -> derive_parser_user_error d = flat_map impl_tokens (user_error_impls d).
Proof.
  destruct d as [name params]. cbn [di_params]. intros ->. reflexivity.
Qed.

(** With parameters the first [impl] lacks them. *)
Lemma derive_generic d : di_params d <> [] -> derive_parser_user_error d <> flat_map impl_tokens (user_error_impls d).
Proof.
  destruct d as [name [|p ps]]; [tauto|]. intros _. unfold derive_parser_user_error, build_user_error_impl, user_error_impls, impl_tokens, declared_params.
  cbn [di_ident di_params map angled flat_map im_params im_trait im_type im_body app]. discriminate.
Qed.

Definition generic_error : derive_input :=
  mk_derive_input "MyError" [mk_param [TIdent "T"; TPunct ":"%char Alone; TIdent "Error"] [TIdent "T"]].

Lemma derive_generic_ex : exists d, derive_parser_user_error d <> flat_map impl_tokens (user_error_impls d).
Proof. exists generic_error. apply derive_generic. discriminate. Qed.

Lemma derive_iff d : derive_parser_user_error d = flat_map impl_tokens (user_error_impls d) <-> di_params d = [].
Proof.
  split; [|apply derive_plain]. destruct (di_params d) as [|p ps] eqn:Hd; auto. intros Hx. exfalso. revert Hx. apply derive_generic. congruence.
Qed.
