(** Grammars put between tokens. *)
From Coq Require Import List.
From Verif Require Import Base.Prelude Spec.Grammar Spec.Validity.
Import ListNotations.

Section Frame.
Context {T L : Type}.

(** [g'] is [g] with a new first rule: the tokens [u], what [g] is about, the tokens [v]. *)
Definition framed (s : L) (u v : list T) (g' g : grammar T L) : Prop :=
  exists root rest, g = root :: rest /\
    g' = mk_rule s (map (fun t => Terminal (Token t)) u ++ Production (symbol root) :: map (fun t => Terminal (Token t)) v) :: g.

(** The label does not occur in [g]; the token does not. *)
Definition new_label (s : L) (g : grammar T L) : Prop := forall r, In r g -> root_clean s r.
Definition new_token (t : T) (g : grammar T L) : Prop := forall r, In r g -> ~ In (Terminal (Token t)) (rhs r).

(** The token after what [g] is about, if any, does not occur in [g]. *)
Definition closed_by_new (v : list T) (g : grammar T L) : Prop := forall t, hd_error v = Some t -> new_token t g.
End Frame.
