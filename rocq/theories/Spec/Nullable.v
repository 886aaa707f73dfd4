(** Which labels derive the empty word. *)
From Coq Require Import List.
From Verif Require Import Base.Prelude Spec.Grammar.
Import ListNotations.

Section Nullable.
Context {T L : Type}.

Definition nullable (g : grammar T L) (l : L) : Prop := exists ts, derives g [Production l] [] ts.

(** [l] occurs in some right-hand side. *)
Definition used_somewhere (g : grammar T L) (l : L) : Prop := exists r, In r g /\ In (Production l) (rhs r).

(** Every label occurring in a right-hand side that derives the empty word does
    so by a rule of its own that spells it (nothing but epsilon nodes); and, if
    there is such a label, then some rule begins with a token.  (The root
    label, which only the first rule can mention, may derive the empty word in
    any way.) *)
Definition direct_epsilon (g : grammar T L) : Prop :=
  (forall l, nullable g l -> used_somewhere g l ->
     exists r, In r g /\ symbol r = l /\ Forall (fun nd => nd = Terminal Epsilon) (rhs r)) /\
  ((exists l, nullable g l /\ used_somewhere g l) ->
     exists r t, In r g /\ hd_error (rhs r) = Some (Terminal t) /\ t <> Epsilon).

(** Every label derives some word. *)
Definition productive (g : grammar T L) : Prop :=
  forall r, In r g -> exists w ts, derives g [Production (symbol r)] w ts.

(** Two rules that differ in their epsilon nodes only. *)
Definition same_but_epsilon (r r' : rule T L) : Prop :=
  symbol r = symbol r' /\
  filter (fun nd => negb (is_epsilon nd)) (rhs r) = filter (fun nd => negb (is_epsilon nd)) (rhs r').

End Nullable.
