(** Grammars that say something twice. *)
From Coq Require Import List.
From Verif Require Import Base.Prelude Spec.Grammar Spec.Nullable Spec.LR1.
Import ListNotations.

Section Redundant.
Context {T L : Type}.
Variable g : grammar T L.

(** Two rules at different places have the same label and, but for epsilon nodes, the
    same nodes. *)
Definition written_twice : Prop :=
  exists i j r r', i <> j /\ nth_error g i = Some r /\ nth_error g j = Some r' /\ same_but_epsilon r r'.

(** A label derives itself by one or more rules. *)
Definition derives_itself : Prop :=
  exists r, In r g /\ steps g (rhs r) [Production (symbol r)].

(** A label derives a word in two ways. *)
Definition two_ways : Prop :=
  exists l w t t', derives g [Production l] w [t] /\ derives g [Production l] w [t'] /\ t <> t'.
End Redundant.
