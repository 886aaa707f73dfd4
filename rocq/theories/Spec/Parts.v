(** Grammars that have only some of the rules of another. *)
From Coq Require Import List Permutation.
From Verif Require Import Base.Prelude Spec.Grammar Model.Constructor.
Import ListNotations.

Section Parts.
Context {T L : Type}.

(** [g'] has the first rule of [g] and some of the others, in any order. *)
Definition fewer_rules (g' g : grammar T L) : Prop :=
  exists root rest rest' dropped, g = root :: rest /\ g' = root :: rest' /\ Permutation rest (rest' ++ dropped).

(** [g'] has some rules of [g], in any order, and a new first rule that leads to [l]. *)
Definition rules_for (l : L) (g' g : grammar T L) : Prop :=
  exists root rest' dropped, g' = mk_rule root [Production l] :: rest' /\ Permutation g (rest' ++ dropped).
End Parts.

(** The same of the rules of an input of [grammar!]: constructors stay with their rules. *)
Definition fewer_declared (rs' rs : list prule) : Prop :=
  exists root rest rest' dropped, rs = root :: rest /\ rs' = root :: rest' /\ Permutation rest (rest' ++ dropped).

(** Rule [i] of [rs'] is rule [f i] of [rs]. *)
Definition numbered_in (f : nat -> nat) (rs' rs : list prule) : Prop :=
  f 0 = 0 /\ forall i r, nth_error rs' i = Some r -> nth_error rs (f i) = Some r.
