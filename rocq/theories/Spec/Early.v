(** Grammars whose vanishing labels are spelled out early enough, and what it
    means for a FIRST table to obey the rules. *)
From Coq Require Import List Bool Permutation.
From Verif Require Import Base.Prelude Spec.Grammar Spec.Nullable.
Import ListNotations.

(** The different members of a list, each where it occurs first. *)
Fixpoint distinct {A} `{EqDec A} (l : list A) : list A :=
  match l with
  | [] => []
  | x :: l' => x :: filter (fun y => negb (eqb x y)) (distinct l')
  end.

Section Early.
Context {T L : Type}.
Variable g : grammar T L.

(** The first rule of [l] comes before all rules of [l']. *)
Definition before (l l' : L) : Prop :=
  exists i r, nth_error g i = Some r /\ symbol r = l /\ forall j r', nth_error g j = Some r' -> symbol r' = l' -> i < j.

(** [l] has a rule that consists of epsilon nodes and of labels that come before
    [l] and are early themselves. *)
Inductive early : L -> Prop :=
| early_rule r : In r g -> (forall nd, In nd (rhs r) -> early_node (symbol r) nd) -> early (symbol r)
with early_node : L -> node T L -> Prop :=
| early_epsilon_node l : early_node l (Terminal Epsilon)
| early_label l l' : before l' l -> early l' -> early_node l (Production l').

(** Every label in a right-hand side that derives the empty word is early; and if
    there is one, then some rule has a token after such nodes only. *)
Definition early_epsilon : Prop :=
  (forall l, nullable g l -> used_somewhere g l -> early l) /\
  ((exists l, nullable g l /\ used_somewhere g l) ->
     exists r pre t post, In r g /\ rhs r = pre ++ Terminal t :: post /\ t <> Epsilon /\ Forall (early_node (symbol r)) pre).

(** [has l a]: a table says that [l] can begin with [a] (vanish, if [a] is
    epsilon).  It obeys the rules if whatever follows from what it says by one
    rule is in it too. *)
Definition may_vanish (has : L -> aug T -> Prop) (nd : node T L) : Prop :=
  match nd with Terminal a => a = Epsilon | Production l => has l Epsilon end.
Definition may_begin (has : L -> aug T -> Prop) (nd : node T L) (a : aug T) : Prop :=
  match nd with Terminal b => a = b | Production l => has l a end.
Definition obeys (has : L -> aug T -> Prop) : Prop := forall r, In r g ->
  (Forall (may_vanish has) (rhs r) -> has (symbol r) Epsilon) /\
  (forall pre nd post a, rhs r = pre ++ nd :: post -> Forall (may_vanish has) pre -> a <> Epsilon ->
     may_begin has nd a -> has (symbol r) a).
End Early.

(** The same rules in another order, with the same first rule. *)
Definition reordered {T L} (g g' : grammar T L) : Prop :=
  exists r rest rest', g = r :: rest /\ g' = r :: rest' /\ Permutation rest rest'.
