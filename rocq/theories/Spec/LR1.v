(** FIRST sets, LR(1) items and LR(1) grammars, as in the textbooks (Aho, Sethi,
    Ullman, sections 4.4 and 4.7), for grammars whose right-hand sides may
    contain epsilon nodes. *)
From Coq Require Import List.
From Verif Require Import Base.Prelude Spec.Grammar.
Import ListNotations.

Section LR1.
Context {T L : Type}.
Variable g : grammar T L.

(** One step of rewriting a sentential form, and many. *)
Inductive step : list (node T L) -> list (node T L) -> Prop :=
| step_rule pre r post : In r g -> step (pre ++ Production (symbol r) :: post) (pre ++ rhs r ++ post)
| step_epsilon pre post : step (pre ++ Terminal Epsilon :: post) (pre ++ post).

Inductive steps : list (node T L) -> list (node T L) -> Prop :=
| steps_refl ns : steps ns ns
| steps_step ns ns' ns'' : step ns ns' -> steps ns' ns'' -> steps ns ns''.

(** [a] is in FIRST(ns); epsilon is in FIRST(ns). *)
Definition begins (ns : list (node T L)) (a : aug T) : Prop :=
  a <> Epsilon /\ exists ns', steps ns (Terminal a :: ns').
Definition vanishes (ns : list (node T L)) : Prop := steps ns [].

(** The nodes of rule [i] (without epsilon nodes), the one after the dot and
    those after that. *)
Definition body (i : nat) : list (node T L) :=
  match nth_error g i with
  | Some r => filter (fun nd => negb (is_epsilon nd)) (rhs r)
  | None => []
  end.
Definition next (i p : nat) : option (node T L) := nth_error (body i) p.
Definition after (i p : nat) : list (node T L) := skipn (S p) (body i).

(** Item [(i, p)], rule [i] with the dot before node [p], is valid for the viable
    prefix [γ]. *)
Inductive item : list (node T L) -> nat -> nat -> Prop :=
| item_root : item [] 0 0
| item_closure γ i p j r : item γ i p -> next i p = Some (Production (symbol r)) -> nth_error g j = Some r -> item γ j 0
| item_goto γ i p X : item γ i p -> next i p = Some X -> item (γ ++ [X]) i (S p).

(** The canonical collection of LR(1) items: closure adds the lookaheads
    FIRST(βa). *)
Inductive lr1_item : list (node T L) -> nat -> nat -> aug T -> Prop :=
| lr1_root : lr1_item [] 0 0 EndOfStream
| lr1_closure γ i p a j r b : lr1_item γ i p a -> next i p = Some (Production (symbol r)) -> nth_error g j = Some r ->
    begins (after i p ++ [Terminal a]) b -> lr1_item γ j 0 b
| lr1_goto γ i p a X : lr1_item γ i p a -> next i p = Some X -> lr1_item (γ ++ [X]) i (S p) a.

(** The viable prefix [γ] calls for reducing rule [i] (accepting, if it is the
    root rule) on [a]; it calls for shifting [a]. *)
Definition reduces (γ : list (node T L)) (i : nat) (a : aug T) : Prop :=
  exists p, lr1_item γ i p a /\ next i p = None.
Definition shifts (γ : list (node T L)) (a : aug T) : Prop :=
  exists i p b, lr1_item γ i p b /\ next i p = Some (Terminal a).

Definition lr1_grammar : Prop :=
  (forall γ i j a, reduces γ i a -> reduces γ j a -> i = j) /\
  (forall γ i a, reduces γ i a -> ~ shifts γ a).

(** The same with a more liberal notion of validity, which keeps an item even if
    nothing can follow it.  The two agree if every label derives some word. *)
Inductive lookahead : list (node T L) -> nat -> nat -> aug T -> Prop :=
| lookahead_root : lookahead [] 0 0 EndOfStream
| lookahead_first γ i p j r b : item γ i p -> next i p = Some (Production (symbol r)) -> nth_error g j = Some r ->
    begins (after i p) b -> lookahead γ j 0 b
| lookahead_follow γ i p a j r : lookahead γ i p a -> next i p = Some (Production (symbol r)) -> nth_error g j = Some r ->
    vanishes (after i p) -> lookahead γ j 0 a
| lookahead_goto γ i p a X : lookahead γ i p a -> next i p = Some X -> lookahead (γ ++ [X]) i (S p) a.

Definition may_reduce (γ : list (node T L)) (i : nat) (a : aug T) : Prop :=
  exists p, item γ i p /\ next i p = None /\ (i = 0 -> a = EndOfStream) /\ (i <> 0 -> lookahead γ i p a).
Definition may_shift (γ : list (node T L)) (a : aug T) : Prop :=
  exists i p, item γ i p /\ next i p = Some (Terminal a).

Definition conflict_free : Prop :=
  (forall γ i j a, may_reduce γ i a -> may_reduce γ j a -> i = j) /\
  (forall γ i a, may_reduce γ i a -> ~ may_shift γ a).

End LR1.
