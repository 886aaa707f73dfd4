(** When is a list of production rules a well-formed grammar?  (Specification
    of what [IndexedGrammar::build] is documented to check.) *)
From Coq Require Import List.
From Verif Require Import Base.Prelude Spec.Grammar.
Import ListNotations.

Section Validity.
Context {T L : Type}.

(** [r] mentions label [l] in its right-hand side. *)
Definition uses (r : rule T L) (l : L) : Prop := In (Production l) (rhs r).

(** Some rule defines [l]. *)
Definition defined (g : grammar T L) (l : L) : Prop := exists r, In r g /\ symbol r = l.

(** Every label used is defined. *)
Definition labels_defined (g : grammar T L) : Prop :=
  forall r l, In r g -> uses r l -> defined g l.

(** Labels that can be reached from the first rule. *)
Inductive reachable (g : grammar T L) : L -> Prop :=
| reachable_root r rest : g = r :: rest -> reachable g (symbol r)
| reachable_use r l : reachable g (symbol r) -> In r g -> uses r l -> reachable g l.

(** A rule other than the first may neither define nor use the first label. *)
Definition root_clean (root : L) (r : rule T L) : Prop :=
  symbol r <> root /\ ~ uses r root.

(** [first_offence root rs repeated]: some rule of [rs] breaks [root_clean]; the
    first that does repeats the root label iff [repeated = true]. *)
Definition first_offence (root : L) (rs : list (rule T L)) (repeated : bool) : Prop :=
  exists pre r post, rs = pre ++ r :: post /\ Forall (root_clean root) pre /\
    if repeated then symbol r = root else symbol r <> root /\ uses r root.

(** The documented validity conditions. *)
Definition valid_grammar (g : grammar T L) : Prop :=
  exists root rest, g = root :: rest /\
    Forall (root_clean (symbol root)) rest /\
    labels_defined g /\
    forall l, defined g l -> reachable g l.

End Validity.
