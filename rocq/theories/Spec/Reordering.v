(** Declarations whose rules after the first are in another order. *)
From Coq Require Import Arith String List Permutation.
From Verif Require Import Base.Prelude Model.Error.
From Verif Require Import Model.TokenTree Model.Terminal Model.Constructor Model.CodeGen Model.Runtime.
Import ListNotations.

(** The rule of the whole input comes first in both. *)
Definition reordered_rules (rs rs' : list prule) : Prop :=
  exists r rest rest', rs = r :: rest /\ rs' = r :: rest' /\ Permutation rest rest'.

(** Rule [i] of [rs'] is rule [f i] of [rs]. *)
Definition numbering (f : nat -> nat) (rs rs' : list prule) : Prop :=
  f 0 = 0 /\ (forall i j, f i = f j -> i = j) /\ forall i, nth_error rs' i = nth_error rs (f i).

(** The constructors, which [R] names by the numbers of the rules, under other
    numbers: that of rule [i] is what that of rule [f i] was. *)
Definition renumber (f : nat -> nat) (R : rust) : rust :=
  mk_rust (Raw R) (Pay R) (UVal R) (UErr R) (Raw_dec R) (literal_value R) (pat_matches R)
    (fun i => user_ctor R (f i)) (fun i => default_ctor R (f i)).

(** The same error, whatever the numbers of the constructors. *)
Inductive same_error (f : nat -> nat) (R : rust) : parser_error R -> parser_error (renumber f R) -> Prop :=
| same_parse_error (o : option (tok R)) : same_error f R (ParseError R o) (ParseError (renumber f R) o)
| same_overlap (t : tok R) : same_error f R (OverlappingTokenMatchers R t) (OverlappingTokenMatchers (renumber f R) t)
| same_user_error (u : UErr R) : same_error f R (UserError R u) (UserError (renumber f R) u).
