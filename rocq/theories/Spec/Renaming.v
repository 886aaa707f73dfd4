(** Grammars with other names for the tokens and labels. *)
From Coq Require Import List.
From Verif Require Import Base.Prelude Spec.Grammar Model.Error.
Import ListNotations.

Section Renaming.
Context {T L T' L' : Type}.
Variable t : T -> T'.
Variable l : L -> L'.

Definition rename_aug (a : aug T) : aug T' :=
  match a with Token x => Token (t x) | Epsilon => Epsilon | EndOfStream => EndOfStream end.
Definition rename_node (n : node T L) : node T' L' :=
  match n with Terminal a => Terminal (rename_aug a) | Production x => Production (l x) end.
Definition rename_rule (r : rule T L) : rule T' L' := mk_rule (l (symbol r)) (map rename_node (rhs r)).
Definition rename_grammar (g : grammar T L) : grammar T' L' := map rename_rule g.

(** The same error, with the new names. *)
Definition rename_error (e : lr_error T L) : lr_error T' L' :=
  match e with
  | BuildGrammar EmptyGrammar => BuildGrammar EmptyGrammar
  | BuildGrammar RootProductionRepeated => BuildGrammar RootProductionRepeated
  | BuildGrammar RootProductionReferenced => BuildGrammar RootProductionReferenced
  | BuildGrammar (NotConnected ls) => BuildGrammar (NotConnected (map l ls))
  | UnrecognizedLabel x => UnrecognizedLabel (l x)
  | ShiftConflict a => ShiftConflict (rename_aug a)
  | ShiftReduceConflict i a => ShiftReduceConflict i (rename_aug a)
  | ReduceConflict i j a => ReduceConflict i j (rename_aug a)
  | UnresolvedStates => UnresolvedStates
  | StateResolveConflict => StateResolveConflict
  | Generic m => Generic m
  end.
End Renaming.

(** No two names become one. *)
Definition injective {A B} (f : A -> B) : Prop := forall x y, f x = f y -> x = y.
