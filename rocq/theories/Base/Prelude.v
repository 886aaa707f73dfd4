(** Base vocabulary shared by the model: the result of running a Rust
    function, the build mode, decidable equality, and the few std-library
    collection operations the code uses. *)
From Coq Require Import Arith Bool String NArith List.
Import ListNotations.

(** What a Rust call can do.  [Ok]/[Err] are the two cases of a returned
    [Result] (for infallible functions only [Ok] is used); [Panic] is a failed
    [expect]/[unwrap]/[debug_assert!]/[unreachable!] or an out-of-range index;
    [Diverge] means that an unbounded Rust loop did not finish within the step
    budget the model was given. *)
Inductive outcome (E A : Type) : Type :=
| Ok (a : A)
| Err (e : E)
| Panic (why : string)
| Diverge.
Arguments Ok {E A} a.
Arguments Err {E A} e.
Arguments Panic {E A} why.
Arguments Diverge {E A}.

Definition bind {E A B} (m : outcome E A) (k : A -> outcome E B) : outcome E B :=
  match m with
  | Ok a => k a
  | Err e => Err e
  | Panic why => Panic why
  | Diverge => Diverge
  end.

(** [Result::map_err] (also used to embed one error type into another). *)
Definition map_err {E F A} (f : E -> F) (m : outcome E A) : outcome F A :=
  match m with
  | Ok a => Ok a
  | Err e => Err (f e)
  | Panic why => Panic why
  | Diverge => Diverge
  end.

Declare Scope outcome_scope.
Delimit Scope outcome_scope with outcome.
Notation "x <- m ;; k" := (bind m (fun x => k))
  (at level 61, m at next level, right associativity) : outcome_scope.
Notation "' p <- m ;; k" := (bind m (fun p => k))
  (at level 61, p pattern, m at next level, right associativity) : outcome_scope.
Open Scope outcome_scope.

(** [cfg(debug_assertions)]: the theorems quantify over it. *)
Class BuildMode := debug_assertions : bool.

(** [debug_assert!(b)]. *)
Definition debug_assert {bm : BuildMode} {E} (b : bool) (why : string) : outcome E unit :=
  if debug_assertions then (if b then Ok tt else Panic why) else Ok tt.

(** [debug_assert!(e)] where evaluating [e] may itself panic. *)
Definition debug_assertM {bm : BuildMode} {E} (m : outcome E bool) (why : string)
  : outcome E unit :=
  if debug_assertions then (b <- m ;; if b then Ok tt else Panic why) else Ok tt.

(** [Option::expect] / [unwrap]. *)
Definition expect {E A} (o : option A) (why : string) : outcome E A :=
  match o with Some a => Ok a | None => Panic why end.

(** Decidable equality, standing for [Eq] (and for [Hash] consistent with it). *)
Class EqDec (A : Type) := eq_dec : forall x y : A, {x = y} + {x <> y}.
#[global] Instance EqDec_nat : EqDec nat := Nat.eq_dec.
#[global] Instance EqDec_N : EqDec N := N.eq_dec.
#[global] Instance EqDec_string : EqDec string := string_dec.
#[global] Instance EqDec_unit : EqDec unit.
Proof. intros [] []; left; reflexivity. Defined.
#[global] Instance EqDec_bool : EqDec bool := bool_dec.
#[global] Instance EqDec_list {A} `{EqDec A} : EqDec (list A) := list_eq_dec eq_dec.
#[global] Instance EqDec_option {A} `{EqDec A} : EqDec (option A).
Proof. intros x y; decide equality; apply eq_dec. Defined.
#[global] Instance EqDec_prod {A B} `{EqDec A} `{EqDec B} : EqDec (A * B).
Proof. intros [a b] [c d]; decide equality; apply eq_dec. Defined.

Definition eqb {A} `{EqDec A} (x y : A) : bool := if eq_dec x y then true else false.

(** Indexing a [Vec]/slice: [v[i]]. *)
Definition index {E A} (l : list A) (i : nat) : outcome E A :=
  match nth_error l i with
  | Some a => Ok a
  | None => Panic "index out of bounds"
  end.

Fixpoint list_set {A} (l : list A) (i : nat) (a : A) : list A :=
  match l, i with
  | [], _ => []
  | _ :: l', 0 => a :: l'
  | x :: l', S i' => x :: list_set l' i' a
  end.

(** Assigning through an index: [v[i] = a]. *)
Definition store {E A} (l : list A) (i : nat) (a : A) : outcome E (list A) :=
  if i <? List.length l then Ok (list_set l i a) else Panic "index out of bounds".

(** Slicing from a start index: [v[i..]]. *)
Definition slice_from {E A} (l : list A) (i : nat) : outcome E (list A) :=
  if i <=? List.length l then Ok (skipn i l) else Panic "range start out of bounds".

(** Slicing [v[a..b]]. *)
Definition slice {E A} (l : list A) (a b : nat) : outcome E (list A) :=
  if (a <=? b) && (b <=? List.length l) then Ok (firstn (b - a) (skipn a l))
  else Panic "range out of bounds".

(** [for x in l { s = f(s, x)? }]. *)
Fixpoint foldM {E S A} (f : S -> A -> outcome E S) (s : S) (l : list A) : outcome E S :=
  match l with
  | [] => Ok s
  | a :: l' => s' <- f s a ;; foldM f s' l'
  end.

(** [l.iter().map(f).collect::<Result<Vec<_>,_>>()]: stops at the first error. *)
Fixpoint mapM {E A B} (f : A -> outcome E B) (l : list A) : outcome E (list B) :=
  match l with
  | [] => Ok []
  | a :: l' => b <- f a ;; bs <- mapM f l' ;; Ok (b :: bs)
  end.

(** The same with a state threaded through the closure (a captured [&mut]). *)
Fixpoint map_accumM {E S A B} (f : S -> A -> outcome E (S * B)) (s : S) (l : list A)
  : outcome E (S * list B) :=
  match l with
  | [] => Ok (s, [])
  | a :: l' =>
      '(s1, b) <- f s a ;;
      '(s2, bs) <- map_accumM f s1 l' ;;
      Ok (s2, b :: bs)
  end.

(** [l.iter().all(f)] with a predicate that may panic. *)
Fixpoint allM {E A} (f : A -> outcome E bool) (l : list A) : outcome E bool :=
  match l with
  | [] => Ok true
  | a :: l' => b <- f a ;; if b then allM f l' else Ok false
  end.

(** An unbounded loop.  [body] returns [inl] to go round again and [inr] to
    leave.  [fuel] bounds the number of rounds. *)
Fixpoint while_loop {E S R} (fuel : nat) (body : S -> outcome E (S + R)) (s : S)
  : outcome E R :=
  match fuel with
  | 0 => Diverge
  | S fuel' =>
      r <- body s ;;
      match r with
      | inl s' => while_loop fuel' body s'
      | inr res => Ok res
      end
  end.

(** [std::collections::HashMap] as an association list with unique keys; the
    order of the list plays no role for [hm_get]/[hm_insert]. *)
Definition hash_map (K V : Type) := list (K * V).

Fixpoint hm_get {K V} `{EqDec K} (k : K) (m : hash_map K V) : option V :=
  match m with
  | [] => None
  | (k', v) :: m' => if eq_dec k k' then Some v else hm_get k m'
  end.

(** Inserting under a key known to be vacant ([Entry::Vacant]). *)
Definition hm_insert_vacant {K V} (k : K) (v : V) (m : hash_map K V) : hash_map K V :=
  m ++ [(k, v)].

(** [fixed_map.rs:7-10] trait [Label]: the id of a key of a fixed-size map. *)
Class Label (K : Type) := label_id : K -> nat.
(** [fixed_map.rs:23-31], [indexed_grammar.rs:35-51]: labels that are ids. *)
#[global] Instance Label_nat : Label nat := fun n => n.
