(** What the grammar of the example program describes: calculations with the
    letters a, b and c and the operators p and x, of which x binds tighter, and
    both of which group to the left. *)
From Coq Require Import Ascii List.
From Verif Require Import Base.Prelude Spec.Grammar.
Import ListNotations.
Open Scope char_scope.

Definition letter (c : ascii) : Prop := In c ["a"; "b"; "c"].
Definition operator (c : ascii) : Prop := In c ["p"; "x"].

(** A letter, or a letter, an operator and a calculation. *)
Inductive calculation : list ascii -> Prop :=
| one c : letter c -> calculation [c]
| more c o w : letter c -> operator o -> calculation w -> calculation (c :: o :: w).

Section Value.
Context {A : Type} (plus times : A -> A -> A) (value : ascii -> A).

(** The value of a calculation, from left to right: [sum] is what has been
    added up before the current product [product]. *)
Definition add (sum : option A) (product : A) : A :=
  match sum with None => product | Some s => plus s product end.
Fixpoint continue (sum : option A) (product : A) (w : list ascii) : option A :=
  match w with
  | [] => Some (add sum product)
  | "p" :: c :: w' => continue (Some (add sum product)) (value c) w'
  | "x" :: c :: w' => continue sum (times product (value c)) w'
  | _ => None
  end.
Definition word_value (w : list ascii) : option A :=
  match w with [] => None | c :: w' => continue None (value c) w' end.

(** The value of a tree: a node with one child is that child, a node with
    three children is the operator in the middle applied to the others. *)
Fixpoint tree_value (t : tree ascii) : option A :=
  match t with
  | Leaf c => Some (value c)
  | Node _ [t1] => tree_value t1
  | Node _ [t1; Leaf o; t2] =>
      match tree_value t1, tree_value t2 with
      | Some a, Some b => if ascii_dec o "p" then Some (plus a b) else if ascii_dec o "x" then Some (times a b) else None
      | _, _ => None
      end
  | Node _ _ => None
  end.
End Value.
