(** How the texts of sets, positions, kernels and maps are read. *)
From Coq Require Import Arith String List Sorted Permutation.
From Verif Require Import Base.Prelude Spec.Histories Spec.TableText Model.BitSet Model.Position.
Import ListNotations.
Open Scope string_scope.

(** [text] is the words with [sep] between them. *)
Inductive separated (sep : string) : list string -> string -> Prop :=
| sep_none : separated sep [] ""
| sep_one w : separated sep [w] w
| sep_more w w' ws text : separated sep (w' :: ws) text -> separated sep (w :: w' :: ws) (w ++ sep ++ text).

(** [text] lists the numbers [P] holds of, in increasing order. *)
Definition lists_set (P : nat -> Prop) (text : string) : Prop :=
  exists ids words, StronglySorted lt ids /\ (forall i, In i ids <-> P i) /\ Forall2 numeral ids words /\ separated "/" words text.

(** A rule, a place in it and the history of a set of lookaheads, and the
    position they make. *)
Record item := { it_rule : nat; it_dot : nat; it_follow : set_history }.
Definition item_position {bm : BuildMode} (n : nat) (it : item) (p : position) : Prop :=
  within n (it_follow it) /\ production_id p = it_rule it /\ pos p = it_dot it /\
  run_set (E := unit) n (it_follow it) = Ok (follow_set p).

(** Two items say the same. *)
Definition same_item (a b : item) : Prop :=
  it_rule a = it_rule b /\ it_dot a = it_dot b /\ forall x, members (it_follow a) x <-> members (it_follow b) x.

Definition item_text (it : item) (text : string) : Prop :=
  exists r d f, numeral (it_rule it) r /\ numeral (it_dot it) d /\ lists_set (members (it_follow it)) f /\
    text = "RuleId(" ++ r ++ ") at " ++ d ++ " [" ++ f ++ "]".

(** The order of items: by rule, then by place. *)
Definition item_le (a b : item) : Prop := it_rule a < it_rule b \/ (it_rule a = it_rule b /\ it_dot a <= it_dot b).

(** [text] lists the items in this order, those of the same rule and place as
    they were given. *)
Definition lists_items (its : list item) (text : string) : Prop :=
  exists sorted words body, Permutation its sorted /\ StronglySorted item_le sorted /\
    (forall r d, let here := fun it => andb (Nat.eqb (it_rule it) r) (Nat.eqb (it_dot it) d) in filter here sorted = filter here its) /\
    Forall2 item_text sorted words /\ separated ", " words body /\ text = "{" ++ body ++ "}".

(** [text] lists the entries, keys before values. *)
Definition lists_entries {K V} (show_key : K -> string) (show_value : V -> string) (es : list (K * V)) (text : string) : Prop :=
  exists body, separated ", " (map (fun e => show_key (fst e) ++ ": " ++ show_value (snd e)) es) body /\ text = "[" ++ body ++ "]".
