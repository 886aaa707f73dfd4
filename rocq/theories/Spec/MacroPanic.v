(** The inputs on which [grammar!] panics. *)
From Coq Require Import String List.
From Verif Require Import Base.Prelude Model.TokenTree Model.Terminal Model.Constructor Model.Symbol Model.FrontEnd.
From Verif Require Import Spec.Values Spec.Macro.

(** The first rule mentions its own label, or a character is used as a variant
    of an enum. *)
Definition panic_cause (d : declarations) : Prop :=
  (exists r, nth_error (d_rules d) 0 = Some r /\ In (PNProduction (pr_name r)) (pr_nodes r)) \/
  exists s ty, terminal_in (d_rules d) s /\ d_terminal_type d = TTEnum ty /\ character (sname s).

