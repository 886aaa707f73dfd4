(** Declarations with other names for the labels. *)
From Coq Require Import Arith String Ascii List.
From Verif Require Import Base.Prelude Model.TokenTree Model.Terminal Model.Constructor Model.FrontEnd.
Import ListNotations.

Section LabelNames.
Variable l : string -> string.

(** The body of a constructor: [#A] becomes [#l(A)], everywhere. *)
Fixpoint rename_in_tree (t : ttree) : ttree :=
  match t with
  | TGroup d ts => TGroup d
      ((fix go (ts : list ttree) : list ttree :=
        match ts with
        | [] => []
        | TPunct "#" Alone :: TIdent n :: ts' => TPunct "#" Alone :: TIdent (l n) :: go ts'
        | t :: ts' => rename_in_tree t :: go ts'
        end) ts)
  | _ => t
  end.
Fixpoint rename_in_body (ts : list ttree) : list ttree :=
  match ts with
  | [] => []
  | TPunct "#" Alone :: TIdent n :: ts' => TPunct "#" Alone :: TIdent (l n) :: rename_in_body ts'
  | t :: ts' => rename_in_tree t :: rename_in_body ts'
  end.

Definition rename_pnode (n : pnode) : pnode :=
  match n with PNProduction name => PNProduction (l name) | _ => n end.

(** Terminals and types are left as they are, also if they have the name of a label. *)
Definition rename_prule (r : prule) : prule :=
  mk_prule (l (pr_name r)) (pr_type r) (map rename_pnode (pr_nodes r)) (option_map (fun b => (fst b, rename_in_body (snd b))) (pr_block r)).

Definition relabelled (d d' : declarations) : Prop :=
  d_name d' = d_name d /\ d_terminal_type d' = d_terminal_type d /\ d_error_type d' = d_error_type d /\
  d_rules d' = map rename_prule (d_rules d).
End LabelNames.
