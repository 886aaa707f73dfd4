(** What is asked of the rules and terminals of a grammar before code is
    generated for it. *)
From Coq Require Import Arith Bool String Ascii List.
From Verif Require Import Base.Prelude Spec.Grammar Model.TokenTree Model.Terminal Model.Constructor Model.CodeGen Model.Symbol Model.FrontEnd Model.Emit.
From Verif Require Import Spec.Substitution Spec.Macro.
Import ListNotations.
Open Scope string_scope.
Open Scope list_scope.

(** The references of the constructor are good; there may be none if a value is
    not needed or is that of the only node. *)
Definition good_rule (r : prule) : Prop :=
  match pr_block r with
  | Some (d, ts) => d = Brace /\ exists body, substituted (pr_nodes r) ts body
  | None => pr_type r = None \/ List.length (pr_nodes r) = 1
  end.

(** Terminals are literals, or names of variants. *)
Definition good_terminal (literal_ok : string -> bool) (tt : terminal_type) (s : user_symbol) : Prop :=
  match tt with
  | TTRaw _ => sparen s = PGNone /\ literal_ok (sname s) = true
  | TTEnum _ => ~ character (sname s)
  end.

(** The type of the values of a grammar is that of its first rule. *)
Definition value_type (rules : list prule) : list ttree :=
  match rules with
  | r :: _ => match pr_type r with Some ty => ty | None => [TGroup Parenthesis []] end
  | [] => [TGroup Parenthesis []]
  end.

(** [::parser_generator::error::NoUserErrorType] *)
Definition no_error_type : list ttree :=
  flat_map (fun n => [TPunct ":" Joint; TPunct ":" Alone; TIdent n]) ["parser_generator"; "error"; "NoUserErrorType"].

(** The item has the names and types that were declared. *)
Definition as_written (d : declarations) (em : emitted) : Prop :=
  em_struct em = d_name d /\
  (d_terminal_type d = TTRaw (em_token em) \/ d_terminal_type d = TTEnum (em_token em)) /\
  em_value em = value_type (d_rules d) /\
  em_error em = match d_error_type d with Some ty => ty | None => no_error_type end.
