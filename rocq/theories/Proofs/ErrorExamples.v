(** Runs that end in errors, with their causes and texts. *)
From Coq Require Import Arith Bool String List.
From Verif Require Import Base.Prelude Spec.Grammar Spec.Values Spec.Causes Model.Error.
From Verif Require Import Model.TokenTree Model.Terminal Model.Constructor Model.CodeGen Model.Runtime Model.TableText Model.ParserErrorText.
From Verif Require Import Proofs.TextLayout Proofs.TableText Proofs.GenExamples Proofs.ParserErrors.
Import ListNotations.
Open Scope string_scope.

(** The derived [Debug] of the tokens of the examples. *)
Definition debug_demo (t : tok demo) : string :=
  match t with
  | TRaw r => r
  | TVariant n None => n
  | TVariant n (Some f) => n ++ "(" ++ decimal f ++ ")"
  end.

Definition text (e : parser_error demo) : string := error_text demo debug_demo (fun e => "error: " ++ e) e.

(** The texts of the results of runs. *)
Definition run_text (m : outcome unit (pstate (SErr := string) demo * (val demo + parser_error demo))) : option string :=
  match m with Ok (_, inr e) => Some (text e) | _ => None end.

Lemma texts_ex :
  run_text (run true calc_p (of_list [Num 9; Plus; Plus; Num 1])) = Some "Failed to parse: unexpected Some(Plus)" /\
  run_text (run true calc_p (of_list [Num 9; Plus])) = Some "Failed to parse: unexpected None" /\
  run_text (run true calc_p (of_list [Num 9; Plus; Num 3; Plus; Plus])) = Some "error: overflow" /\
  run_text (run true calc_p (of_list_then [Num 9; Plus] "io" (of_list [Num 1]))) = Some "error: io" /\
  run_text (run true overlap_p (of_list overlap_tokens)) =
    Some "Token Some(Num(1)) matches multiple rules. Disambiguate matchers for tokens of this type.".
Proof. vm_compute. repeat split. Qed.

(** Two nodes before the last sum are evaluated, and the constructor of that sum fails. *)
Lemma cause_ex : exists ds, map fst (flat_map (calls demo calc) ds) = [3; 2; 3; 1] /\ tokens_of demo ds = [Num 9; Plus; Num 3] /\
  error_cause (bm := true) demo calc no_error ds (Some (inl Plus)) (UserError demo "overflow").
Proof.
  pose (cs := [Node 2 [Node 3 [Leaf (num, Num 9)]]; Leaf (variant "Plus", Plus); Node 3 [Leaf (num, Num 3)]] : list (dtree demo)).
  exists [Node 1 cs]. split; [vm_compute; reflexivity|]. split; [vm_compute; reflexivity|].
  change (Some (inl Plus)) with (option_map (@inl (tok demo) string) (Some Plus)).
  eapply (cause_constructor (bm := true) demo calc no_error _ _ [] 1 cs); [reflexivity|constructor| |].
  - unfold cs. repeat constructor; vm_compute; reflexivity.
  - vm_compute. reflexivity.
Qed.
