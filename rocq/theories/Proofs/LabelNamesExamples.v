(** The calculator with other names for its labels. *)
From Coq Require Import Arith Bool String Ascii NArith List.
From Verif Require Import Base.Prelude Spec.Renaming Spec.LabelNames Spec.Values.
From Verif Require Import Model.TokenTree Model.Terminal Model.Constructor Model.CodeGen Model.Emit Model.Symbol Model.FrontEnd Model.Diagnostics Model.Expand.
From Verif Require Import Spec.Macro Spec.Diagnostics.
From Verif Require Import Proofs.GenExamples Proofs.MacroExamples Proofs.DiagnosticsExamples Proofs.EmitExamples Proofs.ExpandExamples Proofs.MacroRefute Proofs.LabelNames.
Import ListNotations.
Open Scope string_scope.
Open Scope list_scope.

Definition ruled (s : string) : string := ("Rule" ++ s)%string.
Lemma ruled_inj : injective ruled.
Proof. intros x y H. now injection H. Qed.

Definition calc_with (l : string -> string) : list ttree :=
  calc_head ++ option_of "error_type" [TIdent "std"; TPunct ":" Joint; TPunct ":" Alone; TIdent "E"] ++
  ref (l "S") ++ colon :: TIdent "u32" :: arrow ++ ref (l "E") ++ [semi] ++
  ref (l "E") ++ colon :: TIdent "u32" :: arrow ++ ref (l "E") ++ [TIdent "Plus"] ++ ref (l "N") ++
    [TGroup Brace [hash; TLiteral "0"; TPunct "+" Alone; hash; TIdent (l "N")]; bar] ++ ref (l "N") ++ [TGroup Brace [hash; TIdent (l "N")]; semi] ++
  ref (l "N") ++ colon :: TIdent "u32" :: arrow ++ [TIdent "Num"; TGroup Parenthesis [TPunct "." Joint; TPunct "." Alone]; TGroup Brace [hash; TLiteral "0"]; bar; TIdent "Zero"] ++
    ref (l "O") ++ [TGroup Brace [TLiteral "0"]; semi] ++
  ref (l "O") ++ arrow ++ [TPunct "!" Alone; bar; TIdent "Dot"; semi].
Definition calc_ruled : list ttree := calc_with ruled.
Definition calc_ruled_decls : declarations := decls_of calc_ruled.

Lemma ruled_example (bm : BuildMode) : orders_ok forward /\ injective ruled /\
  parse_declarations show (tokenize_from_stream (trees (placed 1 calc_input))) = Ok calc_decls /\
  parse_declarations show (tokenize_from_stream (trees (placed 1 calc_ruled))) = Ok calc_ruled_decls /\ relabelled ruled calc_decls calc_ruled_decls /\
  nth_error (d_rules calc_ruled_decls) 2 = Some (mk_prule "RuleE" (Some [TIdent "u32"]) [PNProduction "RuleN"] (Some (Brace, [hash; TIdent "RuleN"]))) /\
  pub_expand bm calc_input = Ok (Item place calc_item) /\ pub_expand bm calc_ruled = Ok (Item place calc_item).
Proof.
  split; [exact forward_ok|]. split; [exact ruled_inj|]. split; [vm_compute; reflexivity|]. split; [vm_compute; reflexivity|].
  split; [repeat split; vm_compute; reflexivity|]. split; [vm_compute; reflexivity|]. destruct bm; split; vm_compute; reflexivity.
Qed.

(** [E] and [N] become one. *)
Definition merging (s : string) : string := if String.eqb s "N" then "E" else s.
Definition calc_merged : list ttree := calc_with merging.
Lemma merged_labels (bm : BuildMode) : exists d d' em e,
  parse_declarations show (tokenize_from_stream (trees (placed 1 calc_input))) = Ok d /\
  parse_declarations show (tokenize_from_stream (trees (placed 1 calc_merged))) = Ok d' /\ relabelled merging d d' /\
  pub_expand bm calc_input = Ok (Item place em) /\ pub_expand bm calc_merged = Ok (CompileError place e).
Proof.
  exists calc_decls, (decls_of calc_merged), calc_item. eexists. split; [vm_compute; reflexivity|]. split; [vm_compute; reflexivity|].
  split; [repeat split; vm_compute; reflexivity|]. destruct bm; split; vm_compute; reflexivity.
Qed.
