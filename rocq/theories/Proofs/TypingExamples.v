(** Grammars whose parsers are well typed, and some whose parsers are not. *)
From Coq Require Import Arith Bool String Ascii NArith List Lia.
From Verif Require Import Base.Prelude Spec.Grammar Model.Error Model.LRTable.
From Verif Require Import Model.TokenTree Model.Terminal Model.Constructor Model.CodeGen Model.Runtime Model.Symbol Model.FrontEnd.
From Verif Require Import Model.Diagnostics Model.Rust Model.Emit Model.Expand.
From Verif Require Import Spec.Values Spec.Substitution Spec.Macro Spec.Diagnostics Spec.EmittedCode Spec.EmittedNames Spec.Expansion Spec.Typing.
From Verif Require Import Proofs.Substitution Proofs.MacroMain Proofs.GenExamples Proofs.MacroExamples Proofs.DiagnosticsExamples Proofs.EmitExamples Proofs.ExpandExamples Proofs.Typing.
Import ListNotations.
Open Scope string_scope.
Open Scope list_scope.

Definition tok_ty : list ttree := [TIdent "Tok"].
Definition u32_ty : list ttree := [TIdent "u32"].
Definition std_e : list ttree := [TIdent "std"; TPunct ":" Joint; TPunct ":" Alone; TIdent "E"].

(** Bodies of calculations: numbers and variables with [+] between them. *)
Inductive operand (G : string -> option rty) : ttree -> Prop :=
| op_literal l : operand G (TLiteral l)
| op_variable x : G x = Some (TyWritten u32_ty) -> operand G (TIdent x).
Inductive sum (G : string -> option rty) : list ttree -> Prop :=
| sum_one t : operand G t -> sum G [t]
| sum_plus t sp ts : operand G t -> sum G ts -> sum G (t :: TPunct "+" sp :: ts).

(** Types of numbers, with an enum of tokens and an error type. *)
Definition numbers (variants : list (string * option (list ttree))) (pattern : string -> Prop) (single : string -> Prop) (tok err : list ttree) : user_code :=
  mk_user variants (fun _ _ => False) (fun pat ty => pattern pat /\ ty = u32_ty) single
    (fun ty => ty = tok \/ ty = u32_ty) (fun ty => ty = tok) (fun ty => ty = err) (fun ty ty' => ty = ty')
    (fun _ ts G ty => sum G ts /\ ty = u32_ty).

Definition calc_user : user_code :=
  numbers [("Plus", None); ("Num", Some u32_ty); ("Zero", None); ("Dot", None)] (fun _ => False) (fun _ => False) tok_ty std_e.

Ltac rule_cases H := repeat match type of H with
  | In _ (_ :: _) => destruct H as [H|H]; [subst|]
  | _ = _ \/ _ => destruct H as [H|H]; [subst|]
  | False => destruct H
  | In _ [] => destruct H
  end.

Lemma calc_fits : user_part_fits calc_user calc_decls.
Proof.
  constructor.
  - split; [now left|reflexivity].
  - reflexivity.
  - cbn. repeat constructor; cbn; intuition discriminate.
  - intros s Hs. apply terminals_ok in Hs. vm_compute in Hs. rule_cases Hs; unfold terminal_fits; cbn [d_terminal_type calc_decls sparen sname u_variants calc_user numbers].
    all: try (cbn [In]; tauto). exists u32_ty. split; [cbn [In]; tauto|now right].
  - intros r nd ty ty' own Hr Hb Ht Hn Ha Hl. cbn [d_rules calc_decls] in Hr. unfold calc_rules in Hr. rule_cases Hr; cbn [pr_block pr_type pr_nodes pr_name] in *; try discriminate.
    injection Hn as <-. inversion Ha as [l t L| |]; subst. destruct L as (o & Ho & ->), Hl as (o' & Ho' & ->). vm_compute in Ho, Ho'. injection Ho as <-. injection Ho' as <-. reflexivity.
  - intros i r dl ts body ty G Hi Hb Hs (o & Ho & ->) HG. apply rewrite_ok in Hs.
    assert (Hr : In r calc_rules) by (eapply nth_error_In; exact Hi). clear Hi. unfold calc_rules in Hr.
    rule_cases Hr; cbn [pr_block pr_type pr_nodes pr_name] in *; try discriminate; injection Hb as <- <-; vm_compute in Hs; injection Hs as <-;
      vm_compute in Ho; injection Ho as <-; (split; [|reflexivity]); cbn [map body_text].
    all: repeat first [apply sum_one | apply sum_plus | apply op_literal | apply op_variable].
    all: try (eapply HG; [reflexivity|]).
    all: try (apply at_label; eexists; split; [vm_compute; reflexivity|reflexivity]).
    all: try (apply at_field; [discriminate|vm_compute; auto]).
Qed.

Lemma calc_plain : single_patterns calc_user calc_decls /\ plain_token_type calc_decls /\ parameters_unused calc_decls.
Proof.
  split; [|split].
  - intros n pat H. apply terminals_ok in H. vm_compute in H. rule_cases H; discriminate.
  - repeat constructor.
  - intros x Hx. cbn [In] in Hx. rule_cases Hx; repeat split; vm_compute; intuition discriminate.
Qed.

(** *** Parsers that do not compile *)

Lemma read_with {bm : BuildMode} ts d : well_spaced_b ts = true -> parse_declarations show (tokenize_from_stream ts) = Ok d ->
  well_spaced (trees (placed 1 ts)) /\ reads_as show (trees (placed 1 ts)) d.
Proof.
  intros W P. rewrite placed_trees. assert (W' : well_spaced ts) by (apply well_spaced_ok; exact W). split; auto. apply read_sound; auto.
Qed.

(** name: Calc; enum_terminal: Tok; <S> => Num(1 | 2); *)
Definition or_input : list ttree := calc_head ++ ref "S" ++ arrow ++ [TIdent "Num"; TGroup Parenthesis [TLiteral "1"; TPunct "|" Alone; TLiteral "2"]; semi].
Definition or_decls : declarations :=
  mk_declarations "Calc" (TTEnum tok_ty) None [("S", None)] [mk_prule "S" None [PNSymbol (mk_symbol "Num" (PGPattern "1 | 2 "))] None].
Definition has_bar (s : string) : Prop := In "|"%char (list_ascii_of_string s).
Definition or_user : user_code := numbers [("Num", Some u32_ty)] (fun pat => pat = "1 | 2 ") (fun pat => ~ has_bar pat) tok_ty no_error_type.

(** name: Calc; enum_terminal: Tok<u32>; <S> => A; *)
Definition generic_ty : list ttree := [TIdent "Tok"; TPunct "<" Alone; TIdent "u32"; TPunct ">" Alone].
Definition generic_input : list ttree := option_of "name" [TIdent "Calc"] ++ option_of "enum_terminal" generic_ty ++ ref "S" ++ arrow ++ [TIdent "A"; semi].
Definition generic_decls : declarations :=
  mk_declarations "Calc" (TTEnum generic_ty) None [("S", None)] [mk_prule "S" None [PNSymbol (mk_symbol "A" PGNone)] None].
Definition generic_user : user_code := numbers [("A", None)] (fun _ => False) (fun _ => True) generic_ty no_error_type.

(** name: Calc; enum_terminal: Tok; <S> => <A>; <A>: u32 => !; *)
Definition nothing_input : list ttree := calc_head ++ ref "S" ++ arrow ++ ref "A" ++ [semi] ++ ref "A" ++ colon :: TIdent "u32" :: arrow ++ [TPunct "!" Alone; semi].
Definition nothing_decls : declarations :=
  mk_declarations "Calc" (TTEnum tok_ty) None [("S", None); ("A", Some u32_ty)]
    [mk_prule "S" None [PNProduction "A"] None; mk_prule "A" (Some u32_ty) [PNEpsilon] None].
Definition nothing_user : user_code :=
  mk_user [] (fun _ _ => False) (fun _ _ => False) (fun _ => True) (fun ty => ty = tok_ty) (fun ty => ty = tok_ty) (fun ty => ty = no_error_type)
    (fun ty ty' => ty = ty') (fun _ _ _ _ => False).

(** name: Calc; enum_terminal: Tok; error_type: E; <S> => A; *)
Definition captured_input : list ttree := calc_head ++ option_of "error_type" [TIdent "E"] ++ ref "S" ++ arrow ++ [TIdent "A"; semi].
Definition captured_decls : declarations :=
  mk_declarations "Calc" (TTEnum tok_ty) (Some [TIdent "E"]) [("S", None)] [mk_prule "S" None [PNSymbol (mk_symbol "A" PGNone)] None].
Definition captured_user : user_code := numbers [("A", None)] (fun _ => False) (fun _ => True) tok_ty [TIdent "E"].

Definition item_of (bm : BuildMode) (ts : list ttree) : option emitted := match expand bm ts with Ok (Item _ em) => Some em | _ => None end.
Definition item_or (o : option emitted) : emitted := match o with Some em => em | None => calc_item end.
Definition or_item : emitted := Eval vm_compute in item_or (item_of true or_input).
Definition generic_item : emitted := Eval vm_compute in item_or (item_of true generic_input).
Definition nothing_item : emitted := Eval vm_compute in item_or (item_of true nothing_input).
Definition captured_item : emitted := Eval vm_compute in item_or (item_of true captured_input).

Lemma bad_items (bm : BuildMode) : expand bm or_input = Ok (Item place or_item) /\ expand bm generic_input = Ok (Item place generic_item) /\
  expand bm nothing_input = Ok (Item place nothing_item) /\ expand bm captured_input = Ok (Item place captured_item).
Proof. destruct bm; vm_compute; auto. Qed.

Ltac fits :=
  constructor;
  [ split; [now left || reflexivity|reflexivity]
  | reflexivity
  | cbn; repeat constructor; cbn; intuition discriminate
  | let s := fresh "s" in let Hs := fresh "Hs" in intros s Hs; apply terminals_ok in Hs; vm_compute in Hs; rule_cases Hs
  | let r := fresh "r" in let Hr := fresh "Hr" in let Hb := fresh in let Ht := fresh in let Hn := fresh in let Ha := fresh in
    intros r ? ? ? ? Hr Hb Ht Hn Ha ?; cbn [d_rules or_decls generic_decls nothing_decls captured_decls] in Hr; rule_cases Hr;
    cbn [pr_block pr_type pr_nodes pr_name] in *; try discriminate; injection Hn as <-; inversion Ha
  | let r := fresh "r" in let Hi := fresh "Hi" in let Hb := fresh "Hb" in intros ? r ? ? ? ? ? Hi Hb; apply nth_error_In in Hi; cbn [d_rules or_decls generic_decls nothing_decls captured_decls] in Hi; rule_cases Hi; discriminate Hb ].

Lemma or_fits : user_part_fits or_user or_decls.
Proof. fits. exists u32_ty. split; [now left|]. split; [now right|]. split; reflexivity. Qed.
Lemma generic_fits : user_part_fits generic_user generic_decls.
Proof. fits. now left. Qed.
Lemma nothing_fits : user_part_fits nothing_user nothing_decls.
Proof. fits. Qed.
Lemma captured_fits : user_part_fits captured_user captured_decls.
Proof. fits. now left. Qed.

(** The user's patterns after [ref x @], and the types of tokens in patterns. *)
Fixpoint bound_texts (p : rpat) : list string :=
  match p with
  | PtRefBind _ (PtUser text) => [text]
  | PtRef p | PtRefBind _ p | PtVariant _ _ (Some p) => bound_texts p
  | PtCon _ ps | PtOr ps => flat_map bound_texts ps
  | _ => []
  end.
Fixpoint named_types (p : rpat) : list (list ttree) :=
  match p with
  | PtRef p | PtRefBind _ p => named_types p
  | PtVariant ty _ (Some p) => ty :: named_types p
  | PtVariant ty _ None | PtVariantRest ty _ => [ty]
  | PtCon _ ps | PtOr ps => flat_map named_types ps
  | _ => []
  end.

Lemma texts_single u em :
  (forall pl b p t bs, matches_type u em pl b p t bs -> (forall text, In text (bound_texts p) -> u_single u text) /\ forall ty, In ty (named_types p) -> path_like ty) /\
  (forall pl b ps ts bs, match_types u em pl b ps ts bs ->
    (forall text, In text (flat_map bound_texts ps) -> u_single u text) /\ forall ty, In ty (flat_map named_types ps) -> path_like ty).
Proof.
  apply match_ind; intros; cbn [bound_texts named_types flat_map In] in *; (split; intros z Hi);
    repeat match goal with H : _ /\ _ |- _ => destruct H end; rewrite ?in_app_iff in *; repeat match goal with H : _ \/ _ |- _ => destruct H end; try contradiction; subst; auto.
  - apply in_flat_map in Hi as (q & Hq & Hi). destruct (H1 q Hq). auto.
  - apply in_flat_map in Hi as (q & Hq & Hi). destruct (H1 q Hq). auto.
Qed.

Lemma or_fails : ~ well_typed or_user or_item.
Proof.
  intros W. pose proof (wt_functions _ _ W _ (or_introl eq_refl)) as H.
  assert (Hs : u_single or_user "1 | 2 ").
  { assert (Hp : exists p, In p (patterns (f_body (hd (mk_fn "" [] [] "" EUnit) (em_fns or_item)))) /\ In "1 | 2 " (bound_texts p))
      by (apply in_flat_map; vm_compute; tauto).
    destruct Hp as (q & Hq & Ht). destruct (proj1 (patterns_typed _ _) _ _ _ _ H _ Hq) as (t & bs & Hm). exact (proj1 (proj1 (texts_single _ _) _ _ _ _ _ Hm) _ Ht). }
  apply Hs. vm_compute. tauto.
Qed.

Lemma generic_fails : ~ well_typed generic_user generic_item.
Proof.
  intros W. pose proof (wt_functions _ _ W _ (or_introl eq_refl)) as H.
  assert (Hs : path_like generic_ty).
  { assert (Hp : exists p, In p (patterns (f_body (hd (mk_fn "" [] [] "" EUnit) (em_fns generic_item)))) /\ In generic_ty (named_types p))
      by (apply in_flat_map; vm_compute; tauto).
    destruct Hp as (q & Hq & Ht). destruct (proj1 (patterns_typed _ _) _ _ _ _ H _ Hq) as (t & bs & Hm). exact (proj2 (proj1 (texts_single _ _) _ _ _ _ _ Hm) _ Ht). }
  unfold path_like in Hs. rewrite Forall_forall in Hs. specialize (Hs (TPunct "<" Alone) ltac:(vm_compute; tauto)). discriminate Hs.
Qed.
Lemma nothing_fails : ~ well_typed nothing_user nothing_item.
Proof.
  intros W. pose proof (wt_functions _ _ W _ (or_introl eq_refl)) as H.
  destruct (variables_typed nothing_user nothing_item) as (Hv & _); [intros ? ? ? ? ? []|].
  pose proof (Hv _ _ _ _ H "__v0") as Hx. cbn [f_param map fst] in Hx. destruct Hx as [Hx|[]]; [|discriminate Hx]. vm_compute. tauto.
Qed.

Lemma captured_fails : ~ well_typed captured_user captured_item.
Proof.
  intros W. apply (wt_captures _ _ W _ "E" [TIdent "E"] (or_introl eq_refl)); vm_compute; tauto.
Qed.

Definition declared (ts : list ttree) (d : declarations) : Prop := well_spaced (trees (placed 1 ts)) /\ reads_as show (trees (placed 1 ts)) d.

Lemma bad_declared : declared or_input or_decls /\ declared generic_input generic_decls /\ declared nothing_input nothing_decls /\ declared captured_input captured_decls.
Proof. repeat split; try (apply placed_spaced; vm_compute; reflexivity); rewrite placed_trees; (apply read_sound; [apply well_spaced_ok|]; vm_compute; reflexivity). Qed.

Ltac no_pattern := let H := fresh in intros ? ? H; apply terminals_ok in H; vm_compute in H; rule_cases H; discriminate.
Ltac unused := let Hx := fresh in intros ? Hx; cbn [In] in Hx; rule_cases Hx; repeat split; vm_compute; intuition discriminate.

Lemma or_fails_at : forall bm : BuildMode, exists ts em d u,
  well_spaced (trees ts) /\ reads_as show (trees ts) d /\ defaults_bound (d_rules d) /\
  grammar (bm := bm) place whole join_places show no_lex all_literals forward 50 ts = Ok (Item place em) /\
  user_part_fits u d /\ plain_token_type d /\ parameters_unused d /\ ~ well_typed u em.
Proof.
  intros bm. exists (placed 1 or_input), or_item, or_decls, or_user. destruct bad_declared as ((A & B) & _ & _ & _). repeat (split; [assumption|]).
  split; [apply bound_b_ok; vm_compute; reflexivity|]. split; [apply (bad_items bm)|]. split; [apply or_fits|]. split; [repeat constructor|]. split; [unused|apply or_fails].
Qed.

Lemma generic_fails_at : forall bm : BuildMode, exists ts em d u,
  well_spaced (trees ts) /\ reads_as show (trees ts) d /\ defaults_bound (d_rules d) /\
  grammar (bm := bm) place whole join_places show no_lex all_literals forward 50 ts = Ok (Item place em) /\
  user_part_fits u d /\ single_patterns u d /\ parameters_unused d /\ ~ well_typed u em.
Proof.
  intros bm. exists (placed 1 generic_input), generic_item, generic_decls, generic_user. destruct bad_declared as (_ & (A & B) & _ & _). repeat (split; [assumption|]).
  split; [apply bound_b_ok; vm_compute; reflexivity|]. split; [apply (bad_items bm)|]. split; [apply generic_fits|]. split; [no_pattern|]. split; [unused|apply generic_fails].
Qed.

Lemma nothing_fails_at : forall bm : BuildMode, exists ts em d u,
  well_spaced (trees ts) /\ reads_as show (trees ts) d /\
  grammar (bm := bm) place whole join_places show no_lex all_literals forward 50 ts = Ok (Item place em) /\
  user_part_fits u d /\ single_patterns u d /\ plain_token_type d /\ parameters_unused d /\ ~ well_typed u em.
Proof.
  intros bm. exists (placed 1 nothing_input), nothing_item, nothing_decls, nothing_user. destruct bad_declared as (_ & _ & (A & B) & _). repeat (split; [assumption|]).
  split; [apply (bad_items bm)|]. split; [apply nothing_fits|]. split; [no_pattern|]. split; [repeat constructor|]. split; [unused|apply nothing_fails].
Qed.

Lemma captured_fails_at : forall bm : BuildMode, exists ts em d u,
  well_spaced (trees ts) /\ reads_as show (trees ts) d /\ defaults_bound (d_rules d) /\
  grammar (bm := bm) place whole join_places show no_lex all_literals forward 50 ts = Ok (Item place em) /\
  user_part_fits u d /\ single_patterns u d /\ plain_token_type d /\ ~ well_typed u em.
Proof.
  intros bm. exists (placed 1 captured_input), captured_item, captured_decls, captured_user. destruct bad_declared as (_ & _ & _ & (A & B)). repeat (split; [assumption|]).
  split; [apply bound_b_ok; vm_compute; reflexivity|]. split; [apply (bad_items bm)|]. split; [apply captured_fits|]. split; [no_pattern|]. split; [repeat constructor|apply captured_fails].
Qed.
